(** The traversal for infinite branching: how many steps the calculation limit counts in a complete traversal. *)
From Coq Require Import List ZArith Bool Lia Arith Permutation.
From Verif Require Import Machine MachineMore GearSpec Spec Common CommonProofs LimitSim TraversalSpec Weight WeightSpec HeapModel DijkstraModel
  InfModel InfSpec InfGraph InfRun InfMore InfReads InfLimit.
Import ListNotations.

Lemma NoDup_app_intro {A} (a b : list A) : NoDup a -> NoDup b -> (forall x, In x a -> ~ In x b) -> NoDup (a ++ b).
Proof.
  induction a as [|x a IH]; simpl; auto. intros Ha Hb H. inversion Ha; subst. constructor; [|apply IH; auto].
  rewrite in_app_iff. intros [C|C]; [auto|]. exact (H x (or_introl eq_refl) C).
Qed.

Section InfCount.
Context {V : Type}.
Variable V_dec : forall a b : V, {a = b} + {a <> b}.
Variable edge : V -> nat -> option (V * option Z).
Notation state := (V * nat)%type.
Notation ZI := ZInfWeights.
Notation W := (option Z).
Notation E := (inf_edge edge).
Hypothesis Hseq : edge_sequences edge.
Hypothesis Hsort : edges_sorted edge.
Hypothesis Hnn : forall v k u w, edge v k = Some (u, w) -> w_leb ZI (Some 0%Z) w = true.
Variable DM : DMap V W None.
Variable PM : PMap V V.
Variable DMi : DMap state W None.
Variable PMi : PMap state state.
Variable LMi : PMap state unit.
Variables build_paths store_distances : bool.
Variable starts : list V.
Hypothesis Hnd : NoDup starts.
Notation St := (fun v => In v starts).
Notation irun := (inf_run V_dec edge DM PM DMi PMi LMi build_paths store_distances starts).

(** The reachable vertices and the positions of their edges, each once *)
Definition graph_lists (lv : list V) (le : list (V * nat)) : Prop :=
  NoDup lv /\ NoDup le /\ (forall v, In v lv <-> wreachable ZI E St v) /\
  (forall v k, In (v, k) le <-> wreachable ZI E St v /\ edge v k <> None).

Lemma reads_of_reachable lim n os r : irun lim n = (os, r) -> forall v k, In (v, k) (n_reads (outcome_state r)) -> wreachable ZI E St v.
Proof.
  intros HR v k Hin. destruct (inf_reads V_dec edge Hseq Hsort Hnn DM PM DMi PMi LMi build_paths store_distances starts Hnd lim n os r HR) as (_ & _ & H3 & H4 & H5 & _).
  destruct k as [|k].
  - apply H4 in Hin. apply in_map_iff in Hin. destruct Hin as ((v' & d) & Hv & Hin). cbn [fst] in Hv. subst v'. destruct (H3 _ _ Hin) as [(s & p & Hs & Hp & _) _]. exists s, p. auto.
  - destruct (H5 _ _ Hin) as (u & b & d & _ & [(s & p & Hs & Hp & _) _] & _). exists s, p. auto.
Qed.

Lemma reads_complete lim n os s lv le : graph_lists lv le -> irun lim n = (os, Ended s) -> length (n_reads s) = length lv + length le.
Proof.
  intros (Hlv & Hle & Hv & He) HR. pose proof (reads_of_reachable _ _ _ _ HR) as Hreach. cbn [outcome_state] in Hreach.
  destruct (inf_reads V_dec edge Hseq Hsort Hnn DM PM DMi PMi LMi build_paths store_distances starts Hnd lim n os _ HR) as (H1 & _ & _ & _ & H5 & H6). cbn [outcome_state] in *.
  assert (HP : Permutation (n_reads s) (map (fun v => (v, 0)) lv ++ map (fun e => (fst e, S (snd e))) le)).
  { apply NoDup_Permutation; auto.
    - apply NoDup_app_intro.
      + apply FinFun.Injective_map_NoDup; auto. intros a b Hab. congruence.
      + apply FinFun.Injective_map_NoDup; auto. intros [a i] [b j] Hab. cbn in Hab. congruence.
      + intros x Hx Hx'. apply in_map_iff in Hx. apply in_map_iff in Hx'. destruct Hx as (a & <- & _), Hx' as (b & Hb & _). discriminate.
    - intros [v k]. rewrite in_app_iff, !in_map_iff. split.
      + intros Hin. specialize (Hreach _ _ Hin). destruct k as [|k]; [left; exists v; split; auto; now apply Hv|right].
        exists (v, k). split; auto. apply He. split; auto. destruct (H5 _ _ Hin) as (u & b & d & Hed & _). congruence.
      + intros [(a & Ha & Hin)|((a & j) & Ha & Hin)]; cbn in Ha.
        * injection Ha as <- <-. apply (H6 s eq_refl). now apply Hv.
        * injection Ha as <- <-. apply He in Hin. destruct Hin as [Hin Hed]. now apply (H6 s eq_refl). }
  apply Permutation_length in HP. rewrite HP, app_length, !map_length. reflexivity.
Qed.

(** A limit that is at least the number of vertices and edges changes nothing, a smaller one raises. *)
Theorem inf_limit_count lv le c : graph_lists lv le -> finite_weights edge -> (0 <= c)%Z ->
  exists n os s, irun None n = (os, Ended s) /\
    ((Z.of_nat (length lv + length le) <= c)%Z -> exists s', irun (Some c) n = (os, Ended s') /\ inf_forget_limit DM PM DMi PMi LMi s' = s) /\
    ((c < Z.of_nat (length lv + length le))%Z -> exists os' s', irun (Some c) n = (os', Raised RuntimeErrorLimit s') /\ exists ext, os = os' ++ ext).
Proof.
  intros HG Hfin Hc. pose proof HG as (_ & _ & Hv & He).
  destruct (inf_terminates V_dec edge Hseq Hsort Hnn DM PM DMi PMi LMi build_paths store_distances starts Hnd lv le) as (n & os & s & HR).
  { intros v Hr. now apply Hv. } { intros v k u w Hr Hed. apply He. split; auto. congruence. }
  destruct HR as [HR|HR].
  - exists n, os, s. split; auto. pose proof (reads_complete _ _ _ _ _ _ HG HR) as Hlen.
    destruct (irun (Some c) n) as [os' r'] eqn:HR'.
    destruct (inf_limit_reads V_dec edge DM PM DMi PMi LMi build_paths store_distances Hseq Hsort Hnn starts c n os _ os' r' Hnd Hc HR HR') as (_ & H2 & H3). cbn [outcome_state] in *. rewrite Hlen in H2, H3.
    split.
    + intros Hle. destruct (H2 Hle) as [-> Hm]. destruct r' as [s'|s'|x s']; try discriminate. injection Hm as Hm. eauto.
    + intros Hgt. destruct (H3 Hgt) as ((s' & ->) & _ & Hext). eauto.
  - exfalso. apply (inf_no_overflow V_dec edge Hseq Hsort Hnn DM PM DMi PMi LMi build_paths store_distances starts Hnd None n s Hfin). rewrite HR. reflexivity.
Qed.
End InfCount.
