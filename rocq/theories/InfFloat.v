(** TraversalShortestPathsInfBranchingSorted with floats: where all exact sums have few enough bits, the reports are exact. *)
From Coq Require Import List ZArith Bool Arith Lia Sorted.
From Verif Require Import Machine GearSpec Common Weight WeightSpec DijkstraModel FloatModel SignedFloat InfModel InfSpec InfGraph InfRun InfMore InfNumModel ReduceProofs InfNumProofs InfFloatSpec.
Import ListNotations.
Local Open Scope nat_scope.

Section InfFloat.
Context {V : Type}.
Variable V_dec : forall a b : V, {a = b} + {a <> b}.
Variables prec largest : Z.
Hypothesis Hprec : (1 <= prec)%Z.
Hypothesis Hlarge : (0 <= largest)%Z.
Notation FW := (SignedWeights prec largest Hprec Hlarge).
Notation ZI := ZInfWeights.
Notation sfl := (sfloat prec largest).
Variable edge : V -> nat -> option (V * sfl).
Hypothesis Hseq : forall v k, edge v k = None -> edge v (S k) = None.
Hypothesis Hsort : forall v k u a u' b, edge v k = Some (u, a) -> edge v (S k) = Some (u', b) -> s_leb prec largest a b = true.
Hypothesis Hnn : forall v k u a, edge v k = Some (u, a) -> s_leb prec largest (Finite prec largest (s_zero prec largest Hprec Hlarge)) a = true.
Variable j : Z.
Hypothesis Hj : (0 <= j)%Z.
Hypothesis Hmult : forall v k u a, edge v k = Some (u, Finite prec largest a) -> (2 ^ j | sfin_value prec largest a)%Z.

Definition rlf (a : sfl) (z : option Z) : Prop := match a with Finite _ _ x => z = Some (sfin_value prec largest x) | PosInf _ _ => z = None | NegInf _ _ => False end.
Definition smallf (z : Z) : Prop := (0 <= z < 2 ^ (prec + j) /\ z <= largest /\ (2 ^ j | z))%Z.

Lemma rlf_leb a z b y : rlf a z -> rlf b y -> w_leb FW a b = w_leb ZI z y.
Proof. destruct a, b; cbn; intros; subst; try contradiction; reflexivity. Qed.
Lemma sexact z : (Z.abs z < 2 ^ (prec + j))%Z -> (Z.abs z <= largest)%Z -> (2 ^ j | z)%Z -> exists a, sfloat_of prec largest z = Finite prec largest a /\ sfin_value prec largest a = z.
Proof using Hprec Hlarge Hj.
  intros H1 H2 (m & ->). rewrite Z.pow_add_r in H1 by lia. pose proof (Z.pow_pos_nonneg 2 j ltac:(lia) Hj) as Hp.
  assert (Hm : (Z.abs m < 2 ^ prec)%Z) by nia.
  assert (Hr : sround prec (m * 2 ^ j) = (m * 2 ^ j)%Z).
  { unfold sround. destruct (Z.leb_spec 0 (m * 2 ^ j)).
    - apply round_short; [exact Hprec| |exact Hj]. nia.
    - replace (- (m * 2 ^ j))%Z with ((- m) * 2 ^ j)%Z by lia. rewrite round_short; [lia|exact Hprec| |exact Hj]. nia. }
  pose proof (sfloat_of_spec prec largest Hprec Hlarge (m * 2 ^ j)) as H. rewrite Hr in H. destruct (sfloat_of prec largest (m * 2 ^ j)) as [|a|]; [lia| |lia]. exists a. auto.
Qed.
Lemma rlf_exact len zl base zb sd w zs : rlf len zl -> rlf base zb -> rlf sd (Some zs) -> rlf w (Some zs) -> oks smallf zb -> smallf zs -> oks smallf (w_add ZI zl zb) ->
  rlf (w_add FW (s_sub prec largest (w_add FW len base) sd) w) (w_add ZI zl zb).
Proof using Hj.
  intros H1 H2 H3 H4 H5 H6 H7. destruct sd as [|sd|]; try contradiction; try discriminate H3. destruct w as [|w|]; try contradiction; try discriminate H4. cbn in H3, H4. injection H3 as ->. injection H4 as H4.
  destruct len as [|x|]; try contradiction; cbn in H1; subst zl; [|reflexivity].
  destruct base as [|y|]; try contradiction; cbn in H2; subst zb; [|reflexivity].
  cbn [w_add ZInfWeights SignedWeights s_add] in *. specialize (H7 _ eq_refl). change (smallf (sfin_value prec largest x + sfin_value prec largest y)) in H7.
  destruct H7 as (A1 & A2 & A3), H6 as (B1 & B2 & B3).
  destruct (sexact (sfin_value prec largest x + sfin_value prec largest y)) as (a & Ea & Va); [lia|lia|exact A3|]. rewrite Ea. cbn [s_sub]. rewrite Va.
  destruct (sexact (sfin_value prec largest x + sfin_value prec largest y - sfin_value prec largest sd)) as (b & Eb & Vb); [lia|lia|apply Z.divide_sub_r; assumption|]. rewrite Eb. cbn [s_add]. rewrite Vb, <- H4.
  replace (sfin_value prec largest x + sfin_value prec largest y - sfin_value prec largest sd + sfin_value prec largest sd)%Z with (sfin_value prec largest x + sfin_value prec largest y)%Z by lia. rewrite Ea. cbn. now rewrite Va.
Qed.

Notation xedge := (exact_edge prec largest edge).
Lemma x_seq : edge_sequences xedge.
Proof using Hseq. intros v k. unfold exact_edge. destruct (edge v k) as [[u a]|] eqn:E; [discriminate|]. now rewrite (Hseq v k E). Qed.
Lemma x_rel v k : match edge v k, xedge v k with Some (u, b), Some (u', b') => u = u' /\ rlf b b' | None, None => True | _, _ => False end.
Proof using Hnn.
  unfold exact_edge. destruct (edge v k) as [[u a]|] eqn:E; [|exact Logic.I]. split; [reflexivity|]. pose proof (Hnn v k u a E) as H. destruct a; [discriminate|reflexivity|reflexivity].
Qed.
Lemma x_sort : edges_sorted xedge.
Proof using Hsort Hnn.
  intros v k u a u' b H1 H2. pose proof (x_rel v k) as R1. pose proof (x_rel v (S k)) as R2. rewrite H1 in R1. rewrite H2 in R2.
  destruct (edge v k) as [[v1 a1]|] eqn:E1; [|contradiction]. destruct (edge v (S k)) as [[v2 a2]|] eqn:E2; [|contradiction]. rewrite <- (rlf_leb _ _ _ _ (proj2 R1) (proj2 R2)). exact (Hsort _ _ _ _ _ _ E1 E2).
Qed.
Lemma x_nn : edges_nonnegative xedge.
Proof using Hnn.
  intros v k u a H1. pose proof (x_rel v k) as R1. rewrite H1 in R1. destruct (edge v k) as [[v1 a1]|] eqn:E1; [|contradiction].
  assert (R0 : rlf (Finite prec largest (s_zero prec largest Hprec Hlarge)) (w_zero ZI)) by reflexivity. pose proof (rlf_leb _ _ _ _ R0 (proj2 R1)) as HL. change (w_zero ZI) with (Some 0%Z) in HL. transitivity (w_leb FW (Finite prec largest (s_zero prec largest Hprec Hlarge)) a1); [symmetry; exact HL|]. exact (Hnn _ _ _ _ E1).
Qed.

Variable DM : DMap (V * nat) (w_t FW) (w_inf FW).
Variable PM : PMap (V * nat) (V * nat).
Variable LM : PMap (V * nat) unit.
Variable DMr : DMap V (option Z) None.
Variable PMr : PMap V V.
Variable DMi : DMap (V * nat) (option Z) None.
Variable PMi : PMap (V * nat) (V * nat).
Variable LMi : PMap (V * nat) unit.
Variable starts : list V.
Hypothesis Hnd : NoDup starts.
Variable lim : option Z.
Variable n : nat.
Notation xrun := (inf_run V_dec xedge DMr PMr DMi PMi LMi false false starts lim n).
Notation frun := (num_run V_dec FW (s_sub prec largest) edge DM PM LM starts lim n).
Notation dist := (is_distance ZI (inf_edge xedge) (fun s => In s starts)).
Hypothesis Hreads : forall v k u a d, In (v, k) (n_reads (outcome_state (snd xrun))) -> edge v k = Some (u, Finite prec largest a) -> dist v (Some d) ->
  (sfin_value prec largest a + d < 2 ^ (prec + j) /\ sfin_value prec largest a + d <= largest)%Z.

Theorem float_same :
  Forall2 (fun p rep => fst p = nr_vertex rep /\ exists a, snd p = Finite prec largest a /\ nr_distance rep = Some (sfin_value prec largest a)) (fst frun) (fst xrun) /\ same_end (snd frun) (snd xrun).
Proof.
  destruct (num_exact V_dec FW (s_sub prec largest) edge xedge x_seq x_sort x_nn DM PM LM DMr PMr DMi PMi LMi starts rlf smallf rlf_leb eq_refl eq_refl
    ltac:(split; [split; [lia|apply Z.pow_pos_nonneg; lia]|split; [exact Hlarge|apply Z.divide_0_r]]) x_rel rlf_exact Hnd lim n) as (H1 & H2).
  - intros v k u b d Hin He Hd Hs z Hz. destruct b as [b|]; [|discriminate Hz]. destruct d as [d|]; [|discriminate Hz].
    unfold exact_edge in He. destruct (edge v k) as [[u' a]|] eqn:E; [|discriminate]. injection He as -> Ha. destruct a as [|a|]; try discriminate Ha. cbn in Ha. injection Ha as <-.
    destruct (Hreads v k u a d Hin E Hd) as (R1 & R2). destruct (Hs d eq_refl) as (S1 & S2 & S3). pose proof (Hnn v k u _ E) as H0. cbn in H0. apply Z.leb_le in H0.
    cbn in Hz. injection Hz as <-. split; [lia|]. split; [lia|]. apply Z.divide_add_r; [exact (Hmult v k u a E)|exact S3].
  - split; [|exact H2]. pose proof (inf_reports V_dec xedge x_seq x_sort x_nn DMr PMr DMi PMi LMi false false starts Hnd lim n) as HR.
    destruct xrun as [os r] eqn:Ex. cbn [fst] in *. destruct (HR os r eq_refl) as (_ & _ & Hf & _). clear - H1 Hf. induction H1 as [|p rep l l' (P1 & P2) Hl IH]; [constructor|]. constructor.
    + split; [exact P1|]. destruct (Hf rep (or_introl eq_refl)) as (_ & _ & Hne). destruct p as [pv [|a|]]; [contradiction| |contradiction]. exists a. split; [reflexivity|exact P2].
    + apply IH. intros rep' Hin. apply Hf. now right.
Qed.

Theorem float_reports os r : frun = (os, r) ->
  NoDup (map fst os) /\
  StronglySorted (fun p q => s_leb prec largest (snd p) (snd q) = true) os /\
  (forall v w, In (v, w) os -> ~ In v starts /\ exists a, w = Finite prec largest a /\ dist v (Some (sfin_value prec largest a))) /\
  (forall s, r = Ended s -> forall v, wreachable ZI (inf_edge xedge) (fun s => In s starts) v -> In v starts \/ In v (map fst os)).
Proof.
  intros E. destruct float_same as (H1 & H2). rewrite E in H1, H2. cbn [fst snd] in H1, H2.
  pose proof (inf_reports V_dec xedge x_seq x_sort x_nn DMr PMr DMi PMi LMi false false starts Hnd lim n) as HR. destruct xrun as [xs xr] eqn:Ex. cbn [fst snd] in *. destruct (HR xs xr eq_refl) as (R1 & R2 & R3 & R4).
  assert (Hm : map fst os = map nr_vertex xs). { clear - H1. induction H1 as [|p rep l l' (P1 & P2) Hl IH]; [reflexivity|]. cbn [map]. f_equal; [exact P1|exact IH]. }
  split; [now rewrite Hm|]. split; [|split].
  - clear - H1 R2. induction H1 as [|p rep l l' (P1 & a & P2 & P3) Hl IH]; [constructor|]. inversion R2 as [|? ? S1 S2]; subst. constructor; [apply IH; exact S1|].
    clear - Hl S2 P2 P3. induction Hl as [|q rep' l l' (Q1 & b & Q2 & Q3) Hl IH]; [constructor|]. inversion S2 as [|? ? T1 T2]; subst. constructor; [|apply IH; exact T2].
    rewrite P2, Q2. rewrite P3, Q3 in T1. exact T1.
  - intros v w Hin. assert (Hex : exists rep, In rep xs /\ v = nr_vertex rep /\ exists a, w = Finite prec largest a /\ nr_distance rep = Some (sfin_value prec largest a)).
    { clear - H1 Hin. induction H1 as [|p rep l l' (P1 & P2) Hl IH]; [contradiction|]. destruct Hin as [->|Hin]; [exists rep; split; [now left|]; auto|]. destruct (IH Hin) as (rep' & I1 & I2). exists rep'. split; [now right|exact I2]. }
    destruct Hex as (rep & Hr & -> & a & -> & Hd). destruct (R3 rep Hr) as (T1 & T2 & _). split; [exact T1|]. exists a. split; [reflexivity|]. now rewrite <- Hd.
  - intros s -> v Hv. rewrite Hm. unfold same_end in H2. destruct xr as [?|s'|? ?]; try contradiction. exact (R4 s' eq_refl v Hv).
Qed.
End InfFloat.
