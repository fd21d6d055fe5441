(** Proofs for C121: options of TraversalShortestPathsInfBranchingSorted.  The reports are those of the internal traversal (InfRun), and its reports, but for
    the predecessors, do not depend on the options (OptSim). *)
From Coq Require Import List ZArith Bool Arith Lia.
From Verif Require DFSModel.
From Verif Require Import Machine GearSpec Common Weight DijkstraModel OptSpec OptSim InfModel InfSpec InfGraph InfRun.
Import ListNotations.

Section InfOpt.
Context {V : Type} (V_dec : forall a b : V, {a = b} + {a <> b}).
Variable edge : V -> nat -> option (V * option Z).
Variable DM : DMap V (option Z) None.
Variable PM : PMap V V.
Variable DMi : DMap (V * nat) (option Z) None.
Variable PMi : PMap (V * nat) (V * nat).
Variable LMi : PMap (V * nat) unit.
Variable starts : list V.
Notation dreport := (@dij_report (V * nat) (V * nat) unit ZInfWeights DMi PMi LMi).
Notation view := (view DM PM DMi PMi LMi).

Definition same_place (a b : dreport) : Prop := dr_vertex a = dr_vertex b /\ dr_distance a = dr_distance b.
Lemma out_dist_alike st : forall os1 os2, Forall2 same_place os1 os2 -> out_dist DM DMi PMi LMi st starts os1 = out_dist DM DMi PMi LMi st starts os2.
Proof.
  unfold out_dist. generalize (define_distances ZInfWeights DM None (if st then map (fun v => (v, Some 0%Z)) starts else []) false).
  intros D os1 os2 F. revert D. induction F as [|a b l1 l2 [Ha Hb] F IH]; intros D; cbn; auto. unfold base. rewrite Ha, Hb. apply IH.
Qed.
Lemma view_alike bp1 bp2 st1 st2 : forall os1 os2, Forall2 same_place os1 os2 -> forall pre1 pre2, Forall2 same_place pre1 pre2 ->
  map (fun o => (nr_vertex o, nr_distance o)) (view bp1 st1 starts pre1 os1) = map (fun o => (nr_vertex o, nr_distance o)) (view bp2 st2 starts pre2 os2) /\
  (st1 = st2 -> map nr_distances (view bp1 st1 starts pre1 os1) = map nr_distances (view bp2 st2 starts pre2 os2)).
Proof.
  intros os1 os2 F. induction F as [|a b l1 l2 Hab F IH]; intros pre1 pre2 Hp; [now split|].
  assert (Hp' : Forall2 same_place (pre1 ++ [a]) (pre2 ++ [b])) by (apply Forall2_app; auto).
  destruct (IH _ _ Hp') as [I1 I2]. cbn [InfRun.view]. rewrite !map_app, I1. destruct Hab as [Ha Hb]. unfold base. rewrite Ha. split.
  - f_equal. destruct (Nat.eqb _ _); cbn; [|reflexivity]. now rewrite Hb.
  - intros E. rewrite (I2 E). f_equal. destruct (Nat.eqb _ _); cbn; [|reflexivity]. rewrite E, (out_dist_alike st2 _ _ Hp'). reflexivity.
Qed.
Lemma view_preds bp st1 st2 : forall os pre, map nr_pred (view bp st1 starts pre os) = map nr_pred (view bp st2 starts pre os).
Proof.
  induction os as [|a os IH]; intros pre; [reflexivity|]. cbn [InfRun.view]. rewrite !map_app, IH. f_equal. destruct (base DMi PMi LMi a); reflexivity.
Qed.

Hypothesis Hseq : edge_sequences edge.
Hypothesis Hsort : edges_sorted edge.
Hypothesis Hnn : edges_nonnegative edge.
Hypothesis Hnd : NoDup starts.
Notation irun := (inf_run V_dec edge DM PM DMi PMi LMi).

Theorem inf_options lim n bp1 bp2 st1 st2 os1 r1 os2 r2 : irun bp1 st1 starts lim n = (os1, r1) -> irun bp2 st2 starts lim n = (os2, r2) ->
  map (fun o => (nr_vertex o, nr_distance o)) os1 = map (fun o => (nr_vertex o, nr_distance o)) os2 /\
  outcome_map (fun s => (n_calls s, n_reads s)) r1 = outcome_map (fun s => (n_calls s, n_reads s)) r2 /\
  (bp1 = bp2 -> map nr_pred os1 = map nr_pred os2 /\ n_pred (outcome_state r1) = n_pred (outcome_state r2)) /\
  (st1 = st2 -> map nr_distances os1 = map nr_distances os2 /\ n_distances (outcome_state r1) = n_distances (outcome_state r2)).
Proof.
  intros E1 E2.
  destruct (inf_is_dijkstra V_dec edge Hseq Hsort Hnn DM PM DMi PMi LMi bp1 st1 starts Hnd lim n os1 r1 E1) as (p1 & q1 & D1 & V1 & S1 & K1).
  destruct (inf_is_dijkstra V_dec edge Hseq Hsort Hnn DM PM DMi PMi LMi bp2 st2 starts Hnd lim n os2 r2 E2) as (p2 & q2 & D2 & V2 & S2 & K2).
  destruct (dij_options (fun s : V * nat => s) ZInfWeights PMi LMi (snext edge) DMi (map (fun v : V => (v, 0)) starts) None lim n (inf_inner_cfg bp1) (inf_inner_cfg bp2) p1 q1 p2 q2 eq_refl eq_refl D1 D2) as [H1 H2].
  assert (F : Forall2 same_place p1 p2).
  { clear - H1. revert p2 H1. induction p1 as [|a p1 IH]; intros [|b p2] H; cbn in H; try discriminate; constructor.
    - injection H; intros. unfold same_place. auto.
    - apply IH. injection H; auto. }
  destruct (view_alike bp1 bp2 st1 st2 p1 p2 F [] [] (Forall2_nil _)) as [W1 W2].
  assert (C : d_calls (outcome_state q1) = d_calls (outcome_state q2)).
  { destruct q1, q2; cbn in H2; try discriminate; injection H2; cbn; auto. }
  split; [now rewrite V1, V2|]. split; [|split].
  - destruct S1 as [_ _ _ C1 R1 _], S2 as [_ _ _ C2 R2 _]. rewrite C in C1, R1. rewrite <- C2 in C1. rewrite <- R2 in R1.
    destruct q1, q2; cbn in H2; try discriminate; destruct r1, r2; try contradiction; cbn in C1, R1; cbn; rewrite C1, R1; try reflexivity.
    subst. injection H2; intros _ _ ->. reflexivity.
  - intros ->. rewrite D1 in D2. injection D2; intros -> ->. split; [rewrite V1, V2; apply view_preds|].
    rewrite (s_pred _ _ _ _ _ _ _ _ _ _ _ S1), (s_pred _ _ _ _ _ _ _ _ _ _ _ S2). reflexivity.
  - intros E. split; [rewrite V1, V2; now apply W2|].
    rewrite (s_dist _ _ _ _ _ _ _ _ _ _ _ S1), (s_dist _ _ _ _ _ _ _ _ _ _ _ S2), E. now apply out_dist_alike.
Qed.
End InfOpt.
