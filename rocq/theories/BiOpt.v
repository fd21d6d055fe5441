(** Proofs for C120: two bidirectional searches with different options proceed in lock step. *)
From Coq Require Import List Arith Lia ZArith Bool.
From Verif Require DFSModel.
From Verif Require Import Common GearSpec Machine MachineSim Weight BFSModel DijkstraModel PathModel HeapModel OptSpec OptSim BiBFSModel BiSPModel BiOptSpec.
Import ListNotations.

Lemma silenced_run {S O} (loud silent : S -> step_result S O exn) (failed : O) :
  (forall s, match loud s with Raise o KeyErrorNotFound t => silent s = Halt (o ++ [failed]) t | r => silent s = r end) ->
  forall n s, silenced failed (run loud n s) (run silent n s).
Proof.
  intros H n. induction n as [|n IH]; intros s; [reflexivity|]. cbn. specialize (H s). unfold silenced in *.
  destruct (loud s) as [o t|o t|o x t].
  - rewrite H. specialize (IH t). destruct (run loud n t) as [os r]. cbn in *. destruct r as [u|u|x u]; try (now rewrite IH).
    destruct x; rewrite IH; cbn; try reflexivity. now rewrite app_assoc.
  - now rewrite H.
  - destruct x; cbn; now rewrite H.
Qed.

Section Unweighted.
Context {V I L : Type} (V_dec : forall a b : V, {a = b} + {a <> b}) (I_dec : forall a b : I, {a = b} + {a <> b}).
Context (vid : V -> I) (VS : VSet I) (PM : PMap I V) (LM : PMap I L) (next_f next_b : V -> list (V * L)).

(** [P]: whether the predecessors are the same, too *)
Definition bfs_alike_pred (P : bool) (s1 s2 : @bfs_state V I L VS PM LM) : Prop := bfs_alike VS PM LM s1 s2 /\ (P = true -> b_pred s1 = b_pred s2).
Definition bb_alike (P : bool) (s1 s2 : @bb_state V I L VS PM LM) : Prop :=
  bb_forwards s1 = bb_forwards s2 /\ bb_prev s1 = bb_prev s2 /\
  bs_depth (bb_current s1) = bs_depth (bb_current s2) /\ bs_depth (bb_other s1) = bs_depth (bb_other s2) /\
  bfs_alike_pred P (bs_state (bb_current s1)) (bs_state (bb_current s2)) /\ bfs_alike_pred P (bs_state (bb_other s1)) (bs_state (bb_other s2)).
Definition bb_report_alike (P : bool) (o1 o2 : @bb_result V L) : Prop :=
  br_length o1 = br_length o2 /\ (P = true -> same_vertices (br_path o1) (br_path o2)).

Definition rep_alike (o1 o2 : @bfs_report V I L VS PM LM) : Prop := br_vertex o1 = br_vertex o2 /\ br_depth o1 = br_depth o2.
Lemma bfs_step_alike nx bp1 bp2 lab1 lab2 (P : bool) s1 s2 : (P = true -> bp1 = bp2) -> bfs_alike_pred P s1 s2 ->
  step_rel (bfs_alike_pred P) rep_alike (X := exn) (bfs_step vid VS PM LM nx (bb_cfg lab1 bp1) s1) (bfs_step vid VS PM LM nx (bb_cfg lab2 bp2) s2).
Proof.
  intros HP [H Hp]. destruct s1 as [p1 q1 z1 d1 v1 pr1 l1 m1 k1], s2 as [p2 q2 z2 d2 v2 pr2 l2 m2 k2]. unfold bfs_alike in H. cbn in H.
  destruct H as (-> & -> & -> & -> & -> & -> & ->). cbn in Hp. unfold bfs_step, bfs_mark, bfs_observe, bfs_alike_pred, bfs_alike, rep_alike, bb_cfg. cbn.
  repeat (branch; cbn); cbn; repeat split; auto; repeat constructor; auto.
  all: try (intros E; specialize (HP E); specialize (Hp E); congruence).
Qed.
Lemma bb_consume_alike bp1 bp2 lab1 lab2 (P : bool) : (P = true -> bp1 = bp2) -> forall o1 o2, Forall2 rep_alike o1 o2 -> forall s1 s2, bb_alike P s1 s2 ->
  step_rel (bb_alike P) (bb_report_alike P) (X := exn) (bb_consume V_dec vid VS PM LM lab1 bp1 s1 o1) (bb_consume V_dec vid VS PM LM lab2 bp2 s2 o2).
Proof.
  intros HP o1 o2 F. induction F as [|a b o1 o2 [Ha Hb] F IH]; intros s1 s2 H; [cbn; auto|].
  destruct s1 as [f1 [c1 dc1] [t1 dt1] p1], s2 as [f2 [c2 dc2] [t2 dt2] p2]. unfold bb_alike in H. cbn in H. destruct H as (-> & -> & -> & -> & Hc & Ht).
  cbn. rewrite <- Ha, <- Hb.
  assert (Hv : b_visited t1 = b_visited t2) by (destruct Ht as [Ht _]; unfold bfs_alike in Ht; tauto).
  match goal with |- context [if ?b then Go _ _ else _] => destruct b end.
  - cbn. split; [constructor|]. unfold bb_alike. cbn. tauto.
  - rewrite <- Hv. destruct (vs_mem VS (vid (br_vertex a)) (b_visited t1)).
    + cbn. split.
      * constructor; [|constructor]. split; [reflexivity|]. intros E. cbn. specialize (HP E). subst bp2. destruct Hc as [_ Hc], Ht as [_ Ht]. specialize (Hc E). specialize (Ht E).
        destruct bp1; [|intros fuel; cbn; auto]. intros fuel. destruct f2; cbn; rewrite Hc, Ht; auto.
      * unfold bb_alike. cbn. tauto.
    + apply IH. unfold bb_alike, bb_set_current. cbn. tauto.
Qed.
Lemma bb_step_alike bp1 bp2 lab1 lab2 fs (P : bool) s1 s2 : (P = true -> bp1 = bp2) -> bb_alike P s1 s2 ->
  step_rel (bb_alike P) (bb_report_alike P) (bb_step V_dec vid VS PM LM next_f next_b lab1 bp1 fs s1) (bb_step V_dec vid VS PM LM next_f next_b lab2 bp2 fs s2).
Proof.
  intros HP H. destruct s1 as [f1 [c1 dc1] [t1 dt1] p1], s2 as [f2 [c2 dc2] [t2 dt2] p2]. unfold bb_alike in H. cbn in H. destruct H as (-> & -> & -> & -> & Hc & Ht).
  unfold bb_step. cbn.
  pose proof (bfs_step_alike (if f2 then next_f else next_b) bp1 bp2 lab1 lab2 P c1 c2 HP Hc) as S. unfold step_rel in S.
  destruct (bfs_step _ _ _ _ _ (bb_cfg lab1 bp1) c1) as [o1 u1|o1 u1|o1 x1 u1], (bfs_step _ _ _ _ _ (bb_cfg lab2 bp2) c2) as [o2 u2|o2 u2|o2 x2 u2]; try contradiction.
  - destruct S as [So Su]. apply bb_consume_alike; auto. unfold bb_alike. cbn. tauto.
  - destruct S as [So Su]. 
    assert (HA : bb_alike P (Build_bb_state VS PM LM f2 (Build_bb_side VS PM LM u1 dc2) (Build_bb_side VS PM LM t1 dt2) p2)
                   (Build_bb_state VS PM LM f2 (Build_bb_side VS PM LM u2 dc2) (Build_bb_side VS PM LM t2 dt2) p2)) by (unfold bb_alike; cbn; tauto).
    unfold bb_fail. destruct fs; cbn; [|now split; [constructor|split]].
    split; [|exact HA]. constructor; [|constructor]. split; [reflexivity|]. intros _ fuel. cbn. auto.
  - destruct S as (So & Sx & Su). cbn. split; [constructor|split; [exact Sx|]]. unfold bb_alike. cbn. tauto.
Qed.
Lemma bb_run_alike starts goals lim n bp1 bp2 lab1 lab2 fs (P : bool) os1 r1 os2 r2 : (P = true -> bp1 = bp2) ->
  bb_run V_dec I_dec vid VS PM LM next_f next_b lab1 bp1 fs starts goals lim n = (os1, r1) ->
  bb_run V_dec I_dec vid VS PM LM next_f next_b lab2 bp2 fs starts goals lim n = (os2, r2) ->
  Forall2 (bb_report_alike P) os1 os2 /\ outcome_map bb_all_calls r1 = outcome_map bb_all_calls r2.
Proof.
  intros HP. unfold bb_run.
  assert (HR : bb_alike P (bb_init vid VS PM LM lab1 bp1 starts goals lim) (bb_init vid VS PM LM lab2 bp2 starts goals lim)).
  { unfold bb_alike, bb_init, bb_start, bfs_init, bfs_alike_pred, bfs_alike. cbn. repeat split; auto; intros E; rewrite (HP E); reflexivity. }
  assert (Hcalls : forall s1 s2, bb_alike P s1 s2 -> bb_all_calls s1 = bb_all_calls s2).
  { intros s1 s2 H. unfold bb_alike, bfs_alike_pred, bfs_alike in H. unfold bb_all_calls. destruct H as (Hf & _ & _ & _ & (Hc & _) & (Ht & _)).
    rewrite Hf. replace (b_calls (bs_state (bb_current s1))) with (b_calls (bs_state (bb_current s2))) by (symmetry; tauto).
    replace (b_calls (bs_state (bb_other s1))) with (b_calls (bs_state (bb_other s2))) by (symmetry; tauto). reflexivity. }
  destruct (bb_common I_dec vid starts goals) as [v|].
  - intros [= <- <-] [= <- <-]. split; [constructor; [|constructor]; split; [reflexivity|intros _ fuel; cbn; auto]|]. reflexivity.
  - intros E1 E2. destruct (run_sim _ _ (bb_alike P) (bb_report_alike P) (fun s1 s2 => bb_step_alike bp1 bp2 lab1 lab2 fs P s1 s2 HP) n _ _ HR) as [H1 H2].
    rewrite E1, E2 in H1, H2. cbn in H1, H2. split; [exact H1|].
    destruct r1, r2; cbn in *; try contradiction; [f_equal; auto|f_equal; auto|destruct H2 as [-> H2]; f_equal; auto].
Qed.
Lemma bb_run_silenced starts goals lim n bp lab :
  silenced {| br_length := -1; br_path := of_nothing lab |}
    (bb_run V_dec I_dec vid VS PM LM next_f next_b lab bp false starts goals lim n)
    (bb_run V_dec I_dec vid VS PM LM next_f next_b lab bp true starts goals lim n).
Proof.
  unfold bb_run. destruct (bb_common I_dec vid starts goals); [reflexivity|]. apply silenced_run. intros s. unfold bb_step.
  assert (HK : forall o u, bfs_step vid VS PM LM (if bb_forwards s then next_f else next_b) (bb_cfg lab bp) (bs_state (bb_current s)) <> Raise o KeyErrorNotFound u).
  { intros o u. unfold bfs_step. repeat branch; discriminate. }
  assert (HC : forall o t, match bb_consume V_dec vid VS PM LM lab bp t o with Raise _ _ _ => False | _ => True end).
  { induction o as [|a o IH]; intros t; cbn; auto.
    match goal with |- context [if ?b then Go _ _ else _] => destruct b end; [exact Logic.I|].
    match goal with |- context [if ?b then Halt _ _ else _] => destruct b end; [exact Logic.I|apply IH]. }
  destruct (bfs_step _ _ _ _ _ _ _) as [o u|o u|o x u].
  - match goal with |- context [bb_consume _ _ _ _ _ _ _ ?t o] => specialize (HC o t); destruct (bb_consume V_dec vid VS PM LM lab bp t o) end; [reflexivity|reflexivity|contradiction].
  - reflexivity.
  - destruct x; try reflexivity. now destruct (HK o u).
Qed.
Lemma bb_run_options starts goals lim n lab1 lab2 bp1 bp2 fs os1 r1 os2 r2 :
  bb_run V_dec I_dec vid VS PM LM next_f next_b lab1 bp1 fs starts goals lim n = (os1, r1) ->
  bb_run V_dec I_dec vid VS PM LM next_f next_b lab2 bp2 fs starts goals lim n = (os2, r2) ->
  Forall2 (fun o1 o2 => br_length o1 = br_length o2 /\ (bp1 = bp2 -> same_vertices (br_path o1) (br_path o2))) os1 os2 /\
  outcome_map bb_all_calls r1 = outcome_map bb_all_calls r2.
Proof.
  intros E1 E2. destruct (bb_run_alike starts goals lim n bp1 bp2 lab1 lab2 fs (Bool.eqb bp1 bp2) os1 r1 os2 r2 (fun H => eqb_prop _ _ H) E1 E2) as [H1 H2].
  split; [|exact H2]. clear E1 E2 H2. induction H1 as [|a b l1 l2 [Ha Hb] _ IH]; constructor; [|exact IH]. split; [exact Ha|]. intros ->. apply Hb. apply eqb_reflx.
Qed.
End Unweighted.

Section Weighted.
Context {V I L : Type} (V_dec : forall a b : V, {a = b} + {a <> b}) (I_dec : forall a b : I, {a = b} + {a <> b}).
Context (vid : V -> I) (WT : Weights) (DM : DMap I (w_t WT) (w_inf WT)) (PM : PMap I V) (LM : PMap I L) (next_f next_b : V -> list (V * w_t WT * L)).

Definition side_alike (P : bool) (s1 s2 : @b2_side V I L WT DM PM LM) : Prop :=
  b2_heap s1 = b2_heap s2 /\ b2_no s1 = b2_no s2 /\ b2_dist s1 = b2_dist s2 /\ b2_limit s1 = b2_limit s2 /\ b2_calls s1 = b2_calls s2 /\ (P = true -> b2_pred s1 = b2_pred s2).
Definition b2_alike (P : bool) (s1 s2 : @b2_state V I L WT DM PM LM) : Prop :=
  b2_pc_of s1 = b2_pc_of s2 /\ b2_forwards s1 = b2_forwards s2 /\ b2_best s1 = b2_best s2 /\ b2_node s1 = b2_node s2 /\ b2_others s1 = b2_others s2 /\
  side_alike P (b2_current s1) (b2_current s2) /\ side_alike P (b2_other s1) (b2_other s2).
Definition b2_report_alike (P : bool) (o1 o2 : @b2_result V L WT) : Prop :=
  b2_length o1 = b2_length o2 /\ (P = true -> same_vertices (b2_path o1) (b2_path o2)).
Lemma b2_step_alike bp1 bp2 lab1 lab2 fs (P : bool) s1 s2 : (P = true -> bp1 = bp2) -> b2_alike P s1 s2 ->
  step_rel (b2_alike P) (b2_report_alike P) (b2_step V_dec vid WT DM PM LM next_f next_b lab1 bp1 fs s1) (b2_step V_dec vid WT DM PM LM next_f next_b lab2 bp2 fs s2).
Proof.
  intros HP H.
  destruct s1 as [pc1 f1 [h1 n1 d1 p1 l1 m1 k1] [h1' n1' d1' p1' l1' m1' k1'] b1 v1 o1 u1], s2 as [pc2 f2 [h2 n2 d2 p2 l2 m2 k2] [h2' n2' d2' p2' l2' m2' k2'] b2 v2 o2 u2].
  unfold b2_alike, side_alike in H. cbn in H. destruct H as (-> & -> & -> & -> & -> & (-> & -> & -> & -> & -> & Hp) & (-> & -> & -> & -> & -> & Hp')).
  assert (SA : forall a b, (P = true -> a = b) -> forall x y c d e g h, side_alike P (Build_b2_side WT DM PM LM c d e a x g h) (Build_b2_side WT DM PM LM c d e b y g h)).
  { intros. unfold side_alike. cbn. tauto. }
  unfold b2_step. cbn. destruct pc2 as [|v w [|[[n ew] l] rest]].
  - destruct h2 as [|[[w no] v] h].
    + unfold b2_failed. destruct fs; cbn.
      * split; [constructor; [split; [reflexivity|intros _ fuel; cbn; auto]|constructor]|]. repeat split; auto.
      * repeat split; auto.
    + cbn. destruct (w_ltb WT _ w); [cbn; repeat split; auto|].
      match goal with |- context [if ?b then Halt _ _ else _] => destruct b end.
      * cbn. split; [|repeat split; auto]. constructor; [|constructor]. split; [reflexivity|]. intros E. cbn. specialize (HP E). subst bp2.
        destruct bp1; [|intros fuel; cbn; auto]. intros fuel. destruct f2; cbn; rewrite (Hp E), (Hp' E); auto.
      * destruct (limit_check m2); cbn; repeat split; auto.
  - cbn. repeat split; auto.
  - destruct (w_leb WT (w_inf WT) (w_add WT ew w)); [cbn; repeat split; auto|].
    destruct (w_leb WT (dm_get DM (vid n) d2) (w_add WT ew w)); [cbn; repeat split; auto|].
    cbn. repeat split; auto. cbn. intros E. specialize (HP E). subst bp2. destruct bp1; cbn; rewrite (Hp E); reflexivity.
Qed.
Lemma b2_run_alike starts goals lim n bp1 bp2 lab1 lab2 fs (P : bool) os1 r1 os2 r2 : (P = true -> bp1 = bp2) ->
  b2_run V_dec I_dec vid WT DM PM LM next_f next_b lab1 bp1 fs starts goals lim n = (os1, r1) ->
  b2_run V_dec I_dec vid WT DM PM LM next_f next_b lab2 bp2 fs starts goals lim n = (os2, r2) ->
  Forall2 (b2_report_alike P) os1 os2 /\ outcome_map (option_map b2_all_calls) r1 = outcome_map (option_map b2_all_calls) r2.
Proof.
  intros HP. unfold b2_run.
  set (fails := fun lab => match b2_failed WT lab fs return list (@b2_result V L WT) * outcome (option (@b2_state V I L WT DM PM LM)) exn with
                           inl r => ([r], Ended None) | inr x => ([], Raised x None) end).
  assert (HF : forall os1 r1 os2 r2, fails lab1 = (os1, r1) -> fails lab2 = (os2, r2) ->
    Forall2 (b2_report_alike P) os1 os2 /\ outcome_map (option_map (@b2_all_calls V I L WT DM PM LM)) r1 = outcome_map (option_map b2_all_calls) r2).
  { unfold fails, b2_failed. destruct fs; intros ? ? ? ? [= <- <-] [= <- <-]; split; try reflexivity; repeat constructor. }
  destruct starts as [|first starts]; [apply HF|]. destruct goals as [|goal goals]; [apply HF|]. clear HF fails.
  destruct (b2_common I_dec vid (first :: starts) (goal :: goals)) as [v|].
  { intros [= <- <-] [= <- <-]. split; [constructor; [|constructor]; split; [reflexivity|intros _ fuel; cbn; auto]|reflexivity]. }
  assert (HR : b2_alike P (b2_init vid WT DM PM LM bp1 first (first :: starts) (goal :: goals) lim) (b2_init vid WT DM PM LM bp2 first (first :: starts) (goal :: goals) lim)).
  { unfold b2_alike, side_alike, b2_init, b2_start. cbn [b2_pc_of b2_forwards b2_current b2_other b2_best b2_node b2_others b2_heap b2_no b2_dist b2_pred b2_limit b2_calls].
    repeat split; auto; intros E; rewrite (HP E); reflexivity. }
  assert (Hcalls : forall s1 s2, b2_alike P s1 s2 -> b2_all_calls s1 = b2_all_calls s2).
  { intros s1 s2 H. unfold b2_alike, side_alike in H. unfold b2_all_calls. destruct H as (_ & Hf & _ & _ & _ & Hc & Ht).
    rewrite Hf. replace (b2_calls (b2_current s1)) with (b2_calls (b2_current s2)) by (symmetry; tauto).
    replace (b2_calls (b2_other s1)) with (b2_calls (b2_other s2)) by (symmetry; tauto). reflexivity. }
  destruct (run_sim _ _ (b2_alike P) (b2_report_alike P) (fun s1 s2 => b2_step_alike bp1 bp2 lab1 lab2 fs P s1 s2 HP) n _ _ HR) as [H1 H2].
  destruct (run (b2_step _ _ _ _ _ _ _ _ lab1 bp1 fs) n _) as [q1 t1], (run (b2_step _ _ _ _ _ _ _ _ lab2 bp2 fs) n _) as [q2 t2]. cbn in H1, H2.
  intros [= <- <-] [= <- <-]. split; [exact H1|].
  destruct t1, t2; cbn in *; try contradiction; [do 2 f_equal; auto|do 2 f_equal; auto|destruct H2 as [-> H2]; do 2 f_equal; auto].
Qed.
Lemma b2_run_silenced starts goals lim n bp lab :
  silenced {| b2_length := w_inf WT; b2_path := of_nothing lab |}
    (b2_run V_dec I_dec vid WT DM PM LM next_f next_b lab bp false starts goals lim n)
    (b2_run V_dec I_dec vid WT DM PM LM next_f next_b lab bp true starts goals lim n).
Proof.
  unfold b2_run. destruct starts as [|first starts]; [reflexivity|]. destruct goals as [|goal goals]; [reflexivity|].
  destruct (b2_common I_dec vid _ _); [reflexivity|].
  match goal with |- context [run (b2_step _ _ _ _ _ _ _ _ _ _ false) n ?s0] =>
    assert (H : silenced {| b2_length := w_inf WT; b2_path := of_nothing lab |} (run (b2_step V_dec vid WT DM PM LM next_f next_b lab bp false) n s0)
                  (run (b2_step V_dec vid WT DM PM LM next_f next_b lab bp true) n s0)) end.
  { apply silenced_run. intros s. unfold b2_step, b2_failed. repeat branch; reflexivity. }
  unfold silenced in *.
  destruct (run (b2_step _ _ _ _ _ _ _ _ lab bp false) n _) as [q1 t1], (run (b2_step _ _ _ _ _ _ _ _ lab bp true) n _) as [q2 t2]. cbn in *.
  destruct t1 as [u|u|x u]; [|  |destruct x]; injection H; intros -> ->; reflexivity.
Qed.
Lemma b2_run_options starts goals lim n lab1 lab2 bp1 bp2 fs os1 r1 os2 r2 :
  b2_run V_dec I_dec vid WT DM PM LM next_f next_b lab1 bp1 fs starts goals lim n = (os1, r1) ->
  b2_run V_dec I_dec vid WT DM PM LM next_f next_b lab2 bp2 fs starts goals lim n = (os2, r2) ->
  Forall2 (fun o1 o2 => b2_length o1 = b2_length o2 /\ (bp1 = bp2 -> same_vertices (b2_path o1) (b2_path o2))) os1 os2 /\
  outcome_map (option_map b2_all_calls) r1 = outcome_map (option_map b2_all_calls) r2.
Proof.
  intros E1 E2. destruct (b2_run_alike starts goals lim n bp1 bp2 lab1 lab2 fs (Bool.eqb bp1 bp2) os1 r1 os2 r2 (fun H => eqb_prop _ _ H) E1 E2) as [H1 H2].
  split; [|exact H2]. clear E1 E2 H2. induction H1 as [|a b l1 l2 [Ha Hb] _ IH]; constructor; [|exact IH]. split; [exact Ha|]. intros ->. apply Hb. apply eqb_reflx.
Qed.
End Weighted.
