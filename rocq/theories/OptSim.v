(** Proofs for C101, part 1: two runs with different options for paths proceed in lock step. *)
From Coq Require Import List Arith Lia ZArith Bool.
From Verif Require DFSModel.
Notation outcome_map := DFSModel.outcome_map.
From Verif Require Import Common GearSpec Machine MachineSim Weight BFSModel NTDModel TopoModel DijkstraModel AStarModel MSTModel HeapModel OptSpec.
Import ListNotations.

Lemma Forall2_seen {A B C} (f : A -> C) (g : B -> C) l1 l2 : Forall2 (fun a b => f a = g b) l1 l2 -> map f l1 = map g l2.
Proof. induction 1; cbn; congruence. Qed.
Lemma seen_run {S1 O1 S2 O2 X C K} step1 step2 (R : S1 -> S2 -> Prop) (f : O1 -> C) (g : O2 -> C) (h1 : S1 -> K) (h2 : S2 -> K) :
  (forall s1 s2, R s1 s2 -> h1 s1 = h2 s2) ->
  (forall s1 s2, R s1 s2 -> step_rel R (fun a b => f a = g b) (X := X) (step1 s1) (step2 s2)) ->
  forall n s1 s2 os1 r1 os2 r2, R s1 s2 -> run step1 n s1 = (os1, r1) -> run step2 n s2 = (os2, r2) ->
  map f os1 = map g os2 /\ outcome_map h1 r1 = outcome_map h2 r2.
Proof.
  intros Hh Hs n s1 s2 os1 r1 os2 r2 HR E1 E2. destruct (run_sim step1 step2 R _ Hs n s1 s2 HR) as [H1 H2]. rewrite E1, E2 in H1, H2. cbn in H1, H2.
  split; [now apply Forall2_seen|]. destruct r1, r2; cbn in *; try contradiction; [f_equal; auto|f_equal; auto|destruct H2 as [-> H2]; f_equal; auto].
Qed.
Ltac branch := match goal with |- context [match ?x with _ => _ end] => match x with context [match _ with _ => _ end] => fail 1 | _ => destruct x end end.
Ltac branches := repeat (branch; cbn); cbn; repeat split; auto; repeat constructor; reflexivity.

Section Unweighted.
Context {V I L : Type} (vid : V -> I) (VS : VSet I) (PM : PMap I V) (LM : PMap I L) (next : V -> list (V * L)).

Definition bfs_alike (s1 s2 : @bfs_state V I L VS PM LM) : Prop :=
  b_pc s1 = b_pc s2 /\ b_to_expand s1 = b_to_expand s2 /\ b_next s1 = b_next s2 /\ b_depth s1 = b_depth s2 /\ b_visited s1 = b_visited s2 /\
  b_limit s1 = b_limit s2 /\ b_calls s1 = b_calls s2.
Lemma bfs_options starts av lim n c1 c2 os1 r1 os2 r2 : bc_is_tree c1 = bc_is_tree c2 -> bc_report_depth_increase c1 = bc_report_depth_increase c2 ->
  bfs_run vid VS PM LM next c1 starts av lim n = (os1, r1) -> bfs_run vid VS PM LM next c2 starts av lim n = (os2, r2) ->
  map bfs_seen os1 = map bfs_seen os2 /\ outcome_map b_calls r1 = outcome_map b_calls r2.
Proof.
  destruct c1 as [t1 b1 x1 y1], c2 as [t2 b2 x2 y2]; cbn; intros -> ->. unfold bfs_run. apply (seen_run _ _ bfs_alike).
  - intros s1 s2 H. apply H.
  - intros [p1 q1 z1 d1 v1 pr1 l1 m1 k1] [p2 q2 z2 d2 v2 pr2 l2 m2 k2] H. unfold bfs_alike in H. cbn in H.
    destruct H as (-> & -> & -> & -> & -> & -> & ->). unfold bfs_step, bfs_mark, bfs_observe. cbn. branches.
  - unfold bfs_init. repeat split; reflexivity.
Qed.

Definition ntd_alike (s1 s2 : @ntd_state V I L VS PM LM) : Prop :=
  n_pc s1 = n_pc s2 /\ n_to_expand s1 = n_to_expand s2 /\ n_markers s1 = n_markers s2 /\ n_loop_depth s1 = n_loop_depth s2 /\ n_depth s1 = n_depth s2 /\ n_visited s1 = n_visited s2 /\
  n_limit s1 = n_limit s2 /\ n_calls s1 = n_calls s2.
Lemma ntd_options starts av lim n c1 c2 os1 r1 os2 r2 : nc_is_tree c1 = nc_is_tree c2 -> nc_compute_depth c1 = nc_compute_depth c2 ->
  ntd_run vid VS PM LM next c1 starts av lim n = (os1, r1) -> ntd_run vid VS PM LM next c2 starts av lim n = (os2, r2) ->
  map ntd_seen os1 = map ntd_seen os2 /\ outcome_map n_calls r1 = outcome_map n_calls r2.
Proof.
  destruct c1 as [t1 b1 x1 y1], c2 as [t2 b2 x2 y2]; cbn; intros -> ->. unfold ntd_run. apply (seen_run _ _ ntd_alike).
  - intros s1 s2 H. apply H.
  - intros [p1 q1 z1 e1 d1 v1 pr1 l1 m1 k1] [p2 q2 z2 e2 d2 v2 pr2 l2 m2 k2] H. unfold ntd_alike in H. cbn in H.
    destruct H as (-> & -> & -> & -> & -> & -> & -> & ->). unfold ntd_step, ntd_enter, ntd_push, ntd_expand. cbn. branches.
  - unfold ntd_init. repeat split; reflexivity.
Qed.

Definition topo_alike (s1 s2 : @topo_state V I L VS PM LM) : Prop :=
  t_pc s1 = t_pc s2 /\ t_stack s1 = t_stack s2 /\ t_trace_set s1 = t_trace_set s2 /\ t_markers s1 = t_markers s2 /\ t_depth s1 = t_depth s2 /\ t_visited s1 = t_visited s2 /\
  t_cycle s1 = t_cycle s2 /\ t_limit s1 = t_limit s2 /\ t_calls s1 = t_calls s2.
Lemma topo_options starts av lim n c1 c2 os1 r1 os2 r2 : tc_is_tree c1 = tc_is_tree c2 ->
  topo_run vid VS PM LM next c1 starts av lim n = (os1, r1) -> topo_run vid VS PM LM next c2 starts av lim n = (os2, r2) ->
  map topo_seen os1 = map topo_seen os2 /\ outcome_map (fun s => (t_calls s, t_cycle s)) r1 = outcome_map (fun s => (t_calls s, t_cycle s)) r2.
Proof.
  destruct c1 as [t1 b1 x1], c2 as [t2 b2 x2]; cbn; intros ->. unfold topo_run. apply (seen_run _ _ topo_alike).
  - intros s1 s2 H. unfold topo_alike in H. f_equal; apply H.
  - intros [p1 q1 z1 e1 d1 v1 pr1 l1 m1 k1 y1'] [p2 q2 z2 e2 d2 v2 pr2 l2 m2 k2 y2'] H. unfold topo_alike in H. cbn in H.
    destruct H as (-> & -> & -> & -> & -> & -> & -> & -> & ->). unfold topo_step, topo_step_tree, topo_step_graph, topo_go_expand. cbn. branches.
  - unfold topo_init. repeat split; reflexivity.
Qed.
End Unweighted.

Section Weighted.
Context {V I L : Type} (vid : V -> I) (WT : Weights) (PM : PMap I V) (LM : PMap I L) (next : V -> list (V * w_t WT * L)).
Context (DM : DMap I (w_t WT) (w_inf WT)) (VS : VSet I).

Definition dij_alike (s1 s2 : @dij_state V I L WT DM PM LM) : Prop :=
  d_pc s1 = d_pc s2 /\ d_heap s1 = d_heap s2 /\ d_no s1 = d_no s2 /\ d_distances s1 = d_distances s2 /\ d_distance s1 = d_distance s2 /\ d_depth s1 = d_depth s2 /\
  d_limit s1 = d_limit s2 /\ d_calls s1 = d_calls s2.
Lemma dij_options starts known lim n c1 c2 os1 r1 os2 r2 : dc_is_tree c1 = dc_is_tree c2 -> dc_keep_distances c1 = dc_keep_distances c2 ->
  dij_run vid WT DM PM LM next c1 starts known lim n = (os1, r1) -> dij_run vid WT DM PM LM next c2 starts known lim n = (os2, r2) ->
  map (fun rep => (dij_seen rep, dr_distances rep)) os1 = map (fun rep => (dij_seen rep, dr_distances rep)) os2 /\ outcome_map (fun s => (d_calls s, d_distances s)) r1 = outcome_map (fun s => (d_calls s, d_distances s)) r2.
Proof.
  destruct c1 as [t1 b1 x1 y1], c2 as [t2 b2 x2 y2]; cbn; intros -> ->. unfold dij_run. apply (seen_run _ _ dij_alike).
  - intros s1 s2 H. unfold dij_alike in H. f_equal; apply H.
  - intros [p1 q1 z1 e1 d1 v1 pr1 l1 m1 k1] [p2 q2 z2 e2 d2 v2 pr2 l2 m2 k2] H. unfold dij_alike in H. cbn in H.
    destruct H as (-> & -> & -> & -> & -> & -> & -> & ->). unfold dij_step, dij_settle, dij_relax, dij_expand. cbn. branches.
  - unfold dij_init. repeat split; reflexivity.
Qed.

Definition ast_alike (s1 s2 : @ast_state V I L WT DM PM LM) : Prop :=
  a_pc s1 = a_pc s2 /\ a_heap s1 = a_heap s2 /\ a_no s1 = a_no s2 /\ a_distances s1 = a_distances s2 /\ a_guesses s1 = a_guesses s2 /\ a_path_length s1 = a_path_length s2 /\ a_depth s1 = a_depth s2 /\
  a_limit s1 = a_limit s2 /\ a_calls s1 = a_calls s2.
Lemma ast_options h starts known guesses lim n c1 c2 os1 r1 os2 r2 : ac_is_tree c1 = ac_is_tree c2 ->
  ast_run vid WT DM PM LM next c1 h starts known guesses lim n = (os1, r1) -> ast_run vid WT DM PM LM next c2 h starts known guesses lim n = (os2, r2) ->
  map (fun rep => (ast_seen rep, ar_distances rep)) os1 = map (fun rep => (ast_seen rep, ar_distances rep)) os2 /\ outcome_map (fun s => (a_calls s, a_distances s)) r1 = outcome_map (fun s => (a_calls s, a_distances s)) r2.
Proof.
  destruct c1 as [t1 b1 x1], c2 as [t2 b2 x2]; cbn; intros ->. unfold ast_run. apply (seen_run _ _ ast_alike).
  - intros s1 s2 H. unfold ast_alike in H. f_equal; apply H.
  - intros [p1 q1 z1 e1 g1 d1 v1 pr1 l1 m1 k1] [p2 q2 z2 e2 g2 d2 v2 pr2 l2 m2 k2] H. unfold ast_alike in H. cbn in H.
    destruct H as (-> & -> & -> & -> & -> & -> & -> & -> & ->). unfold ast_step, ast_export, ast_store, ast_push, ast_expand. cbn. branches.
  - unfold ast_init. repeat split; reflexivity.
Qed.

Definition mst_alike (s1 s2 : @mst_state V I L WT VS PM LM) : Prop :=
  m_pc s1 = m_pc s2 /\ m_heap s1 = m_heap s2 /\ m_no s1 = m_no s2 /\ m_visited s1 = m_visited s2 /\ m_edge s1 = m_edge s2 /\
  m_limit s1 = m_limit s2 /\ m_calls s1 = m_calls s2.
Lemma mst_options starts lim n c1 c2 os1 r1 os2 r2 :
  mst_run vid WT VS PM LM next c1 starts lim n = (os1, r1) -> mst_run vid WT VS PM LM next c2 starts lim n = (os2, r2) ->
  map mst_seen os1 = map mst_seen os2 /\ outcome_map m_calls r1 = outcome_map m_calls r2.
Proof.
  unfold mst_run. apply (seen_run _ _ mst_alike).
  - intros s1 s2 H. apply H.
  - intros [p1 q1 z1 e1 d1 v1 pr1 l1 m1] [p2 q2 z2 e2 d2 v2 pr2 l2 m2] H. unfold mst_alike in H. cbn in H.
    destruct H as (-> & -> & -> & -> & -> & -> & ->). unfold mst_step, mst_choose, mst_push, mst_expand. cbn. branches.
  - unfold mst_init. repeat split; reflexivity.
Qed.
End Weighted.
