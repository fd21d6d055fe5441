(** The strategies, except the topological sort of graphs that are not trees, do not depend on the attributes of the object. *)
From Coq Require Import List Bool Arith ZArith Lia.
From Verif Require Import Machine Common GearSpec Weight BFSModel NTDModel DFSModel TopoModel DijkstraModel AStarModel MSTModel NestedModel NestedProofs.
Import ListNotations.

Ltac cases := repeat (cbn; first [solve [repeat split; reflexivity] | match goal with |- context [match ?x with _ => _ end] => lazymatch x with context [match _ with _ => _ end] => fail | _ => destruct x end end]).

Section Own.
Context {V I L : Type}.
Variable V_dec : forall a b : V, {a = b} + {a <> b}.
Variable vid : V -> I.
Variable VS : VSet I.
Variable PM : PMap I V.
Variable LM : PMap I L.
Variable XM : DMap I Z 0%Z.
Variable next : V -> list (V * L).

(** *** Breadth first *)
Definition bfs_same (p : bfs_cfg * list V * option (vs_t VS) * option Z) (s1 s2 : @bfs_state V I L VS PM LM) := bfs_put VS PM LM 0%Z s1 = bfs_put VS PM LM 0%Z s2.
Lemma bfs_same_step p s1 s2 : bfs_same p s1 s2 -> same_result (fun _ => bfs_own) bfs_same p (st_step (bfs_object vid VS PM LM next) p s1) (st_step (bfs_object vid VS PM LM next) p s2).
Proof.
  destruct p as [[[cfg starts] av] lim]. destruct s1, s2. unfold bfs_same, bfs_put. cbn. intros H. injection H as -> -> -> -> -> -> -> ->.
  unfold bfs_step, bfs_mark, b_set_pc, bfs_observe, bfs_own. cases.
Qed.

(** *** Neighbors then depth *)
Definition ntd_same (p : ntd_cfg * list V * option (vs_t VS) * option Z) (s1 s2 : @ntd_state V I L VS PM LM) := ntd_put VS PM LM 0%Z s1 = ntd_put VS PM LM 0%Z s2.
Lemma ntd_same_step p s1 s2 : ntd_same p s1 s2 -> same_result (fun _ => ntd_own) ntd_same p (st_step (ntd_object vid VS PM LM next) p s1) (st_step (ntd_object vid VS PM LM next) p s2).
Proof.
  destruct p as [[[cfg starts] av] lim]. destruct s1, s2. unfold ntd_same, ntd_put. cbn. intros H. injection H as -> -> -> -> -> -> -> -> ->.
  unfold ntd_step, ntd_enter, ntd_expand, ntd_mark, ntd_push, n_set_pc, ntd_observe, ntd_own. cases.
Qed.

(** *** Depth first, with trace *)
Definition dfs_norm (s : @dfs_state V I L VS PM LM XM) : dfs_state VS PM LM XM :=
  {| f_pc := f_pc s; f_starts := f_starts s; f_start := f_start s; f_to_visit := f_to_visit s; f_to_visit_labels := f_to_visit_labels s; f_markers := f_markers s;
     f_var_labels := f_var_labels s; f_trace := f_trace s; f_trace_labels := f_trace_labels s; f_on_trace := f_on_trace s; f_index := f_index s; f_time := f_time s;
     f_depth := 0%Z; f_event := None; f_visited := f_visited s; f_pred := f_pred s; f_labels := f_labels s; f_limit := f_limit s; f_count := f_count s; f_calls := [] |}.
Definition dfs_same (p : dfs_cfg * (nat -> bool) * list V * option (vs_t VS) * option Z) (s1 s2 : @dfs_state V I L VS PM LM XM) := dfs_norm s1 = dfs_norm s2.
Lemma dfs_same_step p s1 s2 : dfs_same p s1 s2 -> same_result (fun _ => dfs_own) dfs_same p (st_step (dfs_object V_dec vid VS PM LM XM next) p s1) (st_step (dfs_object V_dec vid VS PM LM XM next) p s2).
Proof.
  destruct p as [[[[cfg skip] starts] av] lim]. destruct s1, s2. unfold dfs_same, dfs_norm. cbn. intros H. injection H as -> -> -> -> -> -> -> -> -> -> -> -> -> -> -> -> ->.
  unfold dfs_step, dfs_begin, dfs_finish, dfs_leave, dfs_left, dfs_pop, dfs_revisit, dfs_classify, dfs_reported, dfs_show, dfs_visit, dfs_enter, dfs_expand, dfs_count, dfs_pred, dfs_labels, is_current_start, dfs_observe, dfs_own.
  cases.
Qed.

(** *** Depth first, without trace *)
Definition dfw_norm (c : bool) (s : @dfw_state V I L VS PM LM) : dfw_state VS PM LM :=
  {| w_pc := w_pc s; w_starts := w_starts s; w_start := w_start s; w_to_visit := w_to_visit s; w_markers := w_markers s; w_loop_depth := w_loop_depth s;
     w_depth := 0%Z; w_event := None; w_visited := w_visited s; w_pred := w_pred s; w_labels := w_labels s; w_limit := w_limit s; w_count := w_count s; w_calls := [] |}.
Definition dfw_same (p : dfs_cfg * (nat -> bool) * list V * option (vs_t VS) * option Z) (s1 s2 : @dfw_state V I L VS PM LM) := dfw_norm true s1 = dfw_norm true s2.
(** The depth is computed before each report. *)
Definition dfw_view (p : dfs_cfg * (nat -> bool) * list V * option (vs_t VS) * option Z) (r : @dfs_report V I L VS PM LM XM) :=
  (dfs_own r, let '(cfg, _, _, _, _) := p in if DFSModel.dc_compute_depth cfg then Some (fr_depth r) else None).
Lemma dfw_same_step p s1 s2 : dfw_same p s1 s2 -> same_result dfw_view dfw_same p (st_step (dfw_object V_dec vid VS PM LM XM next) p s1) (st_step (dfw_object V_dec vid VS PM LM XM next) p s2).
Proof.
  destruct p as [[[[cfg skip] starts] av] lim]. destruct s1, s2. unfold dfw_same, dfw_norm, dfw_view. cbn. intros H. injection H as -> -> -> -> -> -> -> -> -> -> ->.
  destruct cfg; unfold dfw_step, dfw_begin, dfw_set, dfw_visit, dfw_enter, dfw_expand, dfw_continue, dfw_push, dfw_end, dfw_is_start, dfw_observe, dfs_own.
  cases.
Qed.

(** *** Topological sort of trees *)
Definition topo_norm (s : @topo_state V I L VS PM LM) : topo_state VS PM LM :=
  {| t_pc := t_pc s; t_stack := t_stack s; t_trace_set := t_trace_set s; t_markers := t_markers s; t_depth := 0%Z; t_visited := t_visited s; t_pred := t_pred s;
     t_labels := t_labels s; t_cycle := []; t_limit := t_limit s; t_calls := [] |}.
Definition topo_same (p : topo_cfg * list V * option (vs_t VS) * option Z) (s1 s2 : @topo_state V I L VS PM LM) := topo_norm s1 = topo_norm s2.
Lemma topo_same_step p s1 s2 : tc_is_tree (fst (fst (fst p))) = true -> topo_same p s1 s2 ->
  same_result (fun _ => topo_own) topo_same p (st_step (topo_object vid VS PM LM next) p s1) (st_step (topo_object vid VS PM LM next) p s2).
Proof.
  destruct p as [[[cfg starts] av] lim]. destruct s1, s2. unfold topo_same, topo_norm. cbn. intros Ht H. injection H as -> -> -> -> -> -> -> ->.
  unfold topo_step, topo_step_tree, topo_left, topo_go_expand, topo_mark, topo_expand, topo_push, topo_deeper, topo_observe, topo_own. rewrite Ht. cases.
Qed.

(** *** Depth first *)
Lemma run_step_map {S T O X} (f : S -> T) (st1 : S -> step_result S O X) (st2 : T -> step_result T O X) :
  (forall s, st2 (f s) = step_map f (st1 s)) -> forall n s, run st2 n (f s) = (fst (run st1 n s), outcome_map f (snd (run st1 n s))).
Proof.
  intros H n. induction n as [|n IH]; intros s; [reflexivity|]. cbn [run]. rewrite H. destruct (st1 s) as [o s1|o s1|o x s1]; cbn [step_map]; try reflexivity.
  rewrite IH. destruct (run st1 n s1); reflexivity.
Qed.
Notation dparams := (dfs_cfg * (nat -> bool) * list V * option (vs_t VS) * option Z)%type.
Notation dstate := (@dfs_state V I L VS PM LM XM + @dfw_state V I L VS PM LM)%type.
Definition depth_first_init (p : dparams) : dstate :=
  let '(cfg, _, starts, av, lim) := p in if dfs_uses_trace cfg then inl (dfs_init vid VS PM LM XM cfg starts av lim) else inr (dfw_init vid VS PM LM cfg starts av lim).
Definition depth_first_same (p : dparams) (s1 s2 : dstate) : Prop :=
  match s1, s2 with
  | inl s1, inl s2 => dfs_uses_trace (fst (fst (fst (fst p)))) = true /\ dfs_same p s1 s2
  | inr s1, inr s2 => dfs_uses_trace (fst (fst (fst (fst p)))) = false /\ dfw_same p s1 s2
  | _, _ => False
  end.
Notation dobj := (depth_first_object V_dec vid VS PM LM XM next).
Definition depth_first_alone (p : dparams) (n : nat) := let '(cfg, skip, starts, av, lim) := p in dfs_traverse V_dec vid VS PM LM XM next cfg skip starts av lim n.

Lemma depth_first_alone_run p n : let '(os, r) := run (st_step dobj p) n (depth_first_init p) in let '(os', r') := depth_first_alone p n in os = os' /\ run_ending r = run_ending r'.
Proof.
  destruct p as [[[[cfg skip] starts] av] lim]. unfold depth_first_init, depth_first_alone, dfs_traverse, dfs_run, dfw_run. destruct (dfs_uses_trace cfg).
  - rewrite (run_step_map (@inl (@dfs_state V I L VS PM LM XM) (@dfw_state V I L VS PM LM)) (dfs_step V_dec vid VS PM LM XM next cfg skip)) by reflexivity. destruct (run _ _ _) as [os r]. destruct r; auto.
  - rewrite (run_step_map (@inr (@dfs_state V I L VS PM LM XM) (@dfw_state V I L VS PM LM)) (dfw_step V_dec vid VS PM LM XM next cfg skip)) by reflexivity. destruct (run _ _ _) as [os r]. destruct r; auto.
Qed.

Lemma depth_first_same_step p s1 s2 : depth_first_same p s1 s2 -> same_result depth_first_own depth_first_same p (st_step dobj p s1) (st_step dobj p s2).
Proof.
  destruct s1 as [s1|s1], s2 as [s2|s2]; simpl; try contradiction; intros [Ht H].
  - pose proof (dfs_same_step p s1 s2 H) as HH. destruct p as [[[[cfg skip] starts] av] lim]. cbn in Ht, HH |- *.
    assert (Hv : forall o1 o2 : list (@dfs_report V I L VS PM LM XM), map dfs_own o1 = map dfs_own o2 ->
      map (fun r => (dfs_own r, if DFSModel.dc_compute_depth cfg && negb (dfs_uses_trace cfg) then Some (fr_depth r) else None)) o1 =
      map (fun r => (dfs_own r, if DFSModel.dc_compute_depth cfg && negb (dfs_uses_trace cfg) then Some (fr_depth r) else None)) o2).
    { rewrite Ht, andb_false_r. intros o1 o2 He. rewrite <- !(map_map dfs_own (fun x => (x, None))), He. reflexivity. }
    destruct (dfs_step _ _ _ _ _ _ _ _ _ s1), (dfs_step _ _ _ _ _ _ _ _ _ s2); cbn in HH |- *; try contradiction; intuition.
  - pose proof (dfw_same_step p s1 s2 H) as HH. destruct p as [[[[cfg skip] starts] av] lim]. cbn in Ht, HH |- *.
    assert (Hv : forall o1 o2 : list (@dfs_report V I L VS PM LM XM), map (dfw_view (cfg, skip, starts, av, lim)) o1 = map (dfw_view (cfg, skip, starts, av, lim)) o2 ->
      map (fun r => (dfs_own r, if DFSModel.dc_compute_depth cfg && negb (dfs_uses_trace cfg) then Some (fr_depth r) else None)) o1 =
      map (fun r => (dfs_own r, if DFSModel.dc_compute_depth cfg && negb (dfs_uses_trace cfg) then Some (fr_depth r) else None)) o2).
    { rewrite Ht, andb_true_r. auto. }
    destruct (dfw_step _ _ _ _ _ _ _ _ _ s1), (dfw_step _ _ _ _ _ _ _ _ _ s2); cbn in HH |- *; try contradiction; intuition.
Qed.

(** *** The claims *)
Lemma undisturbed_for_of {P S O A X B T} (Q : P -> Prop) (st : strategy P S O A X) (init : P -> S) (view : P -> O -> B) (same : P -> S -> S -> Prop) (alone : P -> nat -> list O * outcome T X) :
  (forall p n, let '(os, r) := run (st_step st p) n (init p) in let '(os', r') := alone p n in os = os' /\ run_ending r = run_ending r') ->
  (forall p a s s2, same p s s2 -> same p (st_put st a s) s2) -> (forall p a, Q p -> same p (st_begins st p a) (init p)) ->
  (forall p s1 s2, same p s1 s2 -> same_result view same p (st_step st p s1) (st_step st p s2)) -> undisturbed_for Q st view alone.
Proof.
  intros Ha Hp Hb Hs a before p us HQ Ht. pose proof (nested_reports st init view same Hp Q Hb Hs a before p us HQ Ht) as H. cbv zeta in *.
  destruct (reports _ _ _ _) as [os ob]. specialize (Ha p (passes_of (starts_in before) us)). destruct (run _ _ _) as [os' r], (alone _ _) as [os2 r2].
  destruct Ha as [<- <-]. exact H.
Qed.
Lemma undisturbed_of {P S O A X B T} (st : strategy P S O A X) (init : P -> S) (view : P -> O -> B) (same : P -> S -> S -> Prop) (alone : P -> nat -> list O * outcome T X) :
  (forall p n, let '(os, r) := run (st_step st p) n (init p) in let '(os', r') := alone p n in os = os' /\ run_ending r = run_ending r') ->
  (forall p a s s2, same p s s2 -> same p (st_put st a s) s2) -> (forall p a, same p (st_begins st p a) (init p)) ->
  (forall p s1 s2, same p s1 s2 -> same_result view same p (st_step st p s1) (st_step st p s2)) -> undisturbed st view alone.
Proof. intros Ha Hp Hb Hs. apply (undisturbed_for_of _ st init view same alone); auto. Qed.
Lemma restartable_of {P S O A X T} (st : strategy P S O A X) (init : P -> S) (alone : P -> nat -> list O * outcome T X) :
  (forall p n, let '(os, r) := run (st_step st p) n (init p) in let '(os', r') := alone p n in os = os' /\ run_ending r = run_ending r') ->
  (forall p a, st_begins st p (st_started st p a) = init p) -> (forall s, st_put st (st_get st s) s = s) -> restartable st alone.
Proof.
  intros Ha Hi Hg a before p n. pose proof (restart_reports st init Hi Hg a before p n) as H. cbv zeta in *.
  destruct (reports _ _ _ _) as [os ob]. specialize (Ha p n). destruct (run _ _ _) as [os' r], (alone _ _) as [os2 r2]. destruct Ha as [<- <-]. exact H.
Qed.

Lemma bfs_undisturbed : undisturbed (bfs_object vid VS PM LM next) (fun _ => bfs_own) (fun '(cfg, starts, av, lim) n => bfs_run vid VS PM LM next cfg starts av lim n).
Proof.
  apply (undisturbed_of _ (fun '(cfg, starts, av, lim) => bfs_init vid VS PM LM cfg starts av lim) _ bfs_same).
  - intros [[[cfg starts] av] lim] n. unfold bfs_run. cbn. destruct (run _ _ _); auto.
  - intros p a s s2 H. exact H.
  - intros [[[cfg starts] av] lim] a. reflexivity.
  - apply bfs_same_step.
Qed.
Lemma bfs_restartable : restartable (bfs_object vid VS PM LM next) (fun '(cfg, starts, av, lim) n => bfs_run vid VS PM LM next cfg starts av lim n).
Proof.
  apply (restartable_of _ (fun '(cfg, starts, av, lim) => bfs_init vid VS PM LM cfg starts av lim)).
  - intros [[[cfg starts] av] lim] n. unfold bfs_run. cbn. destruct (run _ _ _); auto.
  - intros [[[cfg starts] av] lim] a. reflexivity.
  - intros []; reflexivity.
Qed.
Lemma ntd_undisturbed : undisturbed (ntd_object vid VS PM LM next) (fun _ => ntd_own) (fun '(cfg, starts, av, lim) n => ntd_run vid VS PM LM next cfg starts av lim n).
Proof.
  apply (undisturbed_of _ (fun '(cfg, starts, av, lim) => ntd_init vid VS PM LM cfg starts av lim) _ ntd_same).
  - intros [[[cfg starts] av] lim] n. unfold ntd_run. cbn. destruct (run _ _ _); auto.
  - intros p a s s2 H. exact H.
  - intros [[[cfg starts] av] lim] a. reflexivity.
  - apply ntd_same_step.
Qed.
Lemma ntd_restartable : restartable (ntd_object vid VS PM LM next) (fun '(cfg, starts, av, lim) n => ntd_run vid VS PM LM next cfg starts av lim n).
Proof.
  apply (restartable_of _ (fun '(cfg, starts, av, lim) => ntd_init vid VS PM LM cfg starts av lim)).
  - intros [[[cfg starts] av] lim] n. unfold ntd_run. cbn. destruct (run _ _ _); auto.
  - intros [[[cfg starts] av] lim] a. cbn. unfold ntd_init, ntd_put. cbn. destruct (nc_compute_depth cfg); reflexivity.
  - intros []; reflexivity.
Qed.
Lemma depth_first_undisturbed : undisturbed dobj depth_first_own depth_first_alone.
Proof.
  apply (undisturbed_of _ depth_first_init _ depth_first_same).
  - apply depth_first_alone_run.
  - intros p a [s|s] [s2|s2] H; exact H.
  - intros [[[[cfg skip] starts] av] lim] a. cbn. destruct (dfs_uses_trace cfg) eqn:E; split; (exact E || reflexivity).
  - apply depth_first_same_step.
Qed.
Lemma depth_first_restartable : restartable dobj depth_first_alone.
Proof.
  apply (restartable_of _ depth_first_init).
  - apply depth_first_alone_run.
  - intros [[[[cfg skip] starts] av] lim] a. cbn. unfold dfs_put, dfw_put, dfs_init, dfw_init. cbn. destruct (dfs_uses_trace cfg), (DFSModel.dc_compute_depth cfg); reflexivity.
  - intros [[]|[]]; reflexivity.
Qed.
Lemma topo_undisturbed : undisturbed_for (fun '(cfg, _, _, _) => tc_is_tree cfg = true) (topo_object vid VS PM LM next) (fun _ => topo_own)
  (fun '(cfg, starts, av, lim) n => topo_run vid VS PM LM next cfg starts av lim n).
Proof.
  apply (undisturbed_for_of _ _ (fun '(cfg, starts, av, lim) => topo_init vid VS PM LM cfg starts av lim) _ (fun p s1 s2 => tc_is_tree (fst (fst (fst p))) = true /\ topo_same p s1 s2)).
  - intros [[[cfg starts] av] lim] n. unfold topo_run. cbn. destruct (run _ _ _); auto.
  - intros p a s s2 H. exact H.
  - intros [[[cfg starts] av] lim] a H. split; [exact H|reflexivity].
  - intros p s1 s2 [Ht H]. pose proof (topo_same_step p s1 s2 Ht H) as HH. unfold same_result in *.
    destruct (st_step _ p s1), (st_step _ p s2); try contradiction; intuition.
Qed.
Lemma topo_restartable : restartable (topo_object vid VS PM LM next) (fun '(cfg, starts, av, lim) n => topo_run vid VS PM LM next cfg starts av lim n).
Proof.
  apply (restartable_of _ (fun '(cfg, starts, av, lim) => topo_init vid VS PM LM cfg starts av lim)).
  - intros [[[cfg starts] av] lim] n. unfold topo_run. cbn. destruct (run _ _ _); auto.
  - intros [[[cfg starts] av] lim] a. reflexivity.
  - intros []; reflexivity.
Qed.
End Own.

Section OwnWeighted.
Context {V I L : Type}.
Variable vid : V -> I.
Variable WT : Weights.
Variable DM : DMap I (w_t WT) (w_inf WT).
Variable VS : VSet I.
Variable PM : PMap I V.
Variable LM : PMap I L.
Variable next : V -> list (V * w_t WT * L).

Definition dij_same (p : dij_cfg * list V * option (dm_t DM) * option Z) (s1 s2 : @dij_state V I L WT DM PM LM) := dij_put WT DM PM LM (w_inf WT, 0) s1 = dij_put WT DM PM LM (w_inf WT, 0) s2.
Lemma dij_same_step p s1 s2 : dij_same p s1 s2 -> same_result (fun _ r => r) dij_same p (st_step (dij_object vid WT DM PM LM next) p s1) (st_step (dij_object vid WT DM PM LM next) p s2).
Proof.
  destruct p as [[[cfg starts] known] lim]. destruct s1, s2. unfold dij_same, dij_put. cbn. intros H. injection H as -> -> -> -> -> -> -> ->.
  unfold dij_step, dij_settle, dij_expand, dij_relax, d_set_pc, d_set_heap, dij_observe. cases.
Qed.

Definition ast_same (p : ast_cfg * (V -> w_t WT) * list V * option (dm_t DM) * option (dm_t DM) * option Z) (s1 s2 : @ast_state V I L WT DM PM LM) :=
  ast_put WT DM PM LM (w_inf WT, 0) s1 = ast_put WT DM PM LM (w_inf WT, 0) s2.
Lemma ast_same_step p s1 s2 : ast_same p s1 s2 -> same_result (fun _ r => r) ast_same p (st_step (ast_object vid WT DM PM LM next) p s1) (st_step (ast_object vid WT DM PM LM next) p s2).
Proof.
  destruct p as [[[[[cfg h] starts] known] guesses] lim]. destruct s1, s2. unfold ast_same, ast_put. cbn. intros H. injection H as -> -> -> -> -> -> -> -> ->.
  unfold ast_step, ast_export, ast_expand, ast_store, ast_push, a_set_pc, a_set_heap, ast_observe. cases.
Qed.

Definition mst_same (p : mst_cfg * list V * option Z) (s1 s2 : @mst_state V I L WT VS PM LM) := mst_put WT VS PM LM None s1 = mst_put WT VS PM LM None s2.
Lemma mst_same_step p s1 s2 : mst_same p s1 s2 -> same_result (fun _ r => r) mst_same p (st_step (mst_object vid WT VS PM LM next) p s1) (st_step (mst_object vid WT VS PM LM next) p s2).
Proof.
  destruct p as [[cfg starts] lim]. destruct s1, s2. unfold mst_same, mst_put. cbn. intros H. injection H as -> -> -> -> -> -> -> ->.
  unfold mst_step, mst_begin, mst_choose, mst_expand, mst_push, m_set_pc, m_set_heap, mst_observe. cases.
Qed.

Lemma dij_undisturbed : undisturbed (dij_object vid WT DM PM LM next) (fun _ r => r) (fun '(cfg, starts, known, lim) n => dij_run vid WT DM PM LM next cfg starts known lim n).
Proof.
  apply (undisturbed_of _ (fun '(cfg, starts, known, lim) => dij_init vid WT DM PM LM cfg starts known lim) _ dij_same).
  - intros [[[cfg starts] known] lim] n. unfold dij_run. cbn. destruct (run _ _ _); auto.
  - intros p a s s2 H. exact H.
  - intros [[[cfg starts] known] lim] a. reflexivity.
  - apply dij_same_step.
Qed.
Lemma ast_undisturbed : undisturbed (ast_object vid WT DM PM LM next) (fun _ r => r)
  (fun '(cfg, h, starts, known, guesses, lim) n => ast_run vid WT DM PM LM next cfg h starts known guesses lim n).
Proof.
  apply (undisturbed_of _ (fun '(cfg, h, starts, known, guesses, lim) => ast_init vid WT DM PM LM cfg h starts known guesses lim) _ ast_same).
  - intros [[[[[cfg h] starts] known] guesses] lim] n. unfold ast_run. cbn. destruct (run _ _ _); auto.
  - intros p a s s2 H. exact H.
  - intros [[[[[cfg h] starts] known] guesses] lim] a. reflexivity.
  - apply ast_same_step.
Qed.
Lemma mst_undisturbed : undisturbed (mst_object vid WT VS PM LM next) (fun _ r => r) (fun '(cfg, starts, lim) n => mst_run vid WT VS PM LM next cfg starts lim n).
Proof.
  apply (undisturbed_of _ (fun '(cfg, starts, lim) => mst_init vid WT VS PM LM cfg starts lim) _ mst_same).
  - intros [[cfg starts] lim] n. unfold mst_run. cbn. destruct (run _ _ _); auto.
  - intros p a s s2 H. exact H.
  - intros [[cfg starts] lim] a. reflexivity.
  - apply mst_same_step.
Qed.
End OwnWeighted.

From Verif Require Import PathsModel InfModel.
Section OwnInf.
Context {V : Type}.
Variable V_dec : forall a b : V, {a = b} + {a <> b}.
Variable edge : V -> nat -> option (V * option Z).
Variable DM : DMap V (option Z) None.
Variable PM : PMap V V.
Variable DMi : DMap (V * nat) (option Z) None.
Variable PMi : PMap (V * nat) (V * nat).
Variable LMi : PMap (V * nat) unit.

Definition inf_same (p : bool * bool * list V * option Z) (s1 s2 : @inf_state V DM PM DMi PMi LMi) := inf_put DM PM DMi PMi LMi None s1 = inf_put DM PM DMi PMi LMi None s2.
Lemma inf_same_step p s1 s2 : inf_same p s1 s2 ->
  same_result (fun _ r => r) inf_same p (st_step (inf_object V_dec edge DM PM DMi PMi LMi) p s1) (st_step (inf_object V_dec edge DM PM DMi PMi LMi) p s2).
Proof.
  destruct p as [[[b st] starts] lim]. destruct s1, s2. unfold inf_same, inf_put. simpl. intros H. injection H as -> -> -> -> -> ->.
  unfold inf_step, inf_handle, n_set_in, inf_note. simpl.
  match goal with |- context [dij_step ?a ?b ?c ?d ?e ?f ?g ?h] => destruct (dij_step a b c d e f g h) as [os i|os i|os x i] end.
  all: destruct os as [|rep os]; [|destruct (dr_vertex rep) as [vertex no]; destruct (negb (no =? 0)); [|destruct b; [destruct (paths_predecessor _ _ _ _ _) as [[[pv ?]|]|?|]|]; try (cbn; auto; fail)]].
  all: try (cbn; auto; fail).
  all: destruct (inf_expanded _ _ _ _ _); [|cbn; auto; fail].
  all: destruct (next_state_edges _ _ _ _ _ _) as [[? ?]|]; cbn; auto.
  all: try (destruct (snd _ =? 0)); auto.
Qed.

Lemma inf_undisturbed : undisturbed (inf_object V_dec edge DM PM DMi PMi LMi) (fun _ r => r)
  (fun '(build_paths, store_distances, starts, lim) n => inf_run V_dec edge DM PM DMi PMi LMi build_paths store_distances starts lim n).
Proof.
  apply (undisturbed_of _ (fun '(build_paths, store_distances, starts, lim) => inf_init DM PM DMi PMi LMi build_paths store_distances starts lim) _ inf_same).
  - intros [[[b st] starts] lim] n. unfold inf_run. cbn [st_step inf_object]. destruct (run _ _ _); auto.
  - intros p a s s2 H. exact H.
  - intros [[[b st] starts] lim] a. reflexivity.
  - apply inf_same_step.
Qed.
End OwnInf.
