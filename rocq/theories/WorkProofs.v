(** C100: the number of passes, by potentials. *)
From Coq Require Import List ZArith Bool Arith Lia Permutation.
From Verif Require Import Machine GearSpec Common Weight HeapModel HeapProofs BFSModel NTDModel DFSModel TopoModel DijkstraModel AStarModel MSTModel WorkSpec.
Import ListNotations.

(** [pot]: passes that have been paid for already; [paid]: all payments *)
Section Potential.
Context {S O X : Type}.
Variable step : S -> step_result S O X.
Variables pot paid : S -> nat.
Hypothesis Hstep : forall s o s', step s = Go o s' -> pot s' + paid s + 1 <= pot s + paid s'.

Lemma run_potential n : forall s os s', run step n s = (os, Running s') -> n + pot s' + paid s <= pot s + paid s'.
Proof using Hstep.
  induction n as [|n IH]; intros s os s' HR; cbn [run] in HR.
  - injection HR as _ <-. lia.
  - destruct (step s) as [o s1|o s1|o x s1] eqn:E; try discriminate. specialize (Hstep _ _ _ E).
    destruct (run step n s1) as [os1 r1] eqn:ER. cbn [fst snd] in HR. injection HR as _ ->. specialize (IH _ _ _ ER). lia.
Qed.
End Potential.

Lemma work_cons {V A} (next : V -> list A) a b v vs : work next a b (v :: vs) = a * length (next v) + b + work next a b vs.
Proof. reflexivity. Qed.
Lemma work_nil {V A} (next : V -> list A) a b : work next a b [] = 0.
Proof. reflexivity. Qed.
Lemma work_app {V A} (next : V -> list A) a b vs ws : work next a b (vs ++ ws) = work next a b vs + work next a b ws.
Proof. unfold work. rewrite map_app, list_sum_app. reflexivity. Qed.
Lemma work_perm {V A} (next : V -> list A) a b vs ws : Permutation vs ws -> work next a b vs = work next a b ws.
Proof. induction 1; rewrite ?work_cons; lia. Qed.
Lemma work_rev {V A} (next : V -> list A) a b vs : work next a b (rev vs) = work next a b vs.
Proof. apply work_perm. symmetry. apply Permutation_rev. Qed.
Lemma work_filter {V A} (next : V -> list A) a b f vs : work next a b vs = work next a b (filter f vs) + work next a b (filter (fun x => negb (f x)) vs).
Proof. induction vs as [|v vs IH]; cbn [filter]; [reflexivity|]. destruct (f v); cbn [negb]; rewrite ?work_cons; lia. Qed.

Lemma heappush_length {P} (WT : Weights) e (h : list (@entry P WT)) : length (heappush WT e h) = S (length h).
Proof. exact (Permutation_length (heappush_perm WT e h)). Qed.
Lemma heapify_length {P} (WT : Weights) (l : list (@entry P WT)) : length (heapify WT l) = length l.
Proof. exact (Permutation_length (heapify_perm WT l)). Qed.

Ltac fin := rewrite ?work_cons, ?work_nil, ?heappush_length, ?app_length, ?map_length, ?rev_length; cbn [length]; lia.

(** ** TraversalBreadthFirst *)
Section BFS.
Context {V I L : Type} (vid : V -> I) (VS : VSet I) (PM : PMap I V) (LM : PMap I L) (next : V -> list (V * L)) (cfg : bfs_cfg).
Definition bfs_pot (s : @bfs_state V I L VS PM LM) : nat :=
  match b_pc s with BWhile => 1 | BFor => match b_to_expand s with [] => 2 | _ => 0 end | BEdges _ rest => length rest + 3 end.
Lemma bfs_work starts av lim n os s : bfs_run vid VS PM LM next cfg starts av lim n = (os, Running s) ->
  n <= 1 + work next 1 4 (b_calls s).
Proof.
  unfold bfs_run. intros HR. apply (run_potential _ bfs_pot (fun s => work next 1 4 (b_calls s))) in HR.
  - unfold bfs_init in HR. cbn [b_calls bfs_pot b_pc] in HR. rewrite work_nil in HR. lia.
  - clear. intros s o s'. unfold bfs_step, bfs_pot. destruct (b_pc s) as [| |v [|[n l] rest]] eqn:Epc.
    + destruct (b_to_expand s) eqn:Eq; [discriminate|]. intros HS. injection HS as <- <-. cbn [b_set_pc b_pc b_to_expand b_calls]. rewrite Eq. fin.
    + destruct (b_to_expand s) eqn:Eq.
      * intros HS. injection HS as <- <-. cbn [b_pc b_calls]. fin.
      * destruct (limit_check _); [|discriminate]. intros HS. injection HS as <- <-. cbn [b_pc b_calls]. fin.
    + intros HS. injection HS as <- <-. cbn [b_set_pc b_pc b_to_expand b_calls]. destruct (b_to_expand s); fin.
    + destruct (negb _ && _); intros HS; injection HS as <- <-; cbn [b_set_pc bfs_mark b_pc b_calls]; fin.
Qed.
End BFS.

(** ** TraversalNeighborsThenDepth *)
Section NTD.
Context {V I L : Type} (vid : V -> I) (VS : VSet I) (PM : PMap I V) (LM : PMap I L) (next : V -> list (V * L)) (cfg : ntd_cfg).
Definition ntd_pot (s : @ntd_state V I L VS PM LM) : nat := match n_pc s with NWhile => 0 | NEdges _ rest => length rest + 1 end.
Lemma ntd_work starts av lim n os s : ntd_run vid VS PM LM next cfg starts av lim n = (os, Running s) ->
  n <= work next 1 2 (map fst (n_calls s)).
Proof.
  unfold ntd_run. intros HR. apply (run_potential _ ntd_pot (fun s => work next 1 2 (map fst (n_calls s)))) in HR.
  - unfold ntd_init in HR. cbn [n_calls ntd_pot n_pc map] in HR. rewrite work_nil in HR. lia.
  - clear. intros s o s'. unfold ntd_step, ntd_pot. destruct (n_pc s) as [|v [|[n l] rest]] eqn:Epc.
    + destruct (n_to_expand s) as [|v r] eqn:Eq; [discriminate|]. destruct (ntd_enter _ _ _ _ s r) as [s1|] eqn:E1; [|discriminate].
      assert (Hc : n_calls s1 = n_calls s).
      { unfold ntd_enter in E1. destruct (nc_compute_depth cfg).
        - destruct (ntd_leave _ _) as [[m d]|]; [|discriminate]. now injection E1 as <-.
        - now injection E1 as <-. }
      destruct (limit_check _); [|discriminate]. intros HS. injection HS as <- <-. cbn [ntd_expand n_pc n_calls map fst]. rewrite Hc. fin.
    + intros HS. injection HS as <- <-. cbn [n_set_pc n_pc n_calls]. fin.
    + destruct (negb _ && _); intros HS; injection HS as <- <-; cbn [n_set_pc ntd_mark ntd_push n_pc n_calls]; fin.
Qed.
End NTD.

(** ** TraversalDepthFirst *)
Section DFS.
Context {V I L : Type} (V_dec : forall a b : V, {a = b} + {a <> b}) (vid : V -> I) (VS : VSet I) (PM : PMap I V) (LM : PMap I L) (XM : DMap I Z 0%Z)
  (next : V -> list (V * L)) (cfg : dfs_cfg) (skip : nat -> bool).
Definition marks (m : list bool) : nat := list_sum (map (fun b : bool => if b then 1 else 2) m).
Lemma marks_cons b m : marks (b :: m) = (if b then 1 else 2) + marks m. Proof. reflexivity. Qed.
Lemma marks_app m m' : marks (m ++ m') = marks m + marks m'. Proof. unfold marks. now rewrite map_app, list_sum_app. Qed.
Lemma marks_false {A} (l : list A) : marks (map (fun _ => false) l) = 2 * length l.
Proof. induction l as [|a l IH]; [reflexivity|]. cbn [map length]. rewrite marks_cons, IH. lia. Qed.
Definition dfs_pot (s : @dfs_state V I L VS PM LM XM) : nat :=
  marks (f_markers s) + 4 * length (f_starts s) + match f_pc s with FStarts => 0 | FLoop _ => 1 end.
Lemma dfs_visit_work s v o s' m : dfs_visit V_dec vid VS PM LM XM next cfg skip s v = Go o s' -> f_markers s = m ->
  dfs_pot s' + work next 2 1 (map fst (f_calls s)) <= marks m + 1 + 4 * length (f_starts s) + 1 + work next 2 1 (map fst (f_calls s')).
Proof.
  intros HS <-.
  assert (H : exists lim k, s' = dfs_expand VS PM LM XM next cfg (dfs_enter V_dec vid VS PM LM XM cfg s v) v lim k \/
              s' = dfs_count VS PM LM XM (dfs_enter V_dec vid VS PM LM XM cfg s v) k).
  { unfold dfs_visit in HS. cbv zeta in HS. revert HS.
    destruct (f_trace s), (DFSModel.dc_labeled cfg), (f_var_labels s); try discriminate;
      (destruct (DFSModel.dc_report _ _ && _);
       [intros HS; injection HS as _ <-; exists None; eexists; right; reflexivity
       |destruct (limit_check _) as [lim|]; [|discriminate]; intros HS; injection HS as _ <-; exists lim; eexists; left; reflexivity]). }
  destruct H as (lim & k & [-> | ->]); unfold dfs_pot;
      cbn [dfs_expand dfs_enter dfs_count f_pc f_markers f_starts f_calls map fst]; rewrite ?marks_app, ?marks_false, ?marks_cons, ?work_cons; lia.
Qed.

Lemma dfs_work starts av lim n os s : dfs_run V_dec vid VS PM LM XM next cfg skip starts av lim n = (os, Running s) ->
  n <= 4 * length starts + work next 2 1 (map fst (f_calls s)).
Proof.
  unfold dfs_run. intros HR. apply (run_potential _ dfs_pot (fun s => work next 2 1 (map fst (f_calls s)))) in HR.
  - unfold dfs_init in HR. cbn [f_calls dfs_pot f_pc map f_markers f_starts] in HR. unfold dfs_pot at 2 in HR. cbn in HR. lia.
  - clear. intros s o s'. unfold dfs_step. unfold dfs_pot at 2. destruct (f_pc s) as [|nl] eqn:Epc.
    + destruct (f_starts s) as [|v rest] eqn:Es; [discriminate|]. intros HS. injection HS as <- <-. unfold dfs_pot.
      cbn [dfs_begin f_pc f_markers f_starts f_calls]. rewrite marks_cons. cbn [length]. lia.
    + destruct (f_markers s) as [|[|] m] eqn:Em.
      * intros HS. injection HS as <- <-. unfold dfs_pot. cbn [dfs_finish f_pc f_markers f_starts f_calls]. rewrite Em. lia.
      * unfold dfs_leave. destruct (f_trace s) as [|v t]; [discriminate|]. rewrite marks_cons.
        assert (H : forall s1 nl' t' tl k o1, f_starts s1 = f_starts s -> f_calls s1 = f_calls s -> Go o1 (dfs_left vid VS PM LM XM cfg s1 nl' v m t' tl k) = Go (X := exn) o s' ->
           dfs_pot s' + work next 2 1 (map fst (f_calls s)) + 1 <= 1 + marks m + 4 * length (f_starts s) + 1 + work next 2 1 (map fst (f_calls s'))).
        { intros s1 nl' t' tl k o1 H1 H2 HE. injection HE as _ <-. unfold dfs_pot. cbn [dfs_left f_pc f_markers f_starts f_calls]. rewrite H1, H2. lia. }
        destruct m as [|b m']; cbv zeta.
        -- intros HS. eapply H; [| |exact HS]; destruct (DFSModel.dc_report _ _); reflexivity.
        -- destruct (DFSModel.dc_labeled cfg).
           ++ destruct (f_trace_labels _) eqn:Et; [discriminate|]. intros HS. eapply H; [| |exact HS]; destruct (_ && _); reflexivity.
           ++ intros HS. eapply H; [| |exact HS]; destruct (_ && _); reflexivity.
      * rewrite marks_cons. destruct (dfs_pop _ _ _ _ _ s m) as [[v s1]|] eqn:Ep; [|discriminate].
        assert (Hp : f_starts s1 = f_starts s /\ f_calls s1 = f_calls s /\ f_markers s1 = m /\ exists b, f_pc s1 = FLoop b).
        { unfold dfs_pop in Ep. destruct (f_to_visit s) as [|v' q]; [discriminate|]. cbv zeta in Ep.
          destruct (DFSModel.dc_labeled cfg), q; try (injection Ep as <- <-; cbn; eauto; fail).
          destruct (f_to_visit_labels s); [discriminate|]. injection Ep as <- <-. cbn. eauto. }
        destruct Hp as (Hp1 & Hp2 & Hp3 & b & Hp4). rewrite <- Hp1, <- Hp2.
        assert (Hv : dfs_visit V_dec vid VS PM LM XM next cfg skip s1 v = Go o s' ->
           dfs_pot s' + work next 2 1 (map fst (f_calls s1)) + 1 <= 2 + marks m + 4 * length (f_starts s1) + 1 + work next 2 1 (map fst (f_calls s'))).
        { intros HS. pose proof (dfs_visit_work s1 v o s' m HS Hp3). lia. }
        assert (Hr : forall back, dfs_revisit vid VS PM LM XM cfg s1 v back = Go o s' ->
           dfs_pot s' + work next 2 1 (map fst (f_calls s1)) + 1 <= 2 + marks m + 4 * length (f_starts s1) + 1 + work next 2 1 (map fst (f_calls s'))).
        { intros back HS. assert (Hq : f_starts s' = f_starts s1 /\ f_calls s' = f_calls s1 /\ f_markers s' = m /\ exists b, f_pc s' = FLoop b).
          { rewrite <- Hp3. clear - HS Hp4. revert HS. unfold dfs_revisit. destruct (f_trace s1).
            - destruct (DFSModel.dc_report _ _); intros HS; injection HS as _ <-; cbn; eauto.
            - destruct (dfs_classify _ _ _ _ _ _ _ _ _) as [ev|]; [|intros HS; injection HS as _ <-; eauto].
              destruct (DFSModel.dc_labeled cfg), (f_var_labels s1); try discriminate; intros HS; injection HS as _ <-; cbn; eauto. }
          destruct Hq as (Hq1 & Hq2 & Hq3 & b' & Hq4). unfold dfs_pot. rewrite Hq1, Hq2, Hq3, Hq4. lia. }
        destruct (negb _ && negb _); [|exact Hv]. destruct (is_dfs_tree _); destruct (vs_mem _ _ _); solve [exact Hv|apply Hr].
Qed.

Definition dfw_pot (s : @dfw_state V I L VS PM LM) : nat :=
  length (w_to_visit s) + 3 * length (w_starts s) + match w_pc s with WStarts => 0 | WLoop => 1 | WEdges _ rest => 2 * length rest + 2 end.
Lemma dfw_work starts av lim n os s : dfw_run V_dec vid VS PM LM XM next cfg skip starts av lim n = (os, Running s) ->
  n <= 3 * length starts + work next 2 1 (map fst (w_calls s)).
Proof.
  unfold dfw_run. intros HR. apply (run_potential _ dfw_pot (fun s => work next 2 1 (map fst (w_calls s)))) in HR.
  - unfold dfw_init in HR. cbn [w_calls map] in HR. unfold dfw_pot at 2 in HR. cbn [w_pc w_to_visit w_starts length] in HR. rewrite work_nil in HR. lia.
  - clear. intros s o s'. unfold dfw_step. unfold dfw_pot at 2. destruct (w_pc s) as [| |v [|[x l] rest]] eqn:Epc.
    + destruct (w_starts s) as [|v rest] eqn:Es; [discriminate|]. intros HS. injection HS as <- <-. unfold dfw_pot.
      cbn [dfw_begin w_pc w_to_visit w_starts w_calls length]. lia.
    + destruct (if DFSModel.dc_compute_depth cfg then _ else _) as [m d]. destruct (w_to_visit s) as [|v q] eqn:Eq.
      * intros HS. injection HS as <- <-. unfold dfw_pot. cbn [dfw_set w_pc w_to_visit w_starts w_calls length]. lia.
      * cbv zeta. destruct (_ && _).
        -- intros HS. injection HS as <- <-. unfold dfw_pot. cbn [dfw_set w_pc w_to_visit w_starts w_calls length]. lia.
        -- unfold dfw_visit. cbv zeta. destruct (_ && _).
           ++ intros HS. injection HS as <- <-. unfold dfw_pot. cbn [dfw_set dfw_continue dfw_enter w_pc w_to_visit w_starts w_calls length]. lia.
           ++ destruct (limit_check _); [|discriminate]. intros HS. injection HS as <- <-. unfold dfw_pot.
              cbn [dfw_set dfw_expand dfw_enter w_pc w_to_visit w_starts w_calls length map fst]. rewrite work_cons. lia.
    + intros HS. injection HS as <- <-. unfold dfw_pot. cbn [dfw_continue w_pc w_to_visit w_starts w_calls length]. lia.
    + destruct (_ && _); intros HS; injection HS as <- <-; unfold dfw_pot; cbn [dfw_set dfw_push w_pc w_to_visit w_starts w_calls length]; lia.
Qed.

Lemma dfs_traverse_work starts av lim n os calls : dfs_traverse V_dec vid VS PM LM XM next cfg skip starts av lim n = (os, Running calls) ->
  n <= 4 * length starts + work next 2 1 (map fst calls).
Proof.
  unfold dfs_traverse. destruct (dfs_uses_trace cfg).
  - destruct (dfs_run _ _ _ _ _ _ _ _ _ _ _ _ n) as [o [s|s|x s]] eqn:E; cbn; intros HS; try discriminate. injection HS as <- <-. eapply dfs_work. exact E.
  - destruct (dfw_run _ _ _ _ _ _ _ _ _ _ _ _ n) as [o [s|s|x s]] eqn:E; cbn; intros HS; try discriminate. injection HS as <- <-. pose proof (dfw_work _ _ _ _ _ _ E). lia.
Qed.
End DFS.

(** ** TraversalShortestPaths *)
Section Dijkstra.
Context {V I L : Type} (vid : V -> I) (WT : Weights) (DM : DMap I (w_t WT) (w_inf WT)) (PM : PMap I V) (LM : PMap I L)
  (next : V -> list (V * w_t WT * L)) (cfg : dij_cfg).
Definition dij_pot (s : @dij_state V I L WT DM PM LM) : nat :=
  length (d_heap s) + match d_pc s with DLoop _ => 0 | DEdges _ _ _ _ rest => 2 * length rest + 1 end.
Lemma start_entries_length no d starts : length (start_entries vid WT DM no d starts) = length starts.
Proof. revert no. induction starts as [|v r IH]; intros no; cbn; [reflexivity|]. now rewrite IH. Qed.
Lemma dij_work starts known lim n os s : dij_run vid WT DM PM LM next cfg starts known lim n = (os, Running s) ->
  n <= length starts + work next 2 1 (map (fun c => fst (fst c)) (d_calls s)).
Proof.
  unfold dij_run. intros HR. apply (run_potential _ dij_pot (fun s => work next 2 1 (map (fun c => fst (fst c)) (d_calls s)))) in HR.
  - unfold dij_init in HR. cbn [d_calls map] in HR. unfold dij_pot at 2 in HR. cbn [d_pc d_heap] in HR.
    rewrite heapify_length, start_entries_length, work_nil in HR. lia.
  - clear. intros s o s'. unfold dij_step. unfold dij_pot at 2. destruct (d_pc s) as [|v w k [|[[x ew] l] rest]] eqn:Epc.
    + destruct (d_heap s) as [|[[w i] [v k]] h] eqn:Eh; [discriminate|]. destruct (_ && _).
      * intros HS. injection HS as <- <-. unfold dij_pot. cbn [d_set_heap d_pc d_heap d_calls length]. rewrite Epc. lia.
      * cbv zeta. destruct (limit_check _); [|discriminate]. intros HS. injection HS as <- <-. unfold dij_pot.
        cbn [dij_expand dij_settle d_set_heap d_pc d_heap d_calls length map fst]. rewrite work_cons. lia.
    + intros HS. injection HS as <- <-. unfold dij_pot. cbn [d_set_pc d_pc d_heap d_calls length]. lia.
    + cbv zeta. destruct (w_leb _ _ _); [discriminate|]. destruct (_ && _); intros HS; injection HS as <- <-; unfold dij_pot;
        cbn [d_set_pc dij_relax d_pc d_heap d_calls length]; rewrite ?heappush_length; lia.
Qed.
End Dijkstra.

(** ** TraversalAStar *)
Section AStar.
Context {V I L : Type} (vid : V -> I) (WT : Weights) (DM : DMap I (w_t WT) (w_inf WT)) (PM : PMap I V) (LM : PMap I L)
  (next : V -> list (V * w_t WT * L)) (h : V -> w_t WT) (cfg : ast_cfg).
Definition ast_pot (s : @ast_state V I L WT DM PM LM) : nat :=
  length (a_heap s) + match a_pc s with ALoop _ => 0 | AEdges _ _ _ _ rest => 2 * length rest + 1 end.
Lemma ast_start_entries_length no d starts : length (ast_start_entries vid WT DM no d starts) = length starts.
Proof. revert no. induction starts as [|v r IH]; intros no; cbn; [reflexivity|]. now rewrite IH. Qed.
Lemma ast_work starts known guesses lim n os s : ast_run vid WT DM PM LM next cfg h starts known guesses lim n = (os, Running s) ->
  n <= length starts + work next 2 1 (map (fun c => fst (fst c)) (a_calls s)).
Proof.
  unfold ast_run. intros HR. apply (run_potential _ ast_pot (fun s => work next 2 1 (map (fun c => fst (fst c)) (a_calls s)))) in HR.
  - unfold ast_init in HR. cbn [a_calls map] in HR. unfold ast_pot at 2 in HR. cbn [a_pc a_heap] in HR.
    rewrite heapify_length, ast_start_entries_length, work_nil in HR. lia.
  - clear. intros s o s'. unfold ast_step. unfold ast_pot at 2. destruct (a_pc s) as [|v w k [|[[x ew] l] rest]] eqn:Epc.
    + destruct (a_heap s) as [|[[w i] [v k]] hp] eqn:Eh; [discriminate|]. destruct (_ && _).
      * intros HS. injection HS as <- <-. unfold ast_pot. cbn [a_set_heap a_pc a_heap a_calls length]. rewrite Epc. lia.
      * cbv zeta. destruct (limit_check _); [|discriminate]. intros HS. injection HS as <- <-. unfold ast_pot.
        cbn [ast_expand ast_export a_set_heap a_pc a_heap a_calls length map fst]. rewrite work_cons. lia.
    + intros HS. injection HS as <- <-. unfold ast_pot. cbn [a_set_pc a_pc a_heap a_calls length]. lia.
    + cbv zeta. destruct (w_leb _ _ _); [discriminate|]. destruct (_ && _).
      * intros HS; injection HS as <- <-; unfold ast_pot; cbn [a_set_pc a_pc a_heap a_calls length]; lia.
      * destruct (w_eqb _ _ _); [|destruct (w_leb _ _ _); [discriminate|]]; intros HS; injection HS as <- <-; unfold ast_pot;
          cbn [ast_store ast_push a_pc a_heap a_calls length]; rewrite ?heappush_length; lia.
Qed.
End AStar.

(** ** TraversalMinimumSpanningTree *)
Section MST.
Context {V I L : Type} (vid : V -> I) (WT : Weights) (VS : VSet I) (PM : PMap I V) (LM : PMap I L)
  (next : V -> list (V * w_t WT * L)) (cfg : mst_cfg).
Definition mst_pot (s : @mst_state V I L WT VS PM LM) : nat :=
  length (m_heap s) + match m_pc s with MStart _ _ => 1 | MLoop _ => 0 | MEdges _ _ rest => 2 * length rest + 1 end.
Lemma mst_entries_length no v es : length (@mst_entries V L WT no v es) = length es.
Proof. revert no. induction es as [|e r IH]; intros no; cbn; [reflexivity|]. now rewrite IH. Qed.
Lemma mst_start_entries_length no starts : length (mst_start_entries WT next no starts) <= work next 2 1 starts.
Proof.
  revert no. induction starts as [|v r IH]; intros no; [cbn; lia|]. cbn [mst_start_entries]. rewrite app_length, mst_entries_length, work_cons.
  specialize (IH (no + Z.of_nat (length (next v)))%Z). lia.
Qed.
Lemma mst_work starts lim n os s : mst_run vid WT VS PM LM next cfg starts lim n = (os, Running s) ->
  n <= 1 + work next 2 1 (m_calls s).
Proof.
  unfold mst_run. intros HR. apply (run_potential _ mst_pot (fun s => work next 2 1 (m_calls s))) in HR.
  - unfold mst_init in HR. cbn [m_calls] in HR. unfold mst_pot at 2 in HR. cbn [m_pc m_heap length] in HR. rewrite work_nil in HR. lia.
  - clear. intros s o s'. unfold mst_step. unfold mst_pot at 2. destruct (m_pc s) as [starts| |v [|e rest]] eqn:Epc.
    + destruct (mst_limit_start _ _); [|discriminate]. intros HS. injection HS as <- <-. unfold mst_pot.
      cbn [mst_begin m_pc m_heap m_calls]. pose proof (mst_start_entries_length 0 starts). unfold mst_entry in *. rewrite heapify_length, work_app, work_rev. lia.
    + destruct (m_heap s) as [|[k [v e]] h] eqn:Eh; [discriminate|]. cbv zeta. destruct (vs_mem _ _ _).
      * intros HS. injection HS as <- <-. unfold mst_pot. cbn [m_set_heap m_pc m_heap m_calls length]. rewrite Epc. lia.
      * destruct (limit_check _); [|discriminate]. intros HS. injection HS as <- <-. unfold mst_pot.
        cbn [mst_expand mst_choose m_set_heap m_pc m_heap m_calls length]. rewrite work_cons. lia.
    + intros HS. injection HS as <- <-. unfold mst_pot. cbn [m_set_pc m_pc m_heap m_calls length]. lia.
    + destruct (vs_mem _ _ _); intros HS; injection HS as <- <-; unfold mst_pot;
        cbn [m_set_pc mst_push m_pc m_heap m_calls length]; unfold mst_entry in *; rewrite ?heappush_length; lia.
Qed.
End MST.

(** ** TraversalTopologicalSort *)
Section Topo.
Context {V I L : Type} (vid : V -> I) (VS : VSet I) (PM : PMap I V) (LM : PMap I L)
  (next : V -> list (V * L)) (cfg : topo_cfg).
Definition topo_pot (s : @topo_state V I L VS PM LM) : nat :=
  length (t_stack s) + match t_pc s with TWhile => 0 | TEdges _ rest => 2 * length rest + 1 end.
Lemma topo_work starts av lim n os s : topo_run vid VS PM LM next cfg starts av lim n = (os, Running s) ->
  n <= length starts + work next 2 2 (map fst (t_calls s)).
Proof.
  unfold topo_run. intros HR. apply (run_potential _ topo_pot (fun s => work next 2 2 (map fst (t_calls s)))) in HR.
  - unfold topo_init in HR. cbn [t_calls map] in HR. unfold topo_pot at 2 in HR. cbn [t_pc t_stack] in HR. rewrite ?rev_length, work_nil in HR. lia.
  - clear. intros s o s'. unfold topo_step, topo_step_tree, topo_step_graph, topo_go_expand. unfold topo_pot at 2.
    destruct (tc_is_tree cfg), (t_pc s) as [|v [|[x l] rest]] eqn:Epc.
    + destruct (t_stack s) as [|v q] eqn:Eq; [discriminate|]. destruct (t_markers s) as [|[|] m]; [discriminate| |]; cbv zeta.
      * intros HS. injection HS as <- <-. unfold topo_pot. cbn [topo_left t_pc t_stack t_calls length]. rewrite ?Epc. lia.
      * destruct (limit_check _); [|discriminate]. intros HS. injection HS as <- <-. unfold topo_pot.
        cbn [topo_mark topo_expand t_pc t_stack t_calls length map fst]. rewrite work_cons, Eq. cbn [length]. lia.
    + intros HS. injection HS as <- <-. unfold topo_pot. cbn [topo_deeper t_pc t_stack t_calls length]. lia.
    + intros HS. injection HS as <- <-. unfold topo_pot. cbn [topo_push t_pc t_stack t_calls length]. lia.
    + destruct (t_stack s) as [|v q] eqn:Eq; [discriminate|]. destruct (vs_mem _ _ _); [|destruct (_ && _)]; cbv zeta.
      * intros HS. injection HS as <- <-. unfold topo_pot. cbn [topo_left t_pc t_stack t_calls length]. rewrite ?Epc. lia.
      * intros HS. injection HS as <- <-. unfold topo_pot. cbn [topo_drop t_pc t_stack t_calls length]. rewrite ?Epc. lia.
      * destruct (limit_check _); [|discriminate]. intros HS. injection HS as <- <-. unfold topo_pot.
        cbn [topo_enter topo_expand t_pc t_stack t_calls length map fst]. rewrite work_cons, Eq. cbn [length]. lia.
    + intros HS. injection HS as <- <-. unfold topo_pot. cbn [topo_deeper t_pc t_stack t_calls length]. lia.
    + destruct (vs_mem _ _ _); [destruct (vs_mem _ _ _); [discriminate|]|]; intros HS; injection HS as <- <-; unfold topo_pot;
        cbn [topo_push topo_skip t_pc t_stack t_calls length]; lia.
Qed.
End Topo.
