(** Proofs for C100, part 2: from the calls of the neighbor function to the reports, and to finite graphs. *)
From Coq Require Import List Arith Lia ZArith Permutation Bool.
From Verif Require Import Common GearSpec Machine Weight Spec TraversalSpec WeightSpec PathsModel PathsSpec PathsExact AStarSpec DFSSpec TopoSpec BFSModel NTDModel DijkstraModel AStarModel MSTModel DFSModel TopoModel
  WorkSpec WorkProofs ReadSpec PropRead MSTFinal PropBFS PropNTD PropDFS PropDijkstra PropAStar PropMST TopoMore.
Import ListNotations.

Lemma graph_work_in {I} (deg : I -> nat) a b l : forall ids, NoDup l -> incl l ids -> graph_work deg a b l <= graph_work deg a b ids.
Proof.
  induction l as [|i l IH]; intros ids HN Hi; [apply Nat.le_0_l|]. inversion HN as [|? ? Hn HN']; subst.
  destruct (in_split i ids (Hi i (or_introl eq_refl))) as (l1 & l2 & ->).
  assert (H : graph_work deg a b l <= graph_work deg a b (l1 ++ l2)).
  { apply IH; [exact HN'|]. intros j Hj. specialize (Hi j (or_intror Hj)). apply in_app_or in Hi. apply in_or_app. destruct Hi as [|[->|]]; auto. contradiction. }
  unfold graph_work in *. rewrite map_app, list_sum_app in *. cbn [map list_sum fold_right]. change (fold_right Nat.add 0) with list_sum. lia.
Qed.
Lemma work_graph {V I A} (vid : V -> I) (next : V -> list A) deg a b vs ids : (forall v, length (next v) <= deg (vid v)) -> NoDup (map vid vs) ->
  (forall v, In v vs -> In (vid v) ids) -> work next a b vs <= graph_work deg a b ids.
Proof.
  intros Hd HN Hi. transitivity (graph_work deg a b (map vid vs)).
  - unfold work, graph_work. rewrite map_map. clear - Hd. induction vs as [|v r IH]; cbn [map list_sum fold_right]; [lia|].
    change (fold_right Nat.add 0) with list_sum. specialize (Hd v). nia.
  - apply graph_work_in; [exact HN|]. intros i Hx. apply in_map_iff in Hx. destruct Hx as (v & <- & Hv). auto.
Qed.
Lemma work_once {V A} (next : V -> list A) a b asked known : asked_at_most_once asked known -> work next a b asked <= work next a b known.
Proof. intros (w & Hp). rewrite (work_perm _ _ _ _ _ Hp), work_app. lia. Qed.
Lemma work_split {V A C} (next : V -> list A) a b (f : C -> V) (g : C -> nat) l :
  work next a b (map f l) = work next a b (map f (filter (fun c => 0 <? g c) l)) + work next a b (map f (filter (fun c => g c =? 0) l)).
Proof.
  induction l as [|c l IH]; [reflexivity|]. cbn [map filter]. rewrite work_cons, IH. destruct (g c); cbn [Nat.ltb Nat.leb Nat.eqb map]; rewrite work_cons; lia.
Qed.

Section Unweighted.
Context {V I L : Type} (vid : V -> I) (VS : VSet I) (PM : PMap I V) (LM : PMap I L) (next : V -> list (V * L)).

Lemma bfs_work_reports cfg starts av lim n os s : bc_report_depth_increase cfg = false -> bfs_run vid VS PM LM next cfg starts av lim n = (os, Running s) ->
  n <= 1 + work next 1 4 (starts ++ map br_vertex os).
Proof.
  intros Hr HR. pose proof (bfs_work _ _ _ _ _ _ _ _ _ _ _ _ HR) as H.
  destruct (proj1 (C94_breadth_first_reads vid VS PM LM next cfg starts av lim n os _ Hr HR)) as (w & Hw). cbn [outcome_state] in Hw.
  rewrite Hw, work_app, work_rev. lia.
Qed.
Lemma bfs_work_graph (I_dec : forall a b : I, {a = b} + {a <> b}) cfg (E : I -> I -> Prop) starts deg ids lim n os r :
  bc_is_tree cfg = false -> bc_report_depth_increase cfg = false -> presents vid next E ->
  (forall v, length (next v) <= deg (vid v)) -> (forall i, reachable E (is_start vid starts) i -> In i ids) ->
  bfs_run vid VS PM LM next cfg starts None lim n = (os, r) -> 1 + work next 1 4 starts + graph_work deg 1 4 ids < n -> forall s, r <> Running s.
Proof.
  intros Ht Hr HE Hd Hi HR Hn s ->. pose proof (bfs_work_reports cfg starts None lim n os s Hr HR) as H.
  destruct (proj1 (C01_bfs_reports_reachable_once I_dec vid VS PM LM next cfg E starts Ht Hr HE) lim n os _ HR) as (HN & Hx & _).
  rewrite work_app in H. assert (work next 1 4 (map br_vertex os) <= graph_work deg 1 4 ids); [|lia]. apply (work_graph vid); [exact Hd| |].
  - rewrite map_map. exact HN.
  - intros v Hv. apply in_map_iff in Hv. destruct Hv as (rep & <- & Hrep). apply Hi, Hx, Hrep.
Qed.

Lemma ntd_work_reports cfg starts av lim n os s : ntd_run vid VS PM LM next cfg starts av lim n = (os, Running s) ->
  n <= work next 1 2 (starts ++ map nr_vertex os).
Proof.
  intros HR. pose proof (ntd_work _ _ _ _ _ _ _ _ _ _ _ _ HR) as H.
  pose proof (work_once next 1 2 _ _ (proj1 (C94_neighbors_then_depth_reads vid VS PM LM next cfg starts av lim n os _ HR))) as Hw. cbn [outcome_state] in Hw.
  rewrite work_rev in Hw. lia.
Qed.
Lemma ntd_work_graph (I_dec : forall a b : I, {a = b} + {a <> b}) cfg (E : I -> I -> Prop) starts deg ids lim n os r :
  nc_is_tree cfg = false -> presents vid next E ->
  (forall v, length (next v) <= deg (vid v)) -> (forall i, reachable E (is_start vid starts) i -> In i ids) ->
  ntd_run vid VS PM LM next cfg starts None lim n = (os, r) -> work next 1 2 starts + graph_work deg 1 2 ids < n -> forall s, r <> Running s.
Proof.
  intros Ht HE Hd Hi HR Hn s ->. pose proof (ntd_work_reports cfg starts None lim n os s HR) as H.
  destruct (proj1 (C07_ntd_reports_reachable_once I_dec vid VS PM LM next cfg E starts Ht HE) lim n os _ HR) as (HN & Hx & _).
  rewrite work_app in H. assert (work next 1 2 (map nr_vertex os) <= graph_work deg 1 2 ids); [|lia]. apply (work_graph vid); [exact Hd| |].
  - rewrite map_map. exact HN.
  - intros v Hv. apply in_map_iff in Hv. destruct Hv as (rep & <- & Hrep). apply Hi, Hx, Hrep.
Qed.

Context (V_dec : forall a b : V, {a = b} + {a <> b}) (XM : DMap I Z 0%Z).
Lemma dfs_work_reports cfg skip starts av lim n os calls : DFSModel.dc_report cfg ENTERING_START = true -> DFSModel.dc_report cfg ENTERING_SUCCESSOR = true ->
  dfs_traverse V_dec vid VS PM LM XM next cfg skip starts av lim n = (os, Running calls) ->
  n <= 4 * length starts + work next 2 1 (map fst (entered skip 0 os)).
Proof.
  intros H1 H2 HR. pose proof (dfs_traverse_work _ _ _ _ _ _ _ _ _ _ _ _ _ _ _ HR) as H.
  destruct (C94_depth_first_reads V_dec vid VS PM LM XM next cfg skip starts av lim n os _ H1 H2 HR) as (ex & He & _ & Hx).
  destruct ex as [|e ex]; [|destruct Hx as (s & Hs); discriminate]. rewrite app_nil_r in He. cbn [outcome_state] in He.
  rewrite He, map_rev, work_rev. exact H.
Qed.
Lemma entered_in skip (os : list (@dfs_report V I L VS PM LM XM)) : forall m,
  NoDup (map (fun rep => vid (fr_vertex rep)) os) -> NoDup (map vid (map fst (entered skip m os))) /\ forall v, In v (map fst (entered skip m os)) -> In v (map fr_vertex os).
Proof.
  induction os as [|rep os IH]; intros m HN; cbn [entered map]; [split; [constructor|intros v []]|].
  inversion HN as [|? ? Hn HN']; subst. destruct (IH (S m) HN') as [H1 H2].
  destruct (is_entering (fr_event rep)); [destruct (skip m)|]; cbn [app map fst]; try (split; [exact H1|intros v Hv; right; auto; fail]).
  split.
  - constructor; [|exact H1]. intros Hi. apply in_map_iff in Hi. destruct Hi as (v & Hv & Hi). apply H2, in_map_iff in Hi. destruct Hi as (r' & <- & Hr').
    apply Hn. apply in_map_iff. exists r'. auto.
  - intros v [<-|Hv]; [now left|right; auto].
Qed.
Lemma dfs_work_graph o cfg skip (E : I -> I -> Prop) starts av deg ids lim n os r :
  dfs_options o (match av with Some _ => true | None => false end) = inl cfg ->
  DFSModel.dc_mode cfg = DFS_TREE -> DFSModel.dc_is_tree cfg = false ->
  (forall ev, DFSModel.dc_report cfg ev = true <-> ev = ENTERING_START \/ ev = ENTERING_SUCCESSOR) -> presents vid next E ->
  let preloaded := in_already_visited VS av in
  (forall v, length (next v) <= deg (vid v)) ->
  (forall i, reachable (avoiding E preloaded) (fun i => is_start vid starts i /\ ~ preloaded i) i -> In i ids) ->
  dfs_traverse V_dec vid VS PM LM XM next cfg skip starts av lim n = (os, r) -> 4 * length starts + graph_work deg 2 1 ids < n -> forall calls, r <> Running calls.
Proof.
  intros Ho Hm Ht Hev HE pre Hd Hi HR Hn calls ->.
  pose proof (dfs_work_reports cfg skip starts av lim n os calls (proj2 (Hev _) (or_introl eq_refl)) (proj2 (Hev _) (or_intror eq_refl)) HR) as H.
  destruct (proj1 (C09_dfs_reports_reachable_once V_dec vid VS PM LM XM next starts o cfg skip av Ho Hm Ht (fun ev => proj1 (Hev ev)) (proj2 (Hev _) (or_intror eq_refl)) E HE) lim n os _ HR) as (HN & Hx & _).
  destruct (entered_in skip os 0 HN) as [HN1 Hin].
  assert (work next 2 1 (map fst (entered skip 0 os)) <= graph_work deg 2 1 ids); [|lia]. apply (work_graph vid); [exact Hd|exact HN1|].
  intros v Hv. apply Hi, Hx. apply Hin, in_map_iff in Hv. destruct Hv as (rep & <- & Hrep). apply in_map_iff. exists rep. auto.
Qed.

Lemma topo_work_graph (I_dec : forall a b : I, {a = b} + {a <> b}) cfg (E : I -> I -> Prop) starts av deg ids lim n os r :
  tc_is_tree cfg = false -> presents vid next E -> NoDup (map vid starts) ->
  let preloaded := in_already_visited VS av in
  (forall v, length (next v) <= deg (vid v)) -> (forall i, reachable (avoiding E preloaded) (is_start vid starts) i -> In i ids) ->
  topo_run vid VS PM LM next cfg starts av lim n = (os, r) -> length starts + graph_work deg 2 2 ids < n -> forall s, r <> Running s.
Proof.
  intros Ht HE Hs pre Hd Hi HR Hn s ->. pose proof (topo_work _ _ _ _ _ _ _ _ _ _ _ _ HR) as H.
  destruct (topo_depth I_dec vid VS PM LM next cfg Ht E HE starts Hs av lim n os _ HR) as (_ & Hc & HN). cbn [outcome_state] in Hc, HN.
  assert (work next 2 2 (map fst (t_calls s)) <= graph_work deg 2 2 ids); [|lia]. apply (work_graph vid); [exact Hd|exact HN|].
  intros v Hv. apply in_map_iff in Hv. destruct Hv as ([v' d] & <- & Hv). apply Hi. destruct (Hc v' d Hv) as (i & p & H1 & H2 & _). exists i, p. auto.
Qed.
Lemma topo_work_ended (I_dec : forall a b : I, {a = b} + {a <> b}) cfg (E : I -> I -> Prop) starts av lim n os0 s0 os s :
  tc_is_tree cfg = false -> presents vid next E -> NoDup (map vid starts) ->
  topo_run vid VS PM LM next cfg starts av lim n = (os0, Running s0) ->
  topo_run vid VS PM LM next cfg starts av lim (S n) = (os, Ended s) -> n <= length starts + work next 2 2 (map tr_vertex os).
Proof.
  intros Ht HE Hs HR0 HR. pose proof (topo_work _ _ _ _ _ _ _ _ _ _ _ _ HR0) as H.
  destruct (topo_complete I_dec vid VS PM LM next cfg Ht E HE starts Hs av lim (S n) os s HR) as (_ & Hp).
  assert (Hc : t_calls s = t_calls s0).
  { unfold topo_run in HR0, HR. rewrite (run_add_running _ n 1 _ _ _ HR0 : run _ (n + 1) _ = _) in HR || (replace (S n) with (n + 1) in HR by lia; rewrite (run_add_running _ n 1 _ _ _ HR0) in HR).
    cbn [run] in HR. revert HR. unfold topo_step. destruct (tc_is_tree cfg); [discriminate|]. unfold topo_step_graph, topo_go_expand. clear.
    destruct (t_pc s0) as [|v [|[x l] rest]].
    - destruct (t_stack s0) as [|v q]; [intros HR; injection HR as _ <-; reflexivity|]. destruct (vs_mem _ _ _); [discriminate|]. destruct (_ && _); [discriminate|]. cbv zeta. destruct (limit_check _); discriminate.
    - discriminate.
    - destruct (vs_mem _ _ _); [destruct (vs_mem _ _ _)|]; discriminate. }
  rewrite <- (work_perm _ _ _ _ _ Hp), Hc. exact H.
Qed.
End Unweighted.

Section Weighted.
Context {V I L : Type} (I_dec : forall a b : I, {a = b} + {a <> b}) (vid : V -> I) (WT : Weights) (PM : PMap I V) (LM : PMap I L) (next : V -> list (V * w_t WT * L)).
Context (DM : DMap I (w_t WT) (w_inf WT)) (VS : VSet I).

Lemma dij_work_reports cfg starts known lim n os s : dij_run vid WT DM PM LM next cfg starts known lim n = (os, Running s) ->
  n <= length starts + work next 2 1 (starts ++ map dr_vertex os).
Proof.
  intros HR. pose proof (dij_work _ _ _ _ _ _ _ _ _ _ _ _ _ HR) as H.
  destruct (C94_shortest_paths_reads vid WT DM PM LM next cfg starts known lim n os _ HR) as ((ex & He & _ & Hx) & H0).
  destruct ex as [|e ex]; [|destruct Hx as (s' & Hs); discriminate]. rewrite app_nil_r in He. cbn [outcome_state] in *.
  apply (work_once next 2 1) in H0. rewrite work_app. rewrite (work_split _ _ _ _ snd) in H.
  assert (Hm : map dr_vertex os = rev (map (fun c => fst (fst c)) (filter (fun c => 0 <? snd c) (d_calls s)))).
  { rewrite <- map_rev. replace (rev (filter (fun c => 0 <? snd c) (d_calls s))) with (filter (fun c => 0 <? snd c) (rev (d_calls s))).
    - rewrite <- He, map_map. reflexivity.
    - clear. induction (d_calls s) as [|c l IH]; [reflexivity|]. cbn [rev filter]. rewrite filter_app, IH. cbn [filter]. destruct (0 <? snd c); cbn [rev]; [reflexivity|apply app_nil_r]. }
  rewrite Hm, work_rev. lia.
Qed.
Lemma dij_work_graph cfg (E : I -> w_t WT -> I -> Prop) starts deg ids lim n os r :
  DijkstraModel.dc_is_tree cfg = false -> presents_weighted WT vid next E -> nonnegative WT E ->
  (forall v, length (next v) <= deg (vid v)) -> (forall i, wreachable WT E (is_start vid starts) i -> In i ids) ->
  dij_run vid WT DM PM LM next cfg starts None lim n = (os, r) -> length starts + work next 2 1 starts + graph_work deg 2 1 ids < n -> forall s, r <> Running s.
Proof.
  intros Ht HE Hnn Hd Hi HR Hn s ->. pose proof (dij_work_reports cfg starts None lim n os s HR) as H.
  destruct (proj1 (C21_dijkstra_reports_reachable_once I_dec vid WT DM PM LM next cfg E starts Ht HE Hnn) lim n os _ HR) as (HN & Hx & _).
  rewrite work_app in H. assert (work next 2 1 (map dr_vertex os) <= graph_work deg 2 1 ids); [|lia]. apply (work_graph vid); [exact Hd| |].
  - rewrite map_map. exact HN.
  - intros v Hv. apply in_map_iff in Hv. destruct Hv as (rep & <- & Hrep). apply Hi, Hx, Hrep.
Qed.

Lemma ast_work_reports cfg h starts known guesses lim n os s : ast_run vid WT DM PM LM next cfg h starts known guesses lim n = (os, Running s) ->
  n <= length starts + work next 2 1 (starts ++ map ar_vertex os).
Proof.
  intros HR. pose proof (ast_work _ _ _ _ _ _ _ _ _ _ _ _ _ _ _ HR) as H.
  destruct (C94_a_star_reads vid WT DM PM LM next cfg h starts known guesses lim n os _ HR) as ((ex & He & _ & Hx) & H0).
  destruct ex as [|e ex]; [|destruct Hx as (s' & Hs); discriminate]. rewrite app_nil_r in He. cbn [outcome_state] in *.
  apply (work_once next 2 1) in H0. rewrite work_app. rewrite (work_split _ _ _ _ snd) in H.
  assert (Hm : map ar_vertex os = rev (map (fun c => fst (fst c)) (filter (fun c => 0 <? snd c) (a_calls s)))).
  { rewrite <- map_rev. replace (rev (filter (fun c => 0 <? snd c) (a_calls s))) with (filter (fun c => 0 <? snd c) (rev (a_calls s))).
    - rewrite <- He, map_map. reflexivity.
    - clear. induction (a_calls s) as [|c l IH]; [reflexivity|]. cbn [rev filter]. rewrite filter_app, IH. cbn [filter]. destruct (0 <? snd c); cbn [rev]; [reflexivity|apply app_nil_r]. }
  rewrite Hm, work_rev. lia.
Qed.
Lemma ast_work_graph (V_dec : forall a b : V, {a = b} + {a <> b}) cfg (E : I -> w_t WT -> I -> Prop) heuristic h starts deg ids lim n os r :
  ac_is_tree cfg = false -> presents_weighted WT vid next E -> nonnegative WT E -> exact WT ->
  (forall v, heuristic v = h (vid v)) -> consistent WT E h -> finite_estimates WT h ->
  (forall v, length (next v) <= deg (vid v)) -> (forall i, wreachable WT E (is_start vid starts) i -> In i ids) ->
  ast_run vid WT DM PM LM next cfg heuristic starts None None lim n = (os, r) -> length starts + work next 2 1 starts + graph_work deg 2 1 ids < n -> forall s, r <> Running s.
Proof.
  intros Ht HE Hnn Hex Hh Hc Hf Hd Hi HR Hn s ->. pose proof (ast_work_reports cfg heuristic starts None None lim n os s HR) as H.
  destruct (C27_astar_consistent V_dec I_dec vid WT DM PM LM next cfg E heuristic h starts lim n os _ Ht HE Hnn Hex Hh Hc Hf HR) as (HN & Hx & _).
  rewrite work_app in H. assert (work next 2 1 (map ar_vertex os) <= graph_work deg 2 1 ids); [|lia]. apply (work_graph vid); [exact Hd| |].
  - rewrite map_map. exact HN.
  - intros v Hv. apply in_map_iff in Hv. destruct Hv as (rep & <- & Hrep). apply Hi. destruct (Hx rep Hrep) as ((s0 & p & H1 & H2 & _) & _). exists s0, p. auto.
Qed.

Lemma mst_work_reports cfg starts lim n os s : mst_run vid WT VS PM LM next cfg starts lim n = (os, Running s) ->
  n <= 1 + work next 2 1 (starts ++ map mr_vertex os).
Proof.
  intros HR. pose proof (mst_work _ _ _ _ _ _ _ _ _ _ _ _ HR) as H. destruct n as [|n]; [lia|].
  rewrite <- (proj1 (C94_minimum_spanning_tree_reads vid WT VS PM LM next cfg starts lim (S n) os _ HR) s eq_refl (Nat.lt_0_succ n)), work_rev. exact H.
Qed.
Lemma mst_work_graph (V_dec : forall a b : V, {a = b} + {a <> b}) cfg (E : I -> w_t WT -> I -> Prop) starts deg ids lim n os r :
  presents_weighted WT vid next E ->
  (forall v, length (next v) <= deg (vid v)) -> (forall i, wreachable WT E (is_start vid starts) i -> In i ids) ->
  mst_run vid WT VS PM LM next cfg starts lim n = (os, r) -> 1 + work next 2 1 starts + graph_work deg 2 1 ids < n -> forall s, r <> Running s.
Proof.
  intros HE Hd Hi HR Hn s ->. pose proof (mst_work_reports cfg starts lim n os s HR) as H.
  destruct (proj1 (C28_mst_spanning_tree V_dec I_dec vid WT VS PM LM next cfg E starts HE) lim n os _ HR) as (Ho & _).
  rewrite work_app in H. assert (work next 2 1 (map mr_vertex os) <= graph_work deg 2 1 ids); [|lia].
  assert (HA : forall o2 o1, os = o1 ++ o2 -> NoDup (mst_ids vid o1) /\ forall v, In v (map mr_vertex o1) -> wreachable WT E (is_start vid starts) (vid v)).
  { clear - Ho HE. intros o2 o1. revert o2. induction o1 as [|rep o1 IH] using rev_ind; intros o2 Heq; [split; [constructor|intros v []]|].
    rewrite <- app_assoc in Heq. cbn [app] in Heq. destruct (IH _ Heq) as [H1 H2]. destruct (Ho o1 rep o2 Heq) as (u & w & l & _ & Hin & Hu & _ & Hfresh & _). split.
    - unfold mst_ids in *. rewrite map_app. cbn [map]. apply (Permutation_NoDup (Permutation_cons_append _ _)). constructor; assumption.
    - intros v Hv. rewrite map_app in Hv. apply in_app_or in Hv. destruct Hv as [Hv|[<-|[]]]; [auto|].
      apply (reach_step _ _ _ _ (vid u) w); [|apply HE; apply in_map_iff; exists (mr_vertex rep, w, l); auto].
      destruct Hu as [Hu|Hu]; [apply reach_start; now apply in_map|auto]. }
  destruct (HA [] os (eq_sym (app_nil_r os))) as [HN Hx]. apply (work_graph vid); [exact Hd| |].
  - rewrite map_map. exact HN.
  - intros v Hv. apply Hi, Hx, Hv.
Qed.
End Weighted.

(** A list of ids that no edge leaves contains all reachable ids. *)
Lemma reachable_closed {I} (E : I -> I -> Prop) (St : I -> Prop) ids : (forall i, St i -> In i ids) -> (forall i j, In i ids -> E i j -> In j ids) ->
  forall i, reachable E St i -> In i ids.
Proof. intros H1 H2 i (s & p & Hs & Hw). apply H1 in Hs. induction Hw; eauto. Qed.
Lemma wreachable_closed {I} (WT : Weights) (E : I -> w_t WT -> I -> Prop) (St : I -> Prop) ids : (forall i, St i -> In i ids) -> (forall i w j, In i ids -> E i w j -> In j ids) ->
  forall i, wreachable WT E St i -> In i ids.
Proof. intros H1 H2 i (s & p & Hs & Hw). apply H1 in Hs. induction Hw; eauto. Qed.
