(** C100: the work of a traversal is linear in the size of the part of the graph that it reads. One pass handles one out-edge, or takes one vertex from the queue, stack
    or heap, or changes to the next loop; heap operations (logarithmic), set and mapping operations count as part of a pass.
    For each strategy: (1) as long as the traversal goes on, the number of its passes is bounded by the start vertices, the reported vertices, and the out-edges of both;
    (2) in a finite graph it has left its loops after a number of passes that is linear in the number of reachable vertices and of their out-edges. *)
From Coq Require Import List Arith ZArith Lia.
From Verif Require Import Machine GearSpec Spec TraversalSpec Common Weight WeightSpec PathsModel PathsSpec PathsExact HeapModel BFSModel NTDModel DFSModel DFSSpec TopoModel TopoSpec
  DijkstraModel AStarModel AStarSpec MSTModel ReadSpec WorkSpec WorkProofs WorkMore Examples NTDExamples DFSExamples TopoExamples AStarExamples MSTExamples.
Import ListNotations.

Theorem C100_breadth_first_work :
  forall {V I L : Type} (vid : V -> I) (VS : VSet I) (PM : PMap I V) (LM : PMap I L) (next : V -> list (V * L)) (cfg : bfs_cfg) (starts : list V),
  bc_report_depth_increase cfg = false ->
  (forall av lim n os s, bfs_run vid VS PM LM next cfg starts av lim n = (os, Running s) ->
     n <= 1 + work next 1 4 (starts ++ map br_vertex os)) /\
  (forall (I_dec : forall a b : I, {a = b} + {a <> b}) (E : I -> I -> Prop) (deg : I -> nat) (ids : list I),
     bc_is_tree cfg = false -> presents vid next E ->
     (forall v, length (next v) <= deg (vid v)) -> (forall i, reachable E (is_start vid starts) i -> In i ids) ->
     forall lim n os r, bfs_run vid VS PM LM next cfg starts None lim n = (os, r) ->
     1 + work next 1 4 starts + graph_work deg 1 4 ids < n -> forall s, r <> Running s).
Proof.
  exact (fun V I L vid VS PM LM next cfg starts Hr => conj
    (fun av lim n os s HR => bfs_work_reports vid VS PM LM next cfg starts av lim n os s Hr HR)
    (fun I_dec E deg ids Ht HE Hd Hi lim n os r => bfs_work_graph vid VS PM LM next I_dec cfg E starts deg ids lim n os r Ht Hr HE Hd Hi)).
Qed.
Print Assumptions C100_breadth_first_work.

Theorem C100_neighbors_then_depth_work :
  forall {V I L : Type} (vid : V -> I) (VS : VSet I) (PM : PMap I V) (LM : PMap I L) (next : V -> list (V * L)) (cfg : ntd_cfg) (starts : list V),
  (forall av lim n os s, ntd_run vid VS PM LM next cfg starts av lim n = (os, Running s) ->
     n <= work next 1 2 (starts ++ map nr_vertex os)) /\
  (forall (I_dec : forall a b : I, {a = b} + {a <> b}) (E : I -> I -> Prop) (deg : I -> nat) (ids : list I),
     nc_is_tree cfg = false -> presents vid next E ->
     (forall v, length (next v) <= deg (vid v)) -> (forall i, reachable E (is_start vid starts) i -> In i ids) ->
     forall lim n os r, ntd_run vid VS PM LM next cfg starts None lim n = (os, r) ->
     work next 1 2 starts + graph_work deg 1 2 ids < n -> forall s, r <> Running s).
Proof.
  exact (fun V I L vid VS PM LM next cfg starts => conj
    (fun av lim n os s HR => ntd_work_reports vid VS PM LM next cfg starts av lim n os s HR)
    (fun I_dec E deg ids Ht HE Hd Hi lim n os r => ntd_work_graph vid VS PM LM next I_dec cfg E starts deg ids lim n os r Ht HE Hd Hi)).
Qed.
Print Assumptions C100_neighbors_then_depth_work.

(** [entered skip 0 os]: the entered vertices that are not skipped. Part (1) is for all modes, also for ALL_PATHS and ALL_WALKS. *)
Theorem C100_depth_first_work :
  forall {V I L : Type} (V_dec : forall a b : V, {a = b} + {a <> b}) (vid : V -> I) (VS : VSet I) (PM : PMap I V) (LM : PMap I L) (XM : DMap I Z 0%Z)
    (next : V -> list (V * L)) (cfg : dfs_cfg) (skip : nat -> bool) (starts : list V),
  (forall av lim n os calls, DFSModel.dc_report cfg ENTERING_START = true -> DFSModel.dc_report cfg ENTERING_SUCCESSOR = true ->
     dfs_traverse V_dec vid VS PM LM XM next cfg skip starts av lim n = (os, Running calls) ->
     n <= 4 * length starts + work next 2 1 (map fst (entered skip 0 os))) /\
  (forall o av (E : I -> I -> Prop) (deg : I -> nat) (ids : list I),
     dfs_options o (match av with Some _ => true | None => false end) = inl cfg ->
     DFSModel.dc_mode cfg = DFS_TREE -> DFSModel.dc_is_tree cfg = false ->
     (forall ev, DFSModel.dc_report cfg ev = true <-> ev = ENTERING_START \/ ev = ENTERING_SUCCESSOR) -> presents vid next E ->
     let preloaded := in_already_visited VS av in
     (forall v, length (next v) <= deg (vid v)) ->
     (forall i, reachable (avoiding E preloaded) (fun i => is_start vid starts i /\ ~ preloaded i) i -> In i ids) ->
     forall lim n os r, dfs_traverse V_dec vid VS PM LM XM next cfg skip starts av lim n = (os, r) ->
     4 * length starts + graph_work deg 2 1 ids < n -> forall calls, r <> Running calls).
Proof.
  exact (fun V I L V_dec vid VS PM LM XM next cfg skip starts => conj
    (fun av lim n os calls H1 H2 HR => dfs_work_reports vid VS PM LM next V_dec XM cfg skip starts av lim n os calls H1 H2 HR)
    (fun o av E deg ids Ho Hm Ht Hev HE Hd Hi lim n os r => dfs_work_graph vid VS PM LM next V_dec XM o cfg skip E starts av deg ids lim n os r Ho Hm Ht Hev HE Hd Hi)).
Qed.
Print Assumptions C100_depth_first_work.

(** A topological sort reports vertices when it leaves them; so, part (1) is about the whole sort: its last but one state has been reached in the given number of passes.
    Part (2) also covers sorts that meet a cycle. *)
Theorem C100_topological_sort_work :
  forall {V I L : Type} (I_dec : forall a b : I, {a = b} + {a <> b}) (vid : V -> I) (VS : VSet I) (PM : PMap I V) (LM : PMap I L)
    (next : V -> list (V * L)) (cfg : topo_cfg) (E : I -> I -> Prop) (starts : list V) (av : option (vs_t VS)),
  tc_is_tree cfg = false -> presents vid next E -> NoDup (map vid starts) ->
  (forall lim n os0 s0 os s, topo_run vid VS PM LM next cfg starts av lim n = (os0, Running s0) ->
     topo_run vid VS PM LM next cfg starts av lim (S n) = (os, Ended s) -> n <= length starts + work next 2 2 (map tr_vertex os)) /\
  (forall deg ids, (forall v, length (next v) <= deg (vid v)) ->
     (forall i, reachable (avoiding E (in_already_visited VS av)) (is_start vid starts) i -> In i ids) ->
     forall lim n os r, topo_run vid VS PM LM next cfg starts av lim n = (os, r) ->
     length starts + graph_work deg 2 2 ids < n -> forall s, r <> Running s).
Proof.
  exact (fun V I L I_dec vid VS PM LM next cfg E starts av Ht HE Hs => conj
    (fun lim n os0 s0 os s => topo_work_ended vid VS PM LM next I_dec cfg E starts av lim n os0 s0 os s Ht HE Hs)
    (fun deg ids Hd Hi lim n os r => topo_work_graph vid VS PM LM next I_dec cfg E starts av deg ids lim n os r Ht HE Hs Hd Hi)).
Qed.
Print Assumptions C100_topological_sort_work.

Theorem C100_shortest_paths_work :
  forall {V I L : Type} (vid : V -> I) (WT : Weights) (DM : DMap I (w_t WT) (w_inf WT)) (PM : PMap I V) (LM : PMap I L)
    (next : V -> list (V * w_t WT * L)) (cfg : dij_cfg) (starts : list V),
  (forall known lim n os s, dij_run vid WT DM PM LM next cfg starts known lim n = (os, Running s) ->
     n <= length starts + work next 2 1 (starts ++ map dr_vertex os)) /\
  (forall (I_dec : forall a b : I, {a = b} + {a <> b}) (E : I -> w_t WT -> I -> Prop) (deg : I -> nat) (ids : list I),
     DijkstraModel.dc_is_tree cfg = false -> presents_weighted WT vid next E -> nonnegative WT E ->
     (forall v, length (next v) <= deg (vid v)) -> (forall i, wreachable WT E (is_start vid starts) i -> In i ids) ->
     forall lim n os r, dij_run vid WT DM PM LM next cfg starts None lim n = (os, r) ->
     length starts + work next 2 1 starts + graph_work deg 2 1 ids < n -> forall s, r <> Running s).
Proof.
  exact (fun V I L vid WT DM PM LM next cfg starts => conj
    (fun known lim n os s HR => dij_work_reports vid WT PM LM next DM cfg starts known lim n os s HR)
    (fun I_dec E deg ids Ht HE Hn Hd Hi lim n os r => dij_work_graph I_dec vid WT PM LM next DM cfg E starts deg ids lim n os r Ht HE Hn Hd Hi)).
Qed.
Print Assumptions C100_shortest_paths_work.

(** With an estimation that is not consistent, A* may report and expand vertices again (C54); each time counts in part (1). *)
Theorem C100_a_star_work :
  forall {V I L : Type} (vid : V -> I) (WT : Weights) (DM : DMap I (w_t WT) (w_inf WT)) (PM : PMap I V) (LM : PMap I L)
    (next : V -> list (V * w_t WT * L)) (cfg : ast_cfg) (heuristic : V -> w_t WT) (starts : list V),
  (forall known guesses lim n os s, ast_run vid WT DM PM LM next cfg heuristic starts known guesses lim n = (os, Running s) ->
     n <= length starts + work next 2 1 (starts ++ map ar_vertex os)) /\
  (forall (V_dec : forall a b : V, {a = b} + {a <> b}) (I_dec : forall a b : I, {a = b} + {a <> b}) (E : I -> w_t WT -> I -> Prop) (h : I -> w_t WT) (deg : I -> nat) (ids : list I),
     ac_is_tree cfg = false -> presents_weighted WT vid next E -> nonnegative WT E -> exact WT ->
     (forall v, heuristic v = h (vid v)) -> consistent WT E h -> finite_estimates WT h ->
     (forall v, length (next v) <= deg (vid v)) -> (forall i, wreachable WT E (is_start vid starts) i -> In i ids) ->
     forall lim n os r, ast_run vid WT DM PM LM next cfg heuristic starts None None lim n = (os, r) ->
     length starts + work next 2 1 starts + graph_work deg 2 1 ids < n -> forall s, r <> Running s).
Proof.
  exact (fun V I L vid WT DM PM LM next cfg heuristic starts => conj
    (fun known guesses lim n os s HR => ast_work_reports vid WT PM LM next DM cfg heuristic starts known guesses lim n os s HR)
    (fun V_dec I_dec E h deg ids Ht HE Hn Hx Hh Hc Hf Hd Hi lim n os r =>
       ast_work_graph I_dec vid WT PM LM next DM V_dec cfg E heuristic h starts deg ids lim n os r Ht HE Hn Hx Hh Hc Hf Hd Hi)).
Qed.
Print Assumptions C100_a_star_work.

Theorem C100_minimum_spanning_tree_work :
  forall {V I L : Type} (vid : V -> I) (WT : Weights) (VS : VSet I) (PM : PMap I V) (LM : PMap I L)
    (next : V -> list (V * w_t WT * L)) (cfg : mst_cfg) (starts : list V),
  (forall lim n os s, mst_run vid WT VS PM LM next cfg starts lim n = (os, Running s) ->
     n <= 1 + work next 2 1 (starts ++ map mr_vertex os)) /\
  (forall (V_dec : forall a b : V, {a = b} + {a <> b}) (I_dec : forall a b : I, {a = b} + {a <> b}) (E : I -> w_t WT -> I -> Prop) (deg : I -> nat) (ids : list I),
     presents_weighted WT vid next E ->
     (forall v, length (next v) <= deg (vid v)) -> (forall i, wreachable WT E (is_start vid starts) i -> In i ids) ->
     forall lim n os r, mst_run vid WT VS PM LM next cfg starts lim n = (os, r) ->
     1 + work next 2 1 starts + graph_work deg 2 1 ids < n -> forall s, r <> Running s).
Proof.
  exact (fun V I L vid WT VS PM LM next cfg starts => conj
    (fun lim n os s HR => mst_work_reports vid WT PM LM next VS cfg starts lim n os s HR)
    (fun V_dec I_dec E deg ids HE Hd Hi lim n os r => mst_work_graph I_dec vid WT PM LM next VS V_dec cfg E starts deg ids lim n os r HE Hd Hi)).
Qed.
Print Assumptions C100_minimum_spanning_tree_work.

(** Examples. The graphs are finite: no edge leaves the vertices 0..4, and the bounds are not far from the number of passes. *)
Definition small : list nat := [0; 1; 2; 3; 4].
Example C100_nonvacuous_finite :
  (forall i, reachable (graph_of g_next) (is_start id_nat [0]) i -> In i small) /\
  (forall i, wreachable ZI (@wgraph_of nat ZI w_next) (is_start id_nat [0]) i -> In i small).
Proof.
  split.
  - apply reachable_closed; [intros i [<-|[]]; cbn; auto|]. intros i j Hi. unfold graph_of, small in *. cbn in Hi. decompose [or] Hi; subst; try contradiction; cbn; intuition.
  - apply wreachable_closed; [intros i [<-|[]]; cbn; auto|]. intros i w j Hi. unfold wgraph_of, small in *. cbn in Hi. decompose [or] Hi; subst; try contradiction; cbn; intuition congruence.
Qed.
Definition still_running {S X} (r : outcome S X) : bool := match r with Running _ => true | _ => false end.
Example C100_nonvacuous_bfs : let run n := bfs_run id_nat hVS hPM hPM g_next bfs_default [0] None None n in
  still_running (snd (run 26)) = true /\ still_running (snd (run 27)) = false /\
  1 + work g_next 1 4 ([0] ++ map br_vertex (fst (run 26))) = 29 /\
  1 + work g_next 1 4 [0] + graph_work (fun i => length (g_next i)) 1 4 small = 36.
Proof. vm_compute. repeat split; reflexivity. Qed.
Example C100_nonvacuous_ntd : let run n := ntd_run id_nat hVS hPM hPM g_next ntd_default [0] None None n in
  still_running (snd (run 18)) = true /\ still_running (snd (run 19)) = false /\
  work g_next 1 2 ([0] ++ map nr_vertex (fst (run 18))) = 18 /\
  work g_next 1 2 [0] + graph_work (fun i => length (g_next i)) 1 2 small = 23.
Proof. vm_compute. repeat split; reflexivity. Qed.
Example C100_nonvacuous_dfs : let run n := dfs_traverse Nat.eq_dec id_nat hVS hPM hPM hXM g_next (dfs_checked (dfs_ask DFS_TREE [ENTERING_START; ENTERING_SUCCESSOR] false true)) (fun _ => false) [0] None None n in
  still_running (snd (run 21)) = true /\ still_running (snd (run 22)) = false /\
  4 * length [0] + work g_next 2 1 (map fst (entered (fun _ => false) 0 (fst (run 21)))) = 25 /\
  4 * length [0] + graph_work (fun i => length (g_next i)) 2 1 small = 25.
Proof. vm_compute. repeat split; reflexivity. Qed.
Example C100_nonvacuous_topo : let run n := topo_run id_nat hVS hPM hPM dag_next topo_default [0] None None n in
  still_running (snd (run 21)) = true /\ still_running (snd (run 22)) = false /\
  length [0] + work dag_next 2 2 (map tr_vertex (fst (run 22))) = 23 /\
  length [0] + graph_work (fun i => length (dag_next i)) 2 2 small = 23.
Proof. vm_compute. repeat split; reflexivity. Qed.
Example C100_nonvacuous_dijkstra : let run n := dij_run id_nat ZI hDMZ hPM hPM w_next dij_default [0] None None n in
  still_running (snd (run 20)) = true /\ still_running (snd (run 21)) = false /\
  length [0] + work w_next 2 1 ([0] ++ map dr_vertex (fst (run 20))) = 22 /\
  length [0] + work w_next 2 1 [0] + graph_work (fun i => length (w_next i)) 2 1 small = 27.
Proof. vm_compute. repeat split; reflexivity. Qed.
Example C100_nonvacuous_a_star : let run n := ast_run id_nat ZI hDMZ hPM hPM as_next ast_default as_hc [0] None None None n in
  still_running (snd (run 16)) = true /\ still_running (snd (run 17)) = false /\
  length [0] + work as_next 2 1 ([0] ++ map ar_vertex (fst (run 16))) = 16 /\
  length [0] + work as_next 2 1 [0] + graph_work (fun i => length (as_next i)) 2 1 small = 21.
Proof. vm_compute. repeat split; reflexivity. Qed.
Example C100_nonvacuous_mst : let run n := mst_run id_nat ZI hVS hPM hPM mst_next mst_default [0] None n in
  still_running (snd (run 16)) = true /\ still_running (snd (run 17)) = false /\
  1 + work mst_next 2 1 ([0] ++ map mr_vertex (fst (run 16))) = 25 /\
  1 + work mst_next 2 1 [0] + graph_work (fun i => length (mst_next i)) 2 1 small = 33.
Proof. vm_compute. repeat split; reflexivity. Qed.
