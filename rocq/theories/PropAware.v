(** Properties of traversals with a neighbor function that looks at the traversal ("search-aware graph"), that keeps a state of its own, or that raises exceptions: C88.

    [answer i s v] is what the function does when it is called for [v] in pass [i], while the traversal is in state [s]: any exception, or any list of edges.  The run is
    [aware_run].  The theorems say: the run is the run for an ordinary function [fun v => T (vid v)], and [T] is the table of the answers that have been given in the run; each
    vertex is asked for at most once.  If the function raises an exception, the traversal raises it, and up to then, it has been a run for [T]. *)
From Coq Require Import List ZArith Bool Arith Lia Sorted.
From Verif Require Import Machine Common GearSpec Spec TraversalSpec Weight WeightSpec BFSModel NTDModel DFSModel TopoModel DijkstraModel MSTModel AwareModel AwareSpec AwareInst Examples.
Import ListNotations.

(** TraversalBreadthFirst *)
Theorem C88_bfs_search_aware :
  forall {V I L : Type} (I_dec : forall a b : I, {a = b} + {a <> b}) (vid : V -> I) (VS : VSet I) (PM : PMap I V) (LM : PMap I L)
    (cfg : bfs_cfg) (starts : list V) (av : option (vs_t VS)) (lim : option Z)
    (answer : nat -> @bfs_state V I L VS PM LM -> V -> exn + list (V * L)) (n : nat),
  bc_is_tree cfg = false -> NoDup (map vid starts) ->
  let step f := bfs_step vid VS PM LM f cfg in
  let init := bfs_init vid VS PM LM cfg starts av lim in
  exists T, runs_like step bfs_asks [] answer (fun v => T (vid v)) n init /\ table_of_answers step bfs_asks [] answer vid n init T.
Proof.
  exact (fun V I L I_dec vid VS PM LM cfg starts av lim answer n Ht HN => bfs_aware I_dec vid VS PM LM cfg starts av lim Ht HN answer n).
Qed.
Print Assumptions C88_bfs_search_aware.

(** TraversalNeighborsThenDepth *)
Theorem C88_ntd_search_aware :
  forall {V I L : Type} (I_dec : forall a b : I, {a = b} + {a <> b}) (vid : V -> I) (VS : VSet I) (PM : PMap I V) (LM : PMap I L)
    (cfg : ntd_cfg) (starts : list V) (av : option (vs_t VS)) (lim : option Z)
    (answer : nat -> @ntd_state V I L VS PM LM -> V -> exn + list (V * L)) (n : nat),
  nc_is_tree cfg = false -> NoDup (map vid starts) ->
  let step f := ntd_step vid VS PM LM f cfg in
  let init := ntd_init vid VS PM LM cfg starts av lim in
  exists T, runs_like step (ntd_asks cfg) [] answer (fun v => T (vid v)) n init /\ table_of_answers step (ntd_asks cfg) [] answer vid n init T.
Proof.
  exact (fun V I L I_dec vid VS PM LM cfg starts av lim answer n Ht HN => ntd_aware I_dec vid VS PM LM cfg starts av lim Ht HN answer n).
Qed.
Print Assumptions C88_ntd_search_aware.

(** TraversalDepthFirst, with trace (mode DFS_TREE); [skip]: the calls of skip_expanding_entered_vertex *)
Theorem C88_dfs_search_aware :
  forall {V I L : Type} (I_dec : forall a b : I, {a = b} + {a <> b}) (V_dec : forall a b : V, {a = b} + {a <> b}) (vid : V -> I) (VS : VSet I) (PM : PMap I V) (LM : PMap I L)
    (XM : DMap I Z 0%Z)
    (cfg : dfs_cfg) (skip : nat -> bool) (starts : list V) (av : option (vs_t VS)) (lim : option Z)
    (answer : nat -> @dfs_state V I L VS PM LM XM -> V -> exn + list (V * L)) (n : nat),
  DFSModel.dc_is_tree cfg = false -> dc_mode cfg = DFS_TREE ->
  let step f := dfs_step V_dec vid VS PM LM XM f cfg skip in
  let init := dfs_init vid VS PM LM XM cfg starts av lim in
  exists T, runs_like step (dfs_asks V_dec vid cfg skip) [] answer (fun v => T (vid v)) n init /\ table_of_answers step (dfs_asks V_dec vid cfg skip) [] answer vid n init T.
Proof.
  exact (fun V I L I_dec V_dec vid VS PM LM XM cfg skip starts av lim answer n Ht Hm => dfs_aware I_dec V_dec vid VS PM LM XM cfg skip starts av lim Ht Hm answer n).
Qed.
Print Assumptions C88_dfs_search_aware.

(** TraversalDepthFirst, without trace *)
Theorem C88_dfs_without_trace_search_aware :
  forall {V I L : Type} (I_dec : forall a b : I, {a = b} + {a <> b}) (V_dec : forall a b : V, {a = b} + {a <> b}) (vid : V -> I) (VS : VSet I) (PM : PMap I V) (LM : PMap I L)
    (XM : DMap I Z 0%Z)
    (cfg : dfs_cfg) (skip : nat -> bool) (starts : list V) (av : option (vs_t VS)) (lim : option Z)
    (answer : nat -> @dfw_state V I L VS PM LM -> V -> exn + list (V * L)) (n : nat),
  DFSModel.dc_is_tree cfg = false ->
  let step f := dfw_step V_dec vid VS PM LM XM f cfg skip in
  let init := dfw_init vid VS PM LM cfg starts av lim in
  exists T, runs_like step (dfw_asks V_dec vid cfg skip) [] answer (fun v => T (vid v)) n init /\ table_of_answers step (dfw_asks V_dec vid cfg skip) [] answer vid n init T.
Proof.
  exact (fun V I L I_dec V_dec vid VS PM LM XM cfg skip starts av lim answer n Ht => dfw_aware I_dec V_dec vid VS PM LM XM cfg skip starts av lim Ht answer n).
Qed.
Print Assumptions C88_dfs_without_trace_search_aware.

(** TraversalTopologicalSort *)
Theorem C88_topo_search_aware :
  forall {V I L : Type} (I_dec : forall a b : I, {a = b} + {a <> b}) (vid : V -> I) (VS : VSet I) (PM : PMap I V) (LM : PMap I L)
    (cfg : topo_cfg) (starts : list V) (av : option (vs_t VS)) (lim : option Z)
    (answer : nat -> @topo_state V I L VS PM LM -> V -> exn + list (V * L)) (n : nat),
  tc_is_tree cfg = false -> NoDup (map vid starts) ->
  let step f := topo_step vid VS PM LM f cfg in
  let init := topo_init vid VS PM LM cfg starts av lim in
  exists T, runs_like step (topo_asks vid) [] answer (fun v => T (vid v)) n init /\ table_of_answers step (topo_asks vid) [] answer vid n init T.
Proof.
  exact (fun V I L I_dec vid VS PM LM cfg starts av lim answer n Ht HN => topo_aware I_dec vid VS PM LM cfg starts av lim Ht HN answer n).
Qed.
Print Assumptions C88_topo_search_aware.

(** TraversalMinimumSpanningTree *)
Theorem C88_mst_search_aware :
  forall {V I L : Type} (I_dec : forall a b : I, {a = b} + {a <> b}) (vid : V -> I) (VS : VSet I) (PM : PMap I V) (LM : PMap I L) (WT : Weights)
    (cfg : mst_cfg) (starts : list V) (lim : option Z)
    (answer : nat -> @mst_state V I L WT VS PM LM -> V -> exn + list (V * w_t WT * L)) (n : nat),
  NoDup (map vid starts) ->
  let step f := mst_step vid WT VS PM LM f cfg in
  let init := mst_init vid WT VS PM LM cfg starts lim in
  exists T, runs_like step (mst_asks vid WT) [] answer (fun v => T (vid v)) n init /\ table_of_answers step (mst_asks vid WT) [] answer vid n init T.
Proof.
  exact (fun V I L I_dec vid VS PM LM WT cfg starts lim answer n HN => mst_aware I_dec vid VS PM LM WT cfg starts lim HN answer n).
Qed.
Print Assumptions C88_mst_search_aware.

(** TraversalShortestPaths; the function answers with non-negative weights. *)
Theorem C88_dijkstra_search_aware :
  forall {V I L : Type} (I_dec : forall a b : I, {a = b} + {a <> b}) (vid : V -> I) (PM : PMap I V) (LM : PMap I L) (WT : Weights) (DM : DMap I (w_t WT) (w_inf WT))
    (cfg : dij_cfg) (starts : list V) (lim : option Z)
    (answer : nat -> @dij_state V I L WT DM PM LM -> V -> exn + list (V * w_t WT * L)) (n : nat),
  dc_is_tree cfg = false -> NoDup (map vid starts) ->
  (forall i s v es e, answer i s v = inr es -> In e es -> w_leb WT (w_zero WT) (snd (fst e)) = true) ->
  let step f := dij_step vid WT DM PM LM f cfg in
  let init := dij_init vid WT DM PM LM cfg starts None lim in
  exists T, (forall i e, In e (T i) -> w_leb WT (w_zero WT) (snd (fst e)) = true) /\
    runs_like step (dij_asks vid WT cfg) [] answer (fun v => T (vid v)) n init /\ table_of_answers step (dij_asks vid WT cfg) [] answer vid n init T.
Proof.
  exact (fun V I L I_dec vid PM LM WT DM cfg starts lim answer n Ht HN => dij_aware I_dec vid PM LM WT DM cfg starts lim Ht HN answer n).
Qed.
Print Assumptions C88_dijkstra_search_aware.

(** So, the properties of the traversals hold, too, for the graph that the answers form.  For breadth first search: the depths are minimal in the graph of the answers, and when the
    traversal has ended, all reachable vertices of it have been reported. *)
Theorem C88_bfs_reports_in_graph_of_answers :
  forall {V I L : Type} (I_dec : forall a b : I, {a = b} + {a <> b}) (vid : V -> I) (VS : VSet I) (PM : PMap I V) (LM : PMap I L)
    (cfg : bfs_cfg) (starts : list V) (lim : option Z) (answer : nat -> @bfs_state V I L VS PM LM -> V -> exn + list (V * L)) (n : nat) os r,
  bc_is_tree cfg = false -> bc_report_depth_increase cfg = false -> NoDup (map vid starts) ->
  let step f := bfs_step vid VS PM LM f cfg in
  let init := bfs_init vid VS PM LM cfg starts None lim in
  let E := edge_of_answers step bfs_asks answer vid n init in
  aware_run step bfs_asks [] answer 0 n init = (os, r) ->
  (NoDup (bfs_ids vid os) /\
   (forall rep, In rep os -> exists k, br_depth rep = Z.of_nat k /\ min_depth E (is_start vid starts) (vid (br_vertex rep)) k) /\
   StronglySorted (fun a b => br_depth a <= br_depth b)%Z os) /\
  (forall s', r = Ended s' -> forall i, reachable E (is_start vid starts) i -> is_start vid starts i \/ In i (bfs_ids vid os)).
Proof.
  exact (fun V I L I_dec vid VS PM LM cfg starts lim answer n os r => bfs_aware_reports I_dec vid VS PM LM cfg starts lim answer n os r).
Qed.
Print Assumptions C88_bfs_reports_in_graph_of_answers.

(** For shortest paths: the distances are the ones in the graph of the answers. *)
Theorem C88_dijkstra_distances_in_graph_of_answers :
  forall {V I L : Type} (I_dec : forall a b : I, {a = b} + {a <> b}) (vid : V -> I) (PM : PMap I V) (LM : PMap I L) (WT : Weights) (DM : DMap I (w_t WT) (w_inf WT))
    (cfg : dij_cfg) (starts : list V) (lim : option Z) (answer : nat -> @dij_state V I L WT DM PM LM -> V -> exn + list (V * w_t WT * L)) (n : nat) os r,
  dc_is_tree cfg = false -> NoDup (map vid starts) ->
  (forall i s v es e, answer i s v = inr es -> In e es -> w_leb WT (w_zero WT) (snd (fst e)) = true) ->
  let step f := dij_step vid WT DM PM LM f cfg in
  let init := dij_init vid WT DM PM LM cfg starts None lim in
  let E := weighted_edge_of_answers step (dij_asks vid WT cfg) answer vid n init in
  aware_run step (dij_asks vid WT cfg) [] answer 0 n init = (os, r) ->
  (forall rep, In rep os -> is_distance WT E (is_start vid starts) (vid (dr_vertex rep)) (dr_distance rep)) /\
  StronglySorted (fun a b => w_leb WT (dr_distance a) (dr_distance b) = true) os.
Proof.
  exact (fun V I L I_dec vid PM LM WT DM cfg starts lim answer n os r => dij_aware_reports I_dec vid PM LM WT DM cfg starts lim answer n os r).
Qed.
Print Assumptions C88_dijkstra_distances_in_graph_of_answers.

(** A function that goes on from vertices as long as the depth of the traversal is less than 3, and one that fails for the vertex 4.  Note: the first one does not present a fixed
    graph, since the answer for a vertex depends on the depth it is found at. *)
Definition until_depth (i : nat) (s : @bfs_state nat nat nat hVS bPM bPM) (v : nat) : exn + list (nat * nat) :=
  if (b_depth s <? 3)%Z then inr [(v + 1, 0); (2 * v, 0)] else inr [].
Definition fails_for_4 (i : nat) (s : @bfs_state nat nat nat hVS bPM bPM) (v : nat) : exn + list (nat * nat) :=
  if v =? 4 then inl RuntimeErrorProblem else inr [(v + 1, 0); (2 * v, 0)].
Example C88_example :
  let step f := bfs_step (fun v : nat => v) hVS bPM bPM f bfs_default in
  let init := bfs_init (fun v : nat => v) hVS bPM bPM bfs_default [1] None None in
  (let p := aware_run step bfs_asks [] until_depth 0 40 init in
   map br_vertex (fst p) = [2; 3; 4] /\ (exists s, snd p = Ended s) /\ map br_depth (fst p) = [1; 2; 2]%Z) /\
  (let p := aware_run step bfs_asks [] fails_for_4 0 40 init in
   map br_vertex (fst p) = [2; 3; 4; 6] /\ exists s, snd p = Raised RuntimeErrorProblem s).
Proof. vm_compute. repeat split; eexists; reflexivity. Qed.
