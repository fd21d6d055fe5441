(** Property of traversals that read the answer of the neighbor function step by step, while the iterator may look at the traversal, the program may change the graph, or the iterator fails: C93.

    [read i s v] is what the iterator for vertex [v] does when it is read in pass [i], while the traversal is in state [s]: any exception, the end, or any edge. The run is [lazy_run]; [log] are
    the edges that have been read, each with the vertex it has been read for. The theorems say: the run is the run for the ordinary neighbor function that answers with the edges in [log].
    If the iterator raises an exception, the traversal raises it, and up to then, the run is the one for [log]. *)
From Coq Require Import List ZArith Bool Arith Lia Sorted.
From Verif Require Import Machine Common GearSpec Spec TraversalSpec Weight WeightSpec BFSModel NTDModel DijkstraModel LazyModel LazySpec LazyInst Examples NTDExamples.
Import ListNotations.

(** TraversalBreadthFirst *)
Theorem C93_bfs_lazy_answers :
  forall {V I L : Type} (I_dec : forall a b : I, {a = b} + {a <> b}) (vid : V -> I) (VS : VSet I) (PM : PMap I V) (LM : PMap I L)
    (cfg : bfs_cfg) (starts : list V) (av : option (vs_t VS)) (lim : option Z)
    (read : nat -> @bfs_state V I L VS PM LM -> V -> exn + option (V * L)) (n : nat) os r log,
  bc_is_tree cfg = false -> NoDup (map vid starts) ->
  let step f := bfs_step vid VS PM LM f cfg in
  let init := bfs_init vid VS PM LM cfg starts av lim in
  lazy_run step bfs_reading bfs_set_unread read 0 n init = (os, r, log) ->
  reads_like step bfs_reading bfs_set_unread read (fun v => edges_read I_dec vid log (vid v)) n init os r.
Proof.
  exact (fun V I L I_dec vid VS PM LM cfg starts av lim read n os r log Ht HN => bfs_lazy I_dec vid VS PM LM cfg starts av lim Ht HN read n os r log).
Qed.
Print Assumptions C93_bfs_lazy_answers.

(** TraversalNeighborsThenDepth *)
Theorem C93_ntd_lazy_answers :
  forall {V I L : Type} (I_dec : forall a b : I, {a = b} + {a <> b}) (vid : V -> I) (VS : VSet I) (PM : PMap I V) (LM : PMap I L)
    (cfg : ntd_cfg) (starts : list V) (av : option (vs_t VS)) (lim : option Z)
    (read : nat -> @ntd_state V I L VS PM LM -> V -> exn + option (V * L)) (n : nat) os r log,
  nc_is_tree cfg = false -> NoDup (map vid starts) ->
  let step f := ntd_step vid VS PM LM f cfg in
  let init := ntd_init vid VS PM LM cfg starts av lim in
  lazy_run step ntd_reading ntd_set_unread read 0 n init = (os, r, log) ->
  reads_like step ntd_reading ntd_set_unread read (fun v => edges_read I_dec vid log (vid v)) n init os r.
Proof.
  exact (fun V I L I_dec vid VS PM LM cfg starts av lim read n os r log Ht HN => ntd_lazy I_dec vid VS PM LM cfg starts av lim Ht HN read n os r log).
Qed.
Print Assumptions C93_ntd_lazy_answers.

(** TraversalShortestPaths; the edges have non-negative weights. *)
Theorem C93_dijkstra_lazy_answers :
  forall {V I L : Type} (I_dec : forall a b : I, {a = b} + {a <> b}) (vid : V -> I) (PM : PMap I V) (LM : PMap I L) (WT : Weights) (DM : DMap I (w_t WT) (w_inf WT))
    (cfg : dij_cfg) (starts : list V) (lim : option Z)
    (read : nat -> @dij_state V I L WT DM PM LM -> V -> exn + option (V * w_t WT * L)) (n : nat) os r log,
  dc_is_tree cfg = false -> NoDup (map vid starts) ->
  (forall i s v e, read i s v = inr (Some e) -> w_leb WT (w_zero WT) (snd (fst e)) = true) ->
  let step f := dij_step vid WT DM PM LM f cfg in
  let init := dij_init vid WT DM PM LM cfg starts None lim in
  lazy_run step dij_reading dij_set_unread read 0 n init = (os, r, log) ->
  (forall j, Forall (fun e => w_leb WT (w_zero WT) (snd (fst e)) = true) (edges_read I_dec vid log j)) /\
  reads_like step dij_reading dij_set_unread read (fun v => edges_read I_dec vid log (vid v)) n init os r.
Proof.
  exact (fun V I L I_dec vid PM LM WT DM cfg starts lim read n os r log Ht HN => dij_lazy I_dec vid PM LM WT DM cfg starts lim Ht HN read n os r log).
Qed.
Print Assumptions C93_dijkstra_lazy_answers.

(** So, the properties of the traversals hold for the graph of the edges that have been read. Breadth first search: no vertex twice, minimal depths, and when the
    traversal has ended, all vertices that can be reached have been reported. *)
Theorem C93_bfs_reports_in_graph_of_read_edges :
  forall {V I L : Type} (I_dec : forall a b : I, {a = b} + {a <> b}) (vid : V -> I) (VS : VSet I) (PM : PMap I V) (LM : PMap I L)
    (cfg : bfs_cfg) (starts : list V) (lim : option Z) (read : nat -> @bfs_state V I L VS PM LM -> V -> exn + option (V * L)) (n : nat) os r log,
  bc_is_tree cfg = false -> bc_report_depth_increase cfg = false -> NoDup (map vid starts) ->
  lazy_run (fun f => bfs_step vid VS PM LM f cfg) bfs_reading bfs_set_unread read 0 n (bfs_init vid VS PM LM cfg starts None lim) = (os, r, log) ->
  let E := edge_read vid log in
  (NoDup (bfs_ids vid os) /\
   (forall rep, In rep os -> exists k, br_depth rep = Z.of_nat k /\ min_depth E (is_start vid starts) (vid (br_vertex rep)) k) /\
   StronglySorted (fun a b => br_depth a <= br_depth b)%Z os) /\
  (forall s', r = Ended s' -> forall i, reachable E (is_start vid starts) i -> is_start vid starts i \/ In i (bfs_ids vid os)).
Proof.
  exact (fun V I L I_dec vid VS PM LM => bfs_lazy_reports I_dec vid VS PM LM).
Qed.
Print Assumptions C93_bfs_reports_in_graph_of_read_edges.

(** Shortest paths: the distances are those in the graph of the edges that have been read. *)
Theorem C93_dijkstra_distances_in_graph_of_read_edges :
  forall {V I L : Type} (I_dec : forall a b : I, {a = b} + {a <> b}) (vid : V -> I) (PM : PMap I V) (LM : PMap I L) (WT : Weights) (DM : DMap I (w_t WT) (w_inf WT))
    (cfg : dij_cfg) (starts : list V) (lim : option Z) (read : nat -> @dij_state V I L WT DM PM LM -> V -> exn + option (V * w_t WT * L)) (n : nat) os r log,
  dc_is_tree cfg = false -> NoDup (map vid starts) ->
  (forall i s v e, read i s v = inr (Some e) -> w_leb WT (w_zero WT) (snd (fst e)) = true) ->
  lazy_run (fun f => dij_step vid WT DM PM LM f cfg) dij_reading dij_set_unread read 0 n (dij_init vid WT DM PM LM cfg starts None lim) = (os, r, log) ->
  let E := weighted_edge_read vid log in
  (forall rep, In rep os -> is_distance WT E (is_start vid starts) (vid (dr_vertex rep)) (dr_distance rep)) /\
  StronglySorted (fun a b => w_leb WT (dr_distance a) (dr_distance b) = true) os /\
  (forall s', r = Ended s' -> forall i, wreachable WT E (is_start vid starts) i -> is_start vid starts i \/ In i (dij_ids vid os)).
Proof.
  exact (fun V I L I_dec vid PM LM WT DM => dij_lazy_reports I_dec vid PM LM WT DM).
Qed.
Print Assumptions C93_dijkstra_distances_in_graph_of_read_edges.

(** An iterator that gives, for the vertex v, the edges to v+1, v+2, .. as long as less than 6 vertices have been visited: the first vertex alone takes them all.
    With the failing variant, the sixth read raises an exception. *)
Definition count_visited (s : @bfs_state nat nat nat hVS bPM bPM) : nat := length (filter (fun i => vs_mem hVS i (b_visited s)) (seq 0 50)).
Definition greedy (i : nat) (s : @bfs_state nat nat nat hVS bPM bPM) (v : nat) : exn + option (nat * nat) :=
  if count_visited s <? 6 then inr (Some (v + count_visited s, 0)) else inr None.
Definition greedy_fails (i : nat) (s : @bfs_state nat nat nat hVS bPM bPM) (v : nat) : exn + option (nat * nat) :=
  if i <? 5 then greedy i s v else inl KeyErrorNotFound.
Definition lazy_show (read : nat -> @bfs_state nat nat nat hVS bPM bPM -> nat -> exn + option (nat * nat)) n :=
  let '(os, r, log) := lazy_run (fun f => bfs_step id_nat hVS bPM bPM f bfs_default) bfs_reading bfs_set_unread read 0 n (bfs_init id_nat hVS bPM bPM bfs_default [0; 10] None None) in
  (map (fun rep => (br_vertex rep, br_depth rep)) os, match r with Ended _ => None | Running _ => None | Raised x _ => Some x end, map (fun p => (fst p, fst (snd p))) log).
Example C93_example :
  bc_is_tree bfs_default = false /\ bc_report_depth_increase bfs_default = false /\ NoDup (map id_nat [0; 10]) /\
  lazy_show greedy 60 = ([(2, 1%Z); (3, 1%Z); (4, 1%Z); (5, 1%Z)], None, [(0, 2); (0, 3); (0, 4); (0, 5)]) /\
  lazy_show greedy_fails 60 = ([(2, 1%Z); (3, 1%Z); (4, 1%Z)], Some KeyErrorNotFound, [(0, 2); (0, 3); (0, 4)]).
Proof. split; [reflexivity|split; [reflexivity|split; [repeat constructor; cbn; intuition discriminate|]]]. split; vm_compute; reflexivity. Qed.

(** Weights that depend on the time: the weight of an edge is the number of the pass in which it is read. *)
Definition ticking (i : nat) (s : @dij_state nat nat nat ZI hDMZ hPM hPM) (v : nat) : exn + option (nat * w_t ZI * nat) :=
  inr (if (v <? 4) && negb (i mod 4 =? 3) then Some (v + i mod 4 + 1, Some (Z.of_nat i), 0) else None).
Example C93_example_weights :
  (forall i s v e, ticking i s v = inr (Some e) -> w_leb ZI (w_zero ZI) (snd (fst e)) = true) /\
  let '(os, r, log) := lazy_run (fun f => dij_step id_nat ZI hDMZ hPM hPM f dij_default) dij_reading dij_set_unread ticking 0 40 (dij_init id_nat ZI hDMZ hPM hPM dij_default [0] None None) in
  map (fun rep => (dr_vertex rep, dr_distance rep)) os = [(2, Some 1%Z); (3, Some 2%Z); (4, Some 6%Z); (5, Some 7%Z); (6, Some 12%Z)] /\
  log = [(0, (2, Some 1%Z, 0)); (0, (3, Some 2%Z, 0)); (2, (4, Some 5%Z, 0)); (2, (5, Some 6%Z, 0)); (3, (5, Some 9%Z, 0)); (3, (6, Some 10%Z, 0))].
Proof.
  split; [|vm_compute].
  - intros i s v e H. unfold ticking in H. destruct ((v <? 4) && negb (i mod 4 =? 3)); [|discriminate]. injection H as <-. cbn [fst snd]. unfold ZI, ZInfWeights. cbn [w_leb w_zero]. cbn. apply Z.leb_le. lia.
  - split; reflexivity.
Qed.
