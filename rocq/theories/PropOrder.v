(** C122: the order in which edges and start vertices are given does not influence the results.
    Two neighbor functions give the same edges (seen by ids, and with weights), in any order and number; the start vertices have the same ids.  When both traversals have
    ended (whatever the other options are):
    - breadth first search has reported the same vertices with the same depths, and the sequences of depths are equal;
    - neighbors-then-depth has reported the same vertices;
    - Dijkstra has reported the same vertices with the same distances, and the sequences of distances are equal;
    - the edges of the minimum spanning trees have the same weights (as multisets), also with rounding weights;
    - the bidirectional breadth first search has returned the same length or has failed in the same way. *)
From Coq Require Import List ZArith Bool Arith Lia Permutation.
From Verif Require Import Machine GearSpec Spec TraversalSpec Common Weight WeightSpec BFSModel NTDModel DijkstraModel MSTModel MSTSpec MSTProofs BiBFSModel OrderProofs
  Examples NTDExamples MSTExamples BiExamples.
Import ListNotations.

Theorem C122_breadth_first_order :
  forall {V I L : Type} (I_dec : forall a b : I, {a = b} + {a <> b}) (vid : V -> I) (VS : VSet I) (PM : PMap I V) (LM : PMap I L)
    (next1 next2 : V -> list (V * L)) (E : I -> I -> Prop) (starts1 starts2 : list V),
  presents vid next1 E -> presents vid next2 E -> (forall i, In i (map vid starts1) <-> In i (map vid starts2)) ->
  forall c1 c2 lim1 lim2 n1 n2 os1 os2 s1 s2,
  bc_is_tree c1 = false -> bc_is_tree c2 = false -> bc_report_depth_increase c1 = false -> bc_report_depth_increase c2 = false ->
  bfs_run vid VS PM LM next1 c1 starts1 None lim1 n1 = (os1, Ended s1) -> bfs_run vid VS PM LM next2 c2 starts2 None lim2 n2 = (os2, Ended s2) ->
  Permutation (map (fun rep => (vid (br_vertex rep), br_depth rep)) os1) (map (fun rep => (vid (br_vertex rep), br_depth rep)) os2) /\
  map br_depth os1 = map br_depth os2.
Proof. exact @bfs_order. Qed.
Print Assumptions C122_breadth_first_order.

Theorem C122_neighbors_then_depth_order :
  forall {V I L : Type} (I_dec : forall a b : I, {a = b} + {a <> b}) (vid : V -> I) (VS : VSet I) (PM : PMap I V) (LM : PMap I L)
    (next1 next2 : V -> list (V * L)) (E : I -> I -> Prop) (starts1 starts2 : list V),
  presents vid next1 E -> presents vid next2 E -> (forall i, In i (map vid starts1) <-> In i (map vid starts2)) ->
  forall c1 c2 lim1 lim2 n1 n2 os1 os2 s1 s2, nc_is_tree c1 = false -> nc_is_tree c2 = false ->
  ntd_run vid VS PM LM next1 c1 starts1 None lim1 n1 = (os1, Ended s1) -> ntd_run vid VS PM LM next2 c2 starts2 None lim2 n2 = (os2, Ended s2) ->
  Permutation (ntd_ids vid os1) (ntd_ids vid os2).
Proof. exact @ntd_order. Qed.
Print Assumptions C122_neighbors_then_depth_order.

Theorem C122_shortest_paths_order :
  forall {V I L : Type} (I_dec : forall a b : I, {a = b} + {a <> b}) (vid : V -> I) (WT : Weights) (DM : DMap I (w_t WT) (w_inf WT)) (PM : PMap I V) (LM : PMap I L)
    (next1 next2 : V -> list (V * w_t WT * L)) (E : I -> w_t WT -> I -> Prop) (starts1 starts2 : list V),
  presents_weighted WT vid next1 E -> presents_weighted WT vid next2 E -> (forall i, In i (map vid starts1) <-> In i (map vid starts2)) ->
  forall c1 c2 lim1 lim2 n1 n2 os1 os2 s1 s2, nonnegative WT E -> dc_is_tree c1 = false -> dc_is_tree c2 = false ->
  dij_run vid WT DM PM LM next1 c1 starts1 None lim1 n1 = (os1, Ended s1) -> dij_run vid WT DM PM LM next2 c2 starts2 None lim2 n2 = (os2, Ended s2) ->
  Permutation (map (fun rep => (vid (dr_vertex rep), dr_distance rep)) os1) (map (fun rep => (vid (dr_vertex rep), dr_distance rep)) os2) /\
  map dr_distance os1 = map dr_distance os2.
Proof. exact @dij_order. Qed.
Print Assumptions C122_shortest_paths_order.

Theorem C122_minimum_spanning_tree_order :
  forall {V I L : Type} (V_dec : forall a b : V, {a = b} + {a <> b}) (I_dec : forall a b : I, {a = b} + {a <> b}) (vid : V -> I) (WT : Weights)
    (VS : VSet I) (PM : PMap I V) (LM : PMap I L) (next1 next2 : V -> list (V * w_t WT * L)) (E : I -> w_t WT -> I -> Prop) (starts1 starts2 : list V),
  presents_weighted WT vid next1 E -> presents_weighted WT vid next2 E -> (forall i, In i (map vid starts1) <-> In i (map vid starts2)) ->
  forall c1 c2 lim1 lim2 n1 n2 os1 os2 s1 s2, undirected WT E ->
  mst_run vid WT VS PM LM next1 c1 starts1 lim1 n1 = (os1, Ended s1) -> mst_run vid WT VS PM LM next2 c2 starts2 lim2 n2 = (os2, Ended s2) ->
  Permutation (mst_ids vid os1) (mst_ids vid os2) /\
  Permutation (map (edge_weight WT) (mst_edges vid WT PM LM os1)) (map (edge_weight WT) (mst_edges vid WT PM LM os2)).
Proof. exact @mst_order. Qed.
Print Assumptions C122_minimum_spanning_tree_order.

Theorem C122_bidirectional_breadth_first_order :
  forall {V I L : Type} (V_dec : forall a b : V, {a = b} + {a <> b}) (I_dec : forall a b : I, {a = b} + {a <> b}) (vid : V -> I)
    (VS : VSet I) (PM : PMap I V) (LM : PMap I L) (next1 next2 : V -> list (V * L)) (E : I -> I -> Prop) (starts1 starts2 : list V),
  presents vid next1 E -> presents vid next2 E -> (forall i, In i (map vid starts1) <-> In i (map vid starts2)) ->
  forall (back1 back2 : V -> list (V * L)) (goals1 goals2 : list V),
  presents vid back1 (fun i j => E j i) -> presents vid back2 (fun i j => E j i) -> (forall i, In i (map vid goals1) <-> In i (map vid goals2)) ->
  forall lab1 lab2 bp1 bp2 fail_silently n1 n2 os1 os2 r1 r2,
  bb_run V_dec I_dec vid VS PM LM next1 back1 lab1 bp1 fail_silently starts1 goals1 None n1 = (os1, r1) -> (forall s, r1 <> Running s) ->
  bb_run V_dec I_dec vid VS PM LM next2 back2 lab2 bp2 fail_silently starts2 goals2 None n2 = (os2, r2) -> (forall s, r2 <> Running s) ->
  map br_length os1 = map br_length os2 /\
  match r1, r2 with Ended _, Ended _ => True | Raised x _, Raised y _ => x = y | _, _ => False end.
Proof. exact @bb_order. Qed.
Print Assumptions C122_bidirectional_breadth_first_order.

(** The edges in reverse order, and each one twice *)
Definition turned {V A} (next : V -> list A) (v : V) : list A := rev (next v) ++ next v.
Lemma turned_presents {V I L} (vid : V -> I) (next : V -> list (V * L)) E : presents vid next E -> presents vid (turned next) E.
Proof. intros H u j. unfold turned. rewrite map_app, map_rev, in_app_iff, <- in_rev, (H u j). tauto. Qed.
Lemma turned_presents_weighted {V I L} (WT : Weights) (vid : V -> I) (next : V -> list (V * w_t WT * L)) E : presents_weighted WT vid next E -> presents_weighted WT vid (turned next) E.
Proof. intros H u w j. unfold turned. rewrite map_app, map_rev, in_app_iff, <- in_rev, (H u w j). tauto. Qed.

Example C122_example_bfs : presents id_nat g_next (graph_of g_next) /\ presents id_nat (turned g_next) (graph_of g_next) /\
  map (fun rep => (br_vertex rep, br_depth rep)) (fst (bfs_run id_nat hVS bPM bPM g_next bfs_default [5] None None 60)) = [(0, 1%Z); (1, 2%Z); (2, 2%Z); (3, 3%Z); (4, 4%Z)] /\
  map (fun rep => (br_vertex rep, br_depth rep)) (fst (bfs_run id_nat hVS bPM bPM (turned g_next) bfs_default [5; 5] None None 60)) = [(0, 1%Z); (2, 2%Z); (1, 2%Z); (3, 3%Z); (4, 4%Z)] /\
  (exists s, snd (bfs_run id_nat hVS bPM bPM g_next bfs_default [5] None None 60) = Ended s) /\
  (exists s, snd (bfs_run id_nat hVS bPM bPM (turned g_next) bfs_default [5; 5] None None 60) = Ended s).
Proof.
  split; [apply presents_graph_of|]. split; [apply turned_presents, presents_graph_of|]. split; [vm_compute; reflexivity|]. split; [vm_compute; reflexivity|].
  split; eexists; vm_compute; reflexivity.
Qed.
Example C122_example_mst : presents_weighted ZI id_nat mst_next (@wgraph_of nat ZI mst_next) /\ presents_weighted ZI id_nat (turned mst_next) (@wgraph_of nat ZI mst_next) /\
  undirected ZI (@wgraph_of nat ZI mst_next) /\
  (exists s, snd (mst_run id_nat ZI hVS bPM bPM mst_next mst_default [0] None 60) = Ended s) /\
  (exists s, snd (mst_run id_nat ZI hVS bPM bPM (turned mst_next) mst_default [0] None 60) = Ended s) /\
  map (edge_weight ZI) (mst_edges id_nat ZI bPM bPM (fst (mst_run id_nat ZI hVS bPM bPM mst_next mst_default [0] None 60))) <> [].
Proof.
  split; [apply presents_wgraph_of|]. split; [apply turned_presents_weighted, presents_wgraph_of|]. split; [exact mst_next_undirected|].
  split; [eexists; vm_compute; reflexivity|]. split; [eexists; vm_compute; reflexivity|]. vm_compute. discriminate.
Qed.
Example C122_example_dijkstra : presents_weighted ZI id_nat w_next (@wgraph_of nat ZI w_next) /\ presents_weighted ZI id_nat (turned w_next) (@wgraph_of nat ZI w_next) /\
  nonnegative ZI (@wgraph_of nat ZI w_next) /\
  (exists s, snd (dij_run id_nat ZI hDMZ bPM bPM w_next dij_plain [0] None None 60) = Ended s) /\
  (exists s, snd (dij_run id_nat ZI hDMZ bPM bPM (turned w_next) dij_plain [0] None None 60) = Ended s) /\
  map dr_distance (fst (dij_run id_nat ZI hDMZ bPM bPM w_next dij_plain [0] None None 60)) = map dr_distance (fst (dij_run id_nat ZI hDMZ bPM bPM (turned w_next) dij_plain [0] None None 60)).
Proof.
  split; [apply presents_wgraph_of|]. split; [apply turned_presents_weighted, presents_wgraph_of|]. split; [exact w_next_nonneg|].
  split; [eexists; vm_compute; reflexivity|]. split; [eexists; vm_compute; reflexivity|]. vm_compute. reflexivity.
Qed.
Example C122_example_bidirectional : presents (fun v => v) (turned g_next) (graph_of g_next) /\ presents (fun v => v) (turned g_back) (fun i j => graph_of g_next j i) /\
  map br_length (fst (bb_run Nat.eq_dec Nat.eq_dec (fun v => v) hVS hPM hPM g_next g_back true true false [5] [4; 3] None 60)) = [3%Z] /\
  map br_length (fst (bb_run Nat.eq_dec Nat.eq_dec (fun v => v) hVS hPM hPM (turned g_next) (turned g_back) true true false [5; 5] [3; 4] None 60)) = [3%Z].
Proof.
  split; [apply turned_presents, presents_graph_of|]. split; [apply turned_presents, g_back_presents|]. split; vm_compute; reflexivity.
Qed.
