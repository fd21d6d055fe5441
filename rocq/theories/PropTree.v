(** C49 (option is_tree) for breadth first search, neighbors then depth, shortest paths and A*. For depth first search and topological sort see
    [C49_dfs_is_tree] in PropDFS.v and [C49_topo_is_tree] in PropTopo.v.

    [tree_like vid next starts] (DFSSpec.v): no two walks from the start vertices lead to the same vertex. For a graph with weights, [bare next] regards weight and labels
    of an edge as its labels. *)
From Coq Require Import List ZArith Bool Arith.
From Verif Require Import Machine MachineSim GearSpec Common DFSSpec BFSModel NTDModel BFSTree Weight DijkstraModel AStarModel WTree
  Examples NTDExamples AStarExamples TreeExamples.
Import ListNotations.

(** If the graph is a tree, seen from the start vertices, is_tree changes nothing the user can see except for the set of visited vertices: not the reports
    ([bfs_same_seen]: vertex, depth, paths), and not how the traversal proceeds and ends ([bfs_same_rest]: calls of the neighbor function, depth, paths). *)
Theorem C49_bfs_is_tree :
  forall {V I L : Type} (vid : V -> I) (VS : VSet I) (PM : PMap I V) (LM : PMap I L) (next : V -> list (V * L)) (starts : list V)
    (build labeled increase : bool) lim n,
  tree_like vid next starts ->
  let cfg t := {| bc_is_tree := t; bc_build_paths := build; bc_labeled := labeled; bc_report_depth_increase := increase |} in
  let p1 := bfs_run vid VS PM LM next (cfg true) starts None lim n in
  let p2 := bfs_run vid VS PM LM next (cfg false) starts None lim n in
  Forall2 (bfs_same_seen VS PM LM) (fst p1) (fst p2) /\ outcome_rel (bfs_same_rest VS PM LM) (snd p1) (snd p2).
Proof.
  intros V I L vid VS PM LM next starts build labeled increase lim n HT.
  exact (bfs_tree_same vid VS PM LM next starts HT build labeled increase lim n).
Qed.
Print Assumptions C49_bfs_is_tree.

(** The same for neighbors then depth. *)
Theorem C49_ntd_is_tree :
  forall {V I L : Type} (vid : V -> I) (VS : VSet I) (PM : PMap I V) (LM : PMap I L) (next : V -> list (V * L)) (starts : list V)
    (build labeled depth : bool) lim n,
  tree_like vid next starts ->
  let cfg t := {| nc_is_tree := t; nc_build_paths := build; nc_labeled := labeled; nc_compute_depth := depth |} in
  let p1 := ntd_run vid VS PM LM next (cfg true) starts None lim n in
  let p2 := ntd_run vid VS PM LM next (cfg false) starts None lim n in
  Forall2 (ntd_same_seen VS PM LM) (fst p1) (fst p2) /\ outcome_rel (ntd_same_rest VS PM LM) (snd p1) (snd p2).
Proof.
  intros V I L vid VS PM LM next starts build labeled depth lim n HT.
  exact (ntd_tree_same vid VS PM LM next starts HT build labeled depth lim n).
Qed.
Print Assumptions C49_ntd_is_tree.

(** Shortest paths: is_tree changes nothing except for the mapping of distances, that is not filled: not the reports ([dij_same_seen]: vertex, distance, depth,
    paths), and not how the traversal proceeds and ends. Weights may be negative here. *)
Theorem C49_dijkstra_is_tree :
  forall {V I L : Type} (vid : V -> I) (WT : Weights) (DM : DMap I (w_t WT) (w_inf WT)) (PM : PMap I V) (LM : PMap I L)
    (next : V -> list (V * w_t WT * L)) (starts : list V) (build labeled keep : bool) lim n,
  tree_like vid (bare next) starts ->
  let cfg t := {| dc_is_tree := t; dc_build_paths := build; dc_labeled := labeled; dc_keep_distances := keep |} in
  let p1 := dij_run vid WT DM PM LM next (cfg true) starts None lim n in
  let p2 := dij_run vid WT DM PM LM next (cfg false) starts None lim n in
  Forall2 (dij_same_seen WT DM PM LM) (fst p1) (fst p2) /\ outcome_rel (dij_same_rest WT DM PM LM) (snd p1) (snd p2).
Proof.
  intros V I L vid WT DM PM LM next starts build labeled keep lim n HT.
  exact (dij_tree_same vid WT DM PM LM next starts HT build labeled keep lim n).
Qed.
Print Assumptions C49_dijkstra_is_tree.

(** A*, with any heuristic: the reports are equal, and so is everything else except for the mapping of guesses. *)
Theorem C49_astar_is_tree :
  forall {V I L : Type} (vid : V -> I) (WT : Weights) (DM : DMap I (w_t WT) (w_inf WT)) (PM : PMap I V) (LM : PMap I L)
    (next : V -> list (V * w_t WT * L)) (heuristic : V -> w_t WT) (starts : list V) (build labeled : bool) lim n,
  tree_like vid (bare next) starts ->
  let cfg t := {| ac_is_tree := t; ac_build_paths := build; ac_labeled := labeled |} in
  let p1 := ast_run vid WT DM PM LM next (cfg true) heuristic starts None None lim n in
  let p2 := ast_run vid WT DM PM LM next (cfg false) heuristic starts None None lim n in
  fst p1 = fst p2 /\ outcome_rel (ast_same_rest WT DM PM LM) (snd p1) (snd p2).
Proof.
  intros V I L vid WT DM PM LM next heuristic starts build labeled lim n HT.
  exact (ast_tree_same vid WT DM PM LM next heuristic starts HT build labeled lim n).
Qed.
Print Assumptions C49_astar_is_tree.

(** The infinite complete binary tree meets the hypothesis, with and without weights. *)
Example C49_tree_example :
  tree_like id_nat bin_next [0] /\ tree_like id_nat (bare bin_wnext) [0] /\
  bfs_ids id_nat (fst (bfs_run id_nat hVS hPM hPM bin_next {| bc_is_tree := true; bc_build_paths := true; bc_labeled := true; bc_report_depth_increase := false |} [0] None None 12)) = [1; 2; 3; 4] /\
  dij_ids id_nat (fst (dij_run id_nat ZI hDMZ hPM hPM bin_wnext {| dc_is_tree := true; dc_build_paths := true; dc_labeled := true; dc_keep_distances := false |} [0] None None 22)) = [1; 3; 7; 2; 5].
Proof. split; [exact bin_next_tree|]. split; [exact bin_wnext_tree|]. vm_compute. auto. Qed.

(** C78 is false of the code: if an (empty) mapping is given as known_distances, and is_tree is set, the start vertices get no distance, and at the first
    edge OverflowError is raised.  Without is_tree, or without a given mapping, the vertices are reported. *)
Theorem C78_tree_with_known_distances_refuted :
  exists (next : nat -> list (nat * option Z * unit)) (starts : list nat),
  tree_like id_nat (bare next) starts /\
  let cfg t := {| dc_is_tree := t; dc_build_paths := true; dc_labeled := true; dc_keep_distances := false |} in
  let known := dm_empty hDMZ in
  dij_ids id_nat (fst (dij_run id_nat ZI hDMZ hPM hPM next (cfg false) starts (Some known) None 22)) = [1; 3; 7; 2; 5] /\
  dij_ids id_nat (fst (dij_run id_nat ZI hDMZ hPM hPM next (cfg true) starts None None 22)) = [1; 3; 7; 2; 5] /\
  exists s, dij_run id_nat ZI hDMZ hPM hPM next (cfg true) starts (Some known) None 22 = ([], Raised OverflowErrorDistance s).
Proof.
  exists bin_wnext, [0]. split; [exact bin_wnext_tree|]. vm_compute. split; [reflexivity|]. split; [reflexivity|]. eexists. reflexivity.
Qed.
Print Assumptions C78_tree_with_known_distances_refuted.
