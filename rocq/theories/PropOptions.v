(** C101: options for paths and for additional information do not change what is reported.
    Two runs from the same start, with the same limit and the same number of passes, that differ only in build_paths, in labeled or unlabeled edges being used for
    paths, and - for TraversalNeighborsThenDepth - in compute_depth or - for TraversalShortestPaths - in keep_distances, report the same vertices with the same
    attributes (named in OptSpec) in the same order, call the neighbor function for the same vertices in the same order, and end, or raise, in the same way. *)
From Coq Require Import List Arith ZArith Lia.
From Verif Require Import Machine GearSpec Spec TraversalSpec Common Weight WeightSpec HeapModel BFSModel NTDModel DFSModel DFSSpec DFSCompare TopoModel DijkstraModel AStarModel
  MSTModel OptSpec OptSim OptNTD OptKeep OptDFS Examples NTDExamples DFSExamples TopoExamples AStarExamples MSTExamples.
Import ListNotations.

Theorem C101_breadth_first_options :
  forall {V I L : Type} (vid : V -> I) (VS : VSet I) (PM : PMap I V) (LM : PMap I L) (next : V -> list (V * L)) starts av lim n c1 c2 os1 r1 os2 r2,
  bc_is_tree c1 = bc_is_tree c2 -> bc_report_depth_increase c1 = bc_report_depth_increase c2 ->
  bfs_run vid VS PM LM next c1 starts av lim n = (os1, r1) -> bfs_run vid VS PM LM next c2 starts av lim n = (os2, r2) ->
  map bfs_seen os1 = map bfs_seen os2 /\ outcome_map b_calls r1 = outcome_map b_calls r2.
Proof. exact (@bfs_options). Qed.
Print Assumptions C101_breadth_first_options.

Theorem C101_neighbors_then_depth_options :
  forall {V I L : Type} (vid : V -> I) (VS : VSet I) (PM : PMap I V) (LM : PMap I L) (next : V -> list (V * L)) starts av lim n c1 c2 os1 r1 os2 r2,
  nc_is_tree c1 = nc_is_tree c2 ->
  ntd_run vid VS PM LM next c1 starts av lim n = (os1, r1) -> ntd_run vid VS PM LM next c2 starts av lim n = (os2, r2) ->
  (map (fun rep => (nr_vertex rep, nr_visited rep)) os1 = map (fun rep => (nr_vertex rep, nr_visited rep)) os2 /\
   outcome_map (fun s => map fst (n_calls s)) r1 = outcome_map (fun s => map fst (n_calls s)) r2) /\
  (nc_compute_depth c1 = nc_compute_depth c2 -> map ntd_seen os1 = map ntd_seen os2 /\ outcome_map n_calls r1 = outcome_map n_calls r2).
Proof.
  exact (fun V I L vid VS PM LM next starts av lim n c1 c2 os1 r1 os2 r2 Ht R1 R2 => conj (ntd_depth_option vid VS PM LM next starts av lim n c1 c2 os1 r1 os2 r2 Ht R1 R2)
    (fun Hd => ntd_options vid VS PM LM next starts av lim n c1 c2 os1 r1 os2 r2 Ht Hd R1 R2)).
Qed.
Print Assumptions C101_neighbors_then_depth_options.

(** For TraversalDepthFirst: [same_seen] compares vertices, events, and, if computed in both runs, depths and traces; the runs may have different limits and numbers of
    passes, and are then compared as far as both have come ([same_as_far]). *)
Theorem C101_depth_first_options :
  forall {V I L : Type} (V_dec : forall a b : V, {a = b} + {a <> b}) (vid : V -> I) (VS : VSet I) (PM : PMap I V) (LM : PMap I L) (XM : DMap I Z 0%Z)
    (next : V -> list (V * L)) (starts : list V) (av : option (vs_t VS)) (o1 o2 cfg1 cfg2 : dfs_cfg) (skip : nat -> bool),
  let given := match av with Some _ => true | None => false end in
  DFSModel.dc_is_tree o1 = DFSModel.dc_is_tree o2 -> dc_mode o1 = dc_mode o2 -> dc_report o1 = dc_report o2 ->
  dfs_options o1 given = inl cfg1 -> dfs_options o2 given = inl cfg2 -> (DFSModel.dc_is_tree o1 = true -> av = None) ->
  forall lim1 n1 os1 r1 lim2 n2 os2 r2,
  dfs_traverse V_dec vid VS PM LM XM next cfg1 skip starts av lim1 n1 = (os1, r1) ->
  dfs_traverse V_dec vid VS PM LM XM next cfg2 skip starts av lim2 n2 = (os2, r2) ->
  same_as_far (same_seen VS PM LM XM cfg1 cfg2) os1 os2 /\
  (forall c1 c2, r1 = Ended c1 -> r2 = Ended c2 -> Forall2 (same_seen VS PM LM XM cfg1 cfg2) os1 os2).
Proof. exact (@dfs_options_agree). Qed.
Print Assumptions C101_depth_first_options.

Theorem C101_topological_sort_options :
  forall {V I L : Type} (vid : V -> I) (VS : VSet I) (PM : PMap I V) (LM : PMap I L) (next : V -> list (V * L)) starts av lim n c1 c2 os1 r1 os2 r2,
  tc_is_tree c1 = tc_is_tree c2 ->
  topo_run vid VS PM LM next c1 starts av lim n = (os1, r1) -> topo_run vid VS PM LM next c2 starts av lim n = (os2, r2) ->
  map topo_seen os1 = map topo_seen os2 /\ outcome_map (fun s => (t_calls s, t_cycle s)) r1 = outcome_map (fun s => (t_calls s, t_cycle s)) r2.
Proof. exact (@topo_options). Qed.
Print Assumptions C101_topological_sort_options.

(** Second part: with the same keep_distances, also the attribute [distances] is the same, whatever the weights are. *)
Theorem C101_shortest_paths_options :
  forall {V I L : Type} (vid : V -> I) (WT : Weights) (PM : PMap I V) (LM : PMap I L) (next : V -> list (V * w_t WT * L)) (DM : DMap I (w_t WT) (w_inf WT)),
  (forall (I_dec : forall a b : I, {a = b} + {a <> b}) starts known lim n c1 c2 os1 r1 os2 r2,
     (forall v e, In e (next v) -> w_leb WT (w_zero WT) (snd (fst e)) = true) -> knows_nonneg vid WT DM starts known -> dc_is_tree c1 = dc_is_tree c2 ->
     dij_run vid WT DM PM LM next c1 starts known lim n = (os1, r1) -> dij_run vid WT DM PM LM next c2 starts known lim n = (os2, r2) ->
     map dij_seen os1 = map dij_seen os2 /\ outcome_map d_calls r1 = outcome_map d_calls r2) /\
  (forall starts known lim n c1 c2 os1 r1 os2 r2, dc_is_tree c1 = dc_is_tree c2 -> dc_keep_distances c1 = dc_keep_distances c2 ->
     dij_run vid WT DM PM LM next c1 starts known lim n = (os1, r1) -> dij_run vid WT DM PM LM next c2 starts known lim n = (os2, r2) ->
     map (fun rep => (dij_seen rep, dr_distances rep)) os1 = map (fun rep => (dij_seen rep, dr_distances rep)) os2 /\
     outcome_map (fun s => (d_calls s, d_distances s)) r1 = outcome_map (fun s => (d_calls s, d_distances s)) r2).
Proof. exact (fun V I L vid WT PM LM next DM => conj (dij_options_keep vid WT PM LM next DM) (dij_options vid WT PM LM next DM)). Qed.
Print Assumptions C101_shortest_paths_options.

Theorem C101_a_star_options :
  forall {V I L : Type} (vid : V -> I) (WT : Weights) (PM : PMap I V) (LM : PMap I L) (next : V -> list (V * w_t WT * L)) (DM : DMap I (w_t WT) (w_inf WT))
    h starts known guesses lim n c1 c2 os1 r1 os2 r2,
  ac_is_tree c1 = ac_is_tree c2 ->
  ast_run vid WT DM PM LM next c1 h starts known guesses lim n = (os1, r1) -> ast_run vid WT DM PM LM next c2 h starts known guesses lim n = (os2, r2) ->
  map (fun rep => (ast_seen rep, ar_distances rep)) os1 = map (fun rep => (ast_seen rep, ar_distances rep)) os2 /\
  outcome_map (fun s => (a_calls s, a_distances s)) r1 = outcome_map (fun s => (a_calls s, a_distances s)) r2.
Proof. exact (@ast_options). Qed.
Print Assumptions C101_a_star_options.

Theorem C101_minimum_spanning_tree_options :
  forall {V I L : Type} (vid : V -> I) (WT : Weights) (PM : PMap I V) (LM : PMap I L) (next : V -> list (V * w_t WT * L)) (VS : VSet I) starts lim n c1 c2 os1 r1 os2 r2,
  mst_run vid WT VS PM LM next c1 starts lim n = (os1, r1) -> mst_run vid WT VS PM LM next c2 starts lim n = (os2, r2) ->
  map mst_seen os1 = map mst_seen os2 /\ outcome_map m_calls r1 = outcome_map m_calls r2.
Proof. exact (@mst_options). Qed.
Print Assumptions C101_minimum_spanning_tree_options.

(** ** Concrete cases: a graph with cycles *)
Example C101_nonvacuous_bfs :
  let run c := bfs_run id_nat hVS hPM hPM g_next c [0] None None 40 in
  let c2 := {| bc_is_tree := false; bc_build_paths := false; bc_labeled := false; bc_report_depth_increase := false |} in
  bc_build_paths bfs_default = true /\ map (fun rep => (br_vertex rep, br_depth rep)) (fst (run bfs_default)) = map (fun rep => (br_vertex rep, br_depth rep)) (fst (run c2)) /\
  2 <= length (fst (run c2)).
Proof. vm_compute. repeat split; try reflexivity. lia. Qed.
Example C101_nonvacuous_ntd :
  let run c := ntd_run id_nat hVS hPM hPM g_next c [0] None None 40 in
  let c2 := {| nc_is_tree := false; nc_build_paths := false; nc_labeled := false; nc_compute_depth := negb (nc_compute_depth ntd_default) |} in
  map nr_vertex (fst (run ntd_default)) = map nr_vertex (fst (run c2)) /\ map nr_depth (fst (run ntd_default)) <> map nr_depth (fst (run c2)) /\ 2 <= length (fst (run c2)).
Proof. vm_compute. repeat split; try congruence. lia. Qed.
(** Options that TraversalDepthFirst accepts, with and without paths and trace. *)
Example C101_nonvacuous_dfs :
  let o1 := dfs_ask DFS_TREE [ENTERING_START; ENTERING_SUCCESSOR; LEAVING_SUCCESSOR] false true in
  let o2 := dfs_ask DFS_TREE [ENTERING_START; ENTERING_SUCCESSOR; LEAVING_SUCCESSOR] true false in
  let run o := dfs_try o g_next [0] 60 in
  dfs_options o1 false = inl (dfs_checked o1) /\ dfs_options o2 false = inl (dfs_checked o2) /\ dc_report o1 = dc_report o2 /\
  map (fun rep => (fr_vertex rep, fr_event rep)) (fst (run o1)) = map (fun rep => (fr_vertex rep, fr_event rep)) (fst (run o2)) /\ 4 <= length (fst (run o1)).
Proof. split; [reflexivity|]. split; [reflexivity|]. split; [reflexivity|]. vm_compute. split; [reflexivity|lia]. Qed.
Example C101_nonvacuous_dijkstra :
  let run c := dij_run id_nat ZI hDMZ hPM hPM w_next c [0] None None 40 in
  (forall v e, In e (w_next v) -> w_leb ZI (w_zero ZI) (snd (fst e)) = true) /\ knows_nonneg id_nat ZI hDMZ [0] None /\
  map (fun rep => (dr_vertex rep, dr_distance rep, dr_depth rep)) (fst (run dij_default)) = map (fun rep => (dr_vertex rep, dr_distance rep, dr_depth rep)) (fst (run dij_plain)) /\
  3 <= length (fst (run dij_plain)) /\
  map (fun rep : @dij_report nat nat nat ZI hDMZ hPM hPM => dm_get hDMZ (dr_vertex rep) (dr_distances rep)) (fst (run dij_default)) <>
  map (fun rep : @dij_report nat nat nat ZI hDMZ hPM hPM => dm_get hDMZ (dr_vertex rep) (dr_distances rep)) (fst (run dij_plain)).
Proof.
  split; [|split; [exact Logic.I|]].
  - intros v e H. do 8 (destruct v; [cbn in H; decompose [or] H; subst; try contradiction; reflexivity|]). cbn in H. decompose [or] H; subst; try contradiction; reflexivity.
  - vm_compute. repeat split; try congruence. lia.
Qed.
(** The condition about start vertices given twice is needed: if distances are known, they are then processed twice with keep_distances, and once without it. *)
Example C101_known_twice :
  let known := Some (dm_set hDMZ 0 (Some 5%Z) (dm_empty hDMZ)) in
  let calls c := match snd (dij_run id_nat ZI hDMZ hPM hPM w_next c [0; 0] known None 60) with Ended s => length (d_calls s) | _ => 0 end in
  calls dij_default = S (calls dij_plain) /\ 2 <= calls dij_plain.
Proof. vm_compute. split; [reflexivity|lia]. Qed.
Example C101_nonvacuous_others :
  let t1 := {| tc_is_tree := false; tc_build_paths := false; tc_labeled := false |} in
  let a1 := {| ac_is_tree := false; ac_build_paths := false; ac_labeled := false |} in
  let m1 := {| mc_build_paths := false; mc_labeled := false |} in
  tc_build_paths topo_default = true /\ ac_build_paths ast_default = true /\ mc_build_paths mst_default = true /\
  map tr_vertex (fst (topo_run id_nat hVS hPM hPM dag_next topo_default [0] None None 40)) = map tr_vertex (fst (topo_run id_nat hVS hPM hPM dag_next t1 [0] None None 40)) /\
  map ar_vertex (fst (ast_run id_nat ZI hDMZ hPM hPM as_next ast_default as_hc [0] None None None 40)) = map ar_vertex (fst (ast_run id_nat ZI hDMZ hPM hPM as_next a1 as_hc [0] None None None 40)) /\
  map mr_vertex (fst (mst_run id_nat ZI hVS hPM hPM mst_next mst_default [0] None 40)) = map mr_vertex (fst (mst_run id_nat ZI hVS hPM hPM mst_next m1 [0] None 40)).
Proof. vm_compute. repeat split; reflexivity. Qed.
