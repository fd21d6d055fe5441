(** Properties of one traversal object that is started several times, also while generators of earlier starts are in use: C90.

    [undisturbed st view alone] and [restartable st alone] are explained in NestedModel: a start is not disturbed by other uses of the same object, before it and while it is used, as far as [view]
    shows what is reported; resp. all attributes are as expected if the older generators are not used any more. *)
From Coq Require Import List ZArith Bool Arith.
From Verif Require Import Machine Common GearSpec Weight BFSModel NTDModel DFSModel TopoModel DijkstraModel AStarModel MSTModel NestedModel NestedProofs NestedOwn NestedExamples
  Examples NTDExamples DFSExamples TopoExamples AStarExamples MSTExamples.
Import ListNotations.

(** ** Nested loops, and generators used in turns: the reported vertices, their order, their predecessors and labels, and the end *)
Theorem C90_nested_breadth_first :
  forall {V I L : Type} (vid : V -> I) (VS : VSet I) (PM : PMap I V) (LM : PMap I L) (next : V -> list (V * L)),
  undisturbed (bfs_object vid VS PM LM next) (fun _ r => (br_vertex r, br_pred r, br_labels r))
    (fun '(cfg, starts, av, lim) n => bfs_run vid VS PM LM next cfg starts av lim n).
Proof. exact (@bfs_undisturbed). Qed.
Print Assumptions C90_nested_breadth_first.

Theorem C90_nested_neighbors_then_depth :
  forall {V I L : Type} (vid : V -> I) (VS : VSet I) (PM : PMap I V) (LM : PMap I L) (next : V -> list (V * L)),
  undisturbed (ntd_object vid VS PM LM next) (fun _ r => (NTDModel.nr_vertex r, NTDModel.nr_pred r, NTDModel.nr_labels r))
    (fun '(cfg, starts, av, lim) n => ntd_run vid VS PM LM next cfg starts av lim n).
Proof. exact (@ntd_undisturbed). Qed.
Print Assumptions C90_nested_neighbors_then_depth.

(** Also for starts with and without trace in the same object.  Without trace, the depth is the expected one, too. *)
Theorem C90_nested_depth_first :
  forall {V I L : Type} (V_dec : forall a b : V, {a = b} + {a <> b}) (vid : V -> I) (VS : VSet I) (PM : PMap I V) (LM : PMap I L) (XM : DMap I Z 0%Z) (next : V -> list (V * L)),
  undisturbed (depth_first_object V_dec vid VS PM LM XM next)
    (fun p r => let '(cfg, _, _, _, _) := p in ((fr_vertex r, fr_pred r, fr_labels r), if DFSModel.dc_compute_depth cfg && negb (dfs_uses_trace cfg) then Some (fr_depth r) else None))
    (fun p n => let '(cfg, skip, starts, av, lim) := p in dfs_traverse V_dec vid VS PM LM XM next cfg skip starts av lim n).
Proof. exact (@depth_first_undisturbed). Qed.
Print Assumptions C90_nested_depth_first.

(** For starts with option is_tree; see C91 for the others. *)
Theorem C90_nested_topological_sort_of_tree :
  forall {V I L : Type} (vid : V -> I) (VS : VSet I) (PM : PMap I V) (LM : PMap I L) (next : V -> list (V * L)),
  undisturbed_for (fun '(cfg, _, _, _) => tc_is_tree cfg = true) (topo_object vid VS PM LM next) (fun _ r => (tr_vertex r, tr_pred r, tr_labels r))
    (fun '(cfg, starts, av, lim) n => topo_run vid VS PM LM next cfg starts av lim n).
Proof. exact (@topo_undisturbed). Qed.
Print Assumptions C90_nested_topological_sort_of_tree.

(** The traversals of weighted graphs: also all attributes (distance, path_length, depth, edge) *)
Theorem C90_nested_shortest_paths :
  forall {V I L : Type} (vid : V -> I) (WT : Weights) (DM : DMap I (w_t WT) (w_inf WT)) (PM : PMap I V) (LM : PMap I L) (next : V -> list (V * w_t WT * L)),
  undisturbed (dij_object vid WT DM PM LM next) (fun _ r => r) (fun '(cfg, starts, known, lim) n => dij_run vid WT DM PM LM next cfg starts known lim n).
Proof. exact (@dij_undisturbed). Qed.
Print Assumptions C90_nested_shortest_paths.

Theorem C90_nested_a_star :
  forall {V I L : Type} (vid : V -> I) (WT : Weights) (DM : DMap I (w_t WT) (w_inf WT)) (PM : PMap I V) (LM : PMap I L) (next : V -> list (V * w_t WT * L)),
  undisturbed (ast_object vid WT DM PM LM next) (fun _ r => r)
    (fun '(cfg, heuristic, starts, known, guesses, lim) n => ast_run vid WT DM PM LM next cfg heuristic starts known guesses lim n).
Proof. exact (@ast_undisturbed). Qed.
Print Assumptions C90_nested_a_star.

Theorem C90_nested_minimum_spanning_tree :
  forall {V I L : Type} (vid : V -> I) (WT : Weights) (VS : VSet I) (PM : PMap I V) (LM : PMap I L) (next : V -> list (V * w_t WT * L)),
  undisturbed (mst_object vid WT VS PM LM next) (fun _ r => r) (fun '(cfg, starts, lim) n => mst_run vid WT VS PM LM next cfg starts lim n).
Proof. exact (@mst_undisturbed). Qed.
Print Assumptions C90_nested_minimum_spanning_tree.

(** Example: an inner loop from 2 runs to its end while the outer loop from 0 has reported one vertex; and the two take turns. *)
Example C90_nested_example :
  used_in_time 0 (tl (inside (bfs_p [0]) 3 (bfs_p [2]) 40 40)) /\
  map br_vertex (fst (reports bfs_obj 0 (new_object 0%Z) (inside (bfs_p [0]) 3 (bfs_p [2]) 40 40))) = [1; 2; 3; 4] /\
  map br_vertex (fst (reports bfs_obj 1 (new_object 0%Z) (inside (bfs_p [0]) 3 (bfs_p [2]) 40 40))) = [3; 4; 0; 1] /\
  map br_vertex (fst (reports bfs_obj 0 (new_object 0%Z) (in_turns (bfs_p [0]) 3 (bfs_p [2]) 30))) = [1; 2; 3; 4] /\
  map br_vertex (fst (reports bfs_obj 1 (new_object 0%Z) (in_turns (bfs_p [0]) 3 (bfs_p [2]) 30))) = [3; 4; 0; 1] /\
  ending 0 (snd (reports bfs_obj 0 (new_object 0%Z) (in_turns (bfs_p [0]) 3 (bfs_p [2]) 30))) = Some None /\
  map (fun r => (dr_vertex r, dr_distance r, dr_depth r)) (fst (reports dij_obj 0 (new_object (None, 0)) (in_turns (dij_p [0]) 3 (dij_p [2]) 30))) =
  map (fun r => (dr_vertex r, dr_distance r, dr_depth r)) (fst (dij_run no_id ZInfWeights hDMZ hPM hPM w_next dij_default [0] None None 33)) /\
  length (fst (dij_run no_id ZInfWeights hDMZ (@hPM nat) (@hPM nat) w_next dij_default [0] None None 33)) = 4.
Proof. split; [apply in_time_ok; vm_compute; reflexivity|]. vm_compute. repeat split; reflexivity. Qed.

(** ** Restart: only the newest generator is used after the start, and all attributes are as expected *)
Theorem C90_restart_breadth_first :
  forall {V I L : Type} (vid : V -> I) (VS : VSet I) (PM : PMap I V) (LM : PMap I L) (next : V -> list (V * L)),
  restartable (bfs_object vid VS PM LM next) (fun '(cfg, starts, av, lim) n => bfs_run vid VS PM LM next cfg starts av lim n).
Proof. exact (@bfs_restartable). Qed.
Print Assumptions C90_restart_breadth_first.

Theorem C90_restart_neighbors_then_depth :
  forall {V I L : Type} (vid : V -> I) (VS : VSet I) (PM : PMap I V) (LM : PMap I L) (next : V -> list (V * L)),
  restartable (ntd_object vid VS PM LM next) (fun '(cfg, starts, av, lim) n => ntd_run vid VS PM LM next cfg starts av lim n).
Proof. exact (@ntd_restartable). Qed.
Print Assumptions C90_restart_neighbors_then_depth.

Theorem C90_restart_depth_first :
  forall {V I L : Type} (V_dec : forall a b : V, {a = b} + {a <> b}) (vid : V -> I) (VS : VSet I) (PM : PMap I V) (LM : PMap I L) (XM : DMap I Z 0%Z) (next : V -> list (V * L)),
  restartable (depth_first_object V_dec vid VS PM LM XM next)
    (fun p n => let '(cfg, skip, starts, av, lim) := p in dfs_traverse V_dec vid VS PM LM XM next cfg skip starts av lim n).
Proof. exact (@depth_first_restartable). Qed.
Print Assumptions C90_restart_depth_first.

Theorem C90_restart_topological_sort :
  forall {V I L : Type} (vid : V -> I) (VS : VSet I) (PM : PMap I V) (LM : PMap I L) (next : V -> list (V * L)),
  restartable (topo_object vid VS PM LM next) (fun '(cfg, starts, av, lim) n => topo_run vid VS PM LM next cfg starts av lim n).
Proof. exact (@topo_restartable). Qed.
Print Assumptions C90_restart_topological_sort.

(** Example: the loop is left after some passes, and the object is started again. *)
Example C90_restart_example :
  show_bfs (fst (reports bfs_obj 1 (new_object 0%Z) ([StartFrom (bfs_p [0])] ++ repeat (Pass 0) 9 ++ StartFrom (bfs_p [2]) :: repeat (Pass 1) 40))) = [(3, 1%Z); (4, 2%Z); (0, 2%Z); (1, 3%Z)] /\
  show_dfs (fst (reports dfs_obj 1 (new_object (0%Z, None)) ([StartFrom (dfs_p both_entering false [0])] ++ repeat (Pass 0) 9 ++ StartFrom (dfs_p all_tree_events true [3]) :: repeat (Pass 1) 7))) =
    [(3, Some ENTERING_START, 0%Z); (0, Some ENTERING_SUCCESSOR, 1%Z); (2, Some ENTERING_SUCCESSOR, 2%Z); (2, Some LEAVING_SUCCESSOR, 2%Z)] /\
  map tr_vertex (fst (reports topo_obj 1 (new_object (0%Z, [])) ([StartFrom (topo_p [3])] ++ repeat (Pass 0) 6 ++ StartFrom (topo_p [0]) :: repeat (Pass 1) 40))) = [2; 1; 0].
Proof. vm_compute. repeat split; reflexivity. Qed.
