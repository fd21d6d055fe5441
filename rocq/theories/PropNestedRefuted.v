(** What is not true of one traversal object that is used for nested loops: C91. *)
From Coq Require Import List ZArith Bool Arith.
From Verif Require Import Machine Common GearSpec Weight BFSModel NTDModel DFSModel TopoModel NestedModel NestedExamples Examples NTDExamples DFSExamples TopoExamples.
Import ListNotations.

(** "While an inner loop over another start of the same object is executed, attributes and reports of the outer loop stay right." *)

(** Breadth first: the depths of the outer loop become wrong. *)
Theorem C91_breadth_first_depth_refuted :
  exists us, us = inside (bfs_p [0]) 3 (bfs_p [2]) 40 40 /\ used_in_time 0 (tl us) /\
  show_bfs (fst (bfs_run no_id hVS hPM hPM g_next bfs_default [0] None None 43)) = [(1, 1%Z); (2, 1%Z); (3, 2%Z); (4, 3%Z)] /\
  show_bfs (fst (reports bfs_obj 0 (new_object 0%Z) us)) = [(1, 1%Z); (2, 3%Z); (3, 4%Z); (4, 5%Z)].
Proof. eexists; split; [reflexivity|]. split; [apply in_time_ok; vm_compute; reflexivity|]. vm_compute. split; reflexivity. Qed.
Print Assumptions C91_breadth_first_depth_refuted.

(** Neighbors then depth: the same, for further neighbors of the vertex that is just expanded *)
Theorem C91_neighbors_then_depth_depth_refuted :
  exists us, us = inside (ntd_p [0]) 2 (ntd_p [2]) 40 40 /\ used_in_time 0 (tl us) /\
  show_ntd (fst (ntd_run no_id hVS hPM hPM g_next ntd_default [0] None None 42)) = [(1, 1%Z); (2, 1%Z); (3, 2%Z); (4, 3%Z)] /\
  show_ntd (fst (reports ntd_obj 0 (new_object 0%Z) us)) = [(1, 1%Z); (2, 3%Z); (3, 2%Z); (4, 3%Z)].
Proof. eexists; split; [reflexivity|]. split; [apply in_time_ok; vm_compute; reflexivity|]. vm_compute. split; reflexivity. Qed.
Print Assumptions C91_neighbors_then_depth_depth_refuted.

(** Depth first with trace: the depths of the outer loop become wrong (even negative). *)
Theorem C91_depth_first_depth_refuted :
  exists us, us = inside (dfs_p all_tree_events true [0]) 6 (dfs_p all_tree_events true [2]) 40 40 /\ used_in_time 0 (tl us) /\
  map (fun r => (fr_vertex r, fr_depth r)) (fst (reports dfs_obj 0 (new_object (0%Z, None)) us)) =
    [(0, 0%Z); (2, 1%Z); (3, 2%Z); (4, 0%Z); (4, 0%Z); (3, (-1)%Z); (2, (-2)%Z); (1, (-2)%Z); (1, (-2)%Z); (0, (-3)%Z)] /\
  map (fun r => (fr_vertex r, fr_depth r)) (fst (reports dfs_obj 0 (new_object (0%Z, None)) (StartFrom (dfs_p all_tree_events true [0]) :: repeat (Pass 0) 46))) =
    [(0, 0%Z); (2, 1%Z); (3, 2%Z); (4, 3%Z); (4, 3%Z); (3, 2%Z); (2, 1%Z); (1, 1%Z); (1, 1%Z); (0, 0%Z)].
Proof. eexists; split; [reflexivity|]. split; [apply in_time_ok; vm_compute; reflexivity|]. vm_compute. split; reflexivity. Qed.
Print Assumptions C91_depth_first_depth_refuted.

(** Depth first, with trace and without trace: if the inner loop is left after its first report, then vertices that the outer loop leaves, resp. enters as successors, are reported with the event
    ENTERING_START. *)
Theorem C91_depth_first_event_refuted :
  exists us us2, us = inside (dfs_p all_tree_events true [0]) 8 (dfs_p all_tree_events true [2]) 2 40 /\ used_in_time 0 (tl us) /\
  us2 = inside (dfs_p both_entering false [0]) 7 (dfs_p both_entering false [2]) 2 40 /\ used_in_time 0 (tl us2) /\
  map (fun r => (fr_vertex r, fr_event r)) (fst (reports dfs_obj 0 (new_object (0%Z, None)) us)) =
    [(0, Some ENTERING_START); (2, Some ENTERING_SUCCESSOR); (3, Some ENTERING_SUCCESSOR); (4, Some ENTERING_SUCCESSOR); (4, Some LEAVING_SUCCESSOR); (3, Some ENTERING_START);
     (2, Some ENTERING_START); (1, Some ENTERING_SUCCESSOR); (1, Some LEAVING_SUCCESSOR); (0, Some LEAVING_START)] /\
  map (fun r => (fr_vertex r, fr_event r)) (fst (reports dfs_obj 0 (new_object (0%Z, None)) us2)) =
    [(0, Some ENTERING_START); (2, Some ENTERING_SUCCESSOR); (3, Some ENTERING_START); (4, Some ENTERING_START); (1, Some ENTERING_START)].
Proof.
  do 2 eexists; split; [reflexivity|]. split; [apply in_time_ok; vm_compute; reflexivity|]. split; [reflexivity|]. split; [apply in_time_ok; vm_compute; reflexivity|].
  vm_compute. split; reflexivity.
Qed.
Print Assumptions C91_depth_first_event_refuted.

(** Topological sort: if the inner loop is executed to its end, task 2 is reported twice by the outer loop (first theorem); if the inner loop is left early, task 2, a start vertex, is never
    reported by the outer loop, although that comes to its regular end (second theorem). *)
Theorem C91_topological_sort_twice_refuted :
  exists us, us = inside (topo_p [0]) 10 (topo_p [4]) 40 40 /\ used_in_time 0 (tl us) /\
  map tr_vertex (fst (topo_run no_id hVS hPM hPM tasks topo_default [0] None None 50)) = [2; 1; 0] /\
  map tr_vertex (fst (reports topo_obj 0 (new_object (0%Z, [])) us)) = [2; 1; 2; 0] /\ ending 0 (snd (reports topo_obj 0 (new_object (0%Z, [])) us)) = Some None.
Proof. eexists; split; [reflexivity|]. split; [apply in_time_ok; vm_compute; reflexivity|]. vm_compute. repeat split; reflexivity. Qed.
Print Assumptions C91_topological_sort_twice_refuted.

Theorem C91_topological_sort_lost_refuted :
  exists us, us = inside (topo_p [2; 4]) 3 (topo_p [3]) 6 40 /\ used_in_time 0 (tl us) /\
  map tr_vertex (fst (topo_run no_id hVS hPM hPM tasks topo_default [2; 4] None None 43)) = [4; 2] /\
  map tr_vertex (fst (reports topo_obj 1 (new_object (0%Z, [])) us)) = [4] /\
  map tr_vertex (fst (reports topo_obj 0 (new_object (0%Z, [])) us)) = [4] /\ ending 0 (snd (reports topo_obj 0 (new_object (0%Z, [])) us)) = Some None.
Proof. eexists; split; [reflexivity|]. split; [apply in_time_ok; vm_compute; reflexivity|]. vm_compute. repeat split; reflexivity. Qed.
Print Assumptions C91_topological_sort_lost_refuted.
