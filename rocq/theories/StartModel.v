(** Model of the way from the options start_vertex and start_vertices to the initial state of a traversal, for values that are
    collections and for values that can be iterated only once (iterators, generators).
    The other models take the start vertices as a list that can be read as often as needed. *)
From Coq Require Import List ZArith Bool.
From Verif Require Import Machine GearSpec Common PathsModel PathModel Weight HeapModel BFSModel NTDModel TopoModel DFSModel DijkstraModel AStarModel
  MSTModel BiBFSModel BiSPModel InfModel.
Import ListNotations.

(** A Python iterable: [Collection]: an instance of collections.abc.Collection, each iteration delivers all elements;
    [Iterator]: delivers the elements that are still there, and afterwards, there are none.
    Simplification: iterables that are neither (each iteration delivers new elements, no Collection) do not occur; the elements of a collection do not change. *)
Inductive iterable (V : Type) :=
| Collection (l : list V)
| Iterator (l : list V).
Arguments Collection {V}. Arguments Iterator {V}.

(** isinstance(x, Collection) *)
Definition is_collection {V} (x : iterable V) : bool := match x with Collection _ => true | Iterator _ => false end.

(** A complete iteration: what it delivers, and the iterable afterwards *)
Definition iterate {V} (x : iterable V) : list V * iterable V :=
  match x with Collection l => (l, Collection l) | Iterator l => (l, Iterator []) end.

(** The argument start_vertices of the caller, and the attribute _start_vertices: [None]: it is the same object as the argument. *)
Record start_vars (V : Type) := { sv_argument : iterable V; sv_own : option (iterable V) }.
Arguments sv_argument {V}. Arguments sv_own {V}.

(** Iterating over self._start_vertices *)
Definition iterate_start {V} (s : start_vars V) : list V * start_vars V :=
  match sv_own s with
  | Some c => let '(l, c') := iterate c in (l, {| sv_argument := sv_argument s; sv_own := Some c' |})
  | None => let '(l, a') := iterate (sv_argument s) in (l, {| sv_argument := a'; sv_own := None |})
  end.

(** self._start_vertices = gear.sequence_of_vertices(self._start_vertices) *)
Definition list_start {V} (s : start_vars V) : start_vars V :=
  let '(l, s') := iterate_start s in {| sv_argument := sv_argument s'; sv_own := Some (Collection l) |}.

(** traversal.py:104-146 ([Traversal._start_from]): the vertices [create_paths] (utils.py:155-199) gets to see, and the variables *)
Definition start_from {V} (build_paths empty_path_for_start_vertices : bool) (start_vertex : option V) (start_vertices : option (iterable V))
    : (list V * start_vars V) + exn :=
  let go s := inl (if build_paths && empty_path_for_start_vertices then iterate_start s else ([], s)) in
  match start_vertex, start_vertices with
  | Some _, Some _ => inr RuntimeErrorConfig
  | Some v, None => go {| sv_argument := Collection []; sv_own := Some (Collection [v]) |}
  | None, None => inr RuntimeErrorConfig
  | None, Some x =>
      let s := {| sv_argument := x; sv_own := None |} in
      go (if build_paths && empty_path_for_start_vertices && negb (is_collection x) then list_start s else s)
  end.

(** traversal_without_weights.py:115-157 ([_start_without_weights_with_visited]) and utils.py:111-129 ([define_visited]): the vertices for [create_paths],
    those that are marked as visited, and the variables *)
Definition start_with_visited {V} (build_paths empty_path visited_for_start_vertices is_tree : bool) (start_vertex : option V) (start_vertices : option (iterable V))
    : (list V * list V * start_vars V) + exn :=
  match start_from build_paths empty_path start_vertex start_vertices with
  | inr e => inr e
  | inl (for_paths, s) =>
      let s := if visited_for_start_vertices && negb (match start_vertices with Some x => is_collection x | None => false end) then list_start s else s in
      let '(for_visited, s) := if visited_for_start_vertices && negb is_tree then iterate_start s else ([], s) in
      inl (for_paths, for_visited, s)
  end.

Section Starts.
Context {V I L : Type}.
Variable V_dec : forall a b : V, {a = b} + {a <> b}.
Variable I_dec : forall a b : I, {a = b} + {a <> b}.
Variable vid : V -> I.
Variable WT : Weights.
Notation W := (w_t WT).
Variable VS : VSet I.
Variable PM : PMap I V.
Variable LM : PMap I L.
Variable DM : DMap I W (w_inf WT).
Variable XM : DMap I Z 0%Z.

(** without_weights/breadth_first.py:198-210 ([start_from]), 262-276: initial state, and the variables after the loop has read the start vertices *)
Definition bfs_start (cfg : bfs_cfg) (start_vertex : option V) (start_vertices : option (iterable V)) (already_visited : option (vs_t VS)) (lim : option Z)
    : (@bfs_state V I L VS PM LM * start_vars V) + exn :=
  match start_with_visited (bc_build_paths cfg) true true (bc_is_tree cfg) start_vertex start_vertices with
  | inr e => inr e
  | inl (for_paths, for_visited, s) =>
      let '(to_expand, s) := iterate_start s in                                     (* line 267 *)
      inl ({| b_pc := BWhile; b_to_expand := to_expand; b_next := []; b_depth := 1;
              b_visited := define_visited VS already_visited (map vid for_visited) (bc_is_tree cfg);
              b_pred := create_predecessors vid PM (bc_build_paths cfg) for_paths;
              b_labels := pm_empty LM; b_limit := limit_init lim; b_calls := [] |}, s)
  end.

(** without_weights/neighbors_then_depth.py:202-216, 231-233, 269-287 *)
Definition ntd_start (cfg : ntd_cfg) (start_vertex : option V) (start_vertices : option (iterable V)) (already_visited : option (vs_t VS)) (lim : option Z)
    : @ntd_state V I L VS PM LM + exn :=
  match start_with_visited (nc_build_paths cfg) true true (nc_is_tree cfg) start_vertex start_vertices with
  | inr e => inr e
  | inl (for_paths, for_visited, s) =>
      let '(to_expand, _) := iterate_start s in                                     (* line 277 *)
      inl {| NTDModel.n_pc := NWhile; NTDModel.n_to_expand := rev to_expand;
             n_markers := if nc_compute_depth cfg then map (fun _ => false) to_expand else [];
             n_loop_depth := -1; n_depth := if nc_compute_depth cfg then 0 else -1;
             n_visited := define_visited VS already_visited (map vid for_visited) (nc_is_tree cfg);
             NTDModel.n_pred := create_predecessors vid PM (nc_build_paths cfg) for_paths;
             n_labels := pm_empty LM; n_limit := limit_init lim; NTDModel.n_calls := [] |}
  end.

(** without_weights/topological_sort.py:183-194, 258-270 resp. 402-416 *)
Definition topo_start (cfg : topo_cfg) (start_vertex : option V) (start_vertices : option (iterable V)) (already_visited : option (vs_t VS)) (lim : option Z)
    : @topo_state V I L VS PM LM + exn :=
  match start_with_visited (tc_build_paths cfg) true true (tc_is_tree cfg) start_vertex start_vertices with
  | inr e => inr e
  | inl (for_paths, for_visited, s) =>
      let '(stack, _) := iterate_start s in                                         (* lines 264, 406 *)
      inl {| t_pc := TWhile; t_stack := rev stack; t_trace_set := vs_empty VS; t_markers := map (fun _ => false) stack; t_depth := 0;
             t_visited := define_visited VS already_visited (map vid for_visited) (tc_is_tree cfg);
             t_pred := create_predecessors vid PM (tc_build_paths cfg) for_paths;
             t_labels := pm_empty LM; t_cycle := []; t_limit := limit_init lim; t_calls := [] |}
  end.

(** without_weights/depth_first.py:279-290, 402-562 resp. 1045. The loop takes the start vertices one by one. *)
Definition dfs_start (cfg : dfs_cfg) (start_vertex : option V) (start_vertices : option (iterable V)) (already_visited : option (vs_t VS)) (lim : option Z)
    : @dfs_state V I L VS PM LM XM + exn :=
  match start_with_visited (DFSModel.dc_build_paths cfg) false false (DFSModel.dc_is_tree cfg) start_vertex start_vertices with
  | inr e => inr e
  | inl (for_paths, for_visited, s) =>
      let '(starts, _) := iterate_start s in
      inl {| f_pc := FStarts; f_starts := starts; f_start := None; f_to_visit := []; f_to_visit_labels := []; f_markers := [];
             f_var_labels := None; f_trace := []; f_trace_labels := []; f_on_trace := vs_empty VS; f_index := dm_empty XM;
             f_time := 1; f_depth := -1; f_event := None;
             f_visited := define_visited VS already_visited (map vid for_visited) (DFSModel.dc_is_tree cfg);
             f_pred := create_predecessors vid PM (DFSModel.dc_build_paths cfg) for_paths;
             f_labels := pm_empty LM; f_limit := limit_init lim; f_count := 0; f_calls := [] |}
  end.

(** with_weights/shortest_paths.py:173-205, 223-272: the start vertices and their ids are listed once (line 182) *)
Definition dij_start (cfg : DijkstraModel.dij_cfg) (start_vertex : option V) (start_vertices : option (iterable V)) (known : option (dm_t DM)) (lim : option Z)
    : @dij_state V I L WT DM PM LM + exn :=
  match start_from (DijkstraModel.dc_build_paths cfg) true start_vertex start_vertices with
  | inr e => inr e
  | inl (for_paths, s) =>
      let '(starts, _) := iterate_start s in
      let dist := define_distances WT DM known (map (fun v => (vid v, w_zero WT)) starts) (DijkstraModel.dc_is_tree cfg) in
      inl {| d_pc := DLoop WT; d_heap := heapify WT (start_entries vid WT DM 256 dist starts);
             d_no := 256 - Z.of_nat (length starts); d_distances := dist;
             d_pred := create_predecessors vid PM (DijkstraModel.dc_build_paths cfg) for_paths;
             d_labels := pm_empty LM; d_distance := w_inf WT; d_depth := 0; d_limit := limit_init lim; d_calls := [] |}
  end.

(** with_weights/a_star.py:205-241, 259-329 *)
Definition ast_start (cfg : ast_cfg) (heuristic : V -> W) (start_vertex : option V) (start_vertices : option (iterable V))
    (known_distances known_guesses : option (dm_t DM)) (lim : option Z) : @ast_state V I L WT DM PM LM + exn :=
  match start_from (ac_build_paths cfg) true start_vertex start_vertices with
  | inr e => inr e
  | inl (for_paths, s) =>
      let '(starts, _) := iterate_start s in
      let dist := define_distances WT DM known_distances (map (fun v => (vid v, w_zero WT)) starts) false in
      let guesses := define_distances WT DM known_guesses
          (map (fun v => (vid v, w_add WT (dm_get DM (vid v) dist) (heuristic v))) starts) (ac_is_tree cfg) in
      inl {| a_pc := ALoop WT; a_heap := heapify WT (ast_start_entries vid WT DM 256 guesses starts);
             a_no := 256 - Z.of_nat (length starts); a_distances := dist; a_guesses := guesses;
             a_pred := create_predecessors vid PM (ac_build_paths cfg) for_paths;
             a_labels := pm_empty LM; a_path_length := w_inf WT; a_depth := 0; a_limit := limit_init lim; a_calls := [] |}
  end.

(** with_weights/minimum_spanning_tree.py:145-165, 199-225 *)
Definition mst_start (cfg : mst_cfg) (start_vertex : option V) (start_vertices : option (iterable V)) (lim : option Z)
    : @mst_state V I L WT VS PM LM + exn :=
  match start_from (mc_build_paths cfg) true start_vertex start_vertices with
  | inr e => inr e
  | inl (for_paths, s) =>
      let '(starts, _) := iterate_start s in
      inl {| m_pc := MStart WT starts; m_heap := []; m_no := 0; m_visited := vs_of_list VS (vs_empty VS) (map vid starts);
             m_pred := create_predecessors vid PM (mc_build_paths cfg) for_paths;
             m_labels := pm_empty LM; m_edge := None; m_limit := lim; m_calls := [] |}
  end.

(** with_weights/extra_infinite_branching.py:161-190, 227-247. The start vertices are iterated for the distances (line 178) if they are to be stored, and for the
    internal traversal (line 238). *)
Section Inf.
Variable DMv : DMap V (option Z) None.
Variable PMv : PMap V V.
Notation state := (V * nat)%type.
Variable DMi : DMap state (option Z) None.
Variable PMi : PMap state state.
Variable LMi : PMap state unit.

Definition inf_start (build_paths store_distances : bool) (start_vertex : option V) (start_vertices : option (iterable V)) (lim : option Z)
    : @inf_state V DMv PMv DMi PMi LMi + exn :=
  match start_from build_paths true start_vertex start_vertices with
  | inr e => inr e
  | inl (for_paths, s) =>
      let '(for_distances, s) := if store_distances then iterate_start s else ([], s) in
      let '(starts, _) := iterate_start s in
      inl {| n_in := dij_init (fun s => s) ZInfWeights DMi PMi LMi (inf_inner_cfg build_paths) (map (fun v => (v, 0%nat)) starts) None lim;
             n_iters := fun _ => None; n_distance := None;
             InfModel.n_pred := create_predecessors (fun v => v) PMv build_paths for_paths;
             n_distances := define_distances ZInfWeights DMv None (map (fun v => (v, Some 0%Z)) for_distances) false;
             InfModel.n_calls := []; n_reads := [] |}
  end.
End Inf.

(** Bidirectional searches: the options start_and_goal_vertex and start_and_goal_vertices *)
Section Bi.
Variables labeled build_path fail_silently : bool.

(** bidirectional_search/breadth_first.py:176-255 ([start_from]): the traversals of both directions are started first, and the loops of both read the start vertices
    only when they are advanced; then, start vertices and goal vertices are iterated for finding common ones. Executed up to [n] passes of the loop. *)
Definition bb_start_from (next_f next_b : V -> list (V * L)) (one : option (V * V)) (many : option (iterable V * iterable V)) (lim : option Z) (n : nat)
    : (list (@bb_result V L) * outcome (@bb_state V I L VS PM LM) exn) + exn :=
  match (match one, many with
         | Some _, Some _ => inr RuntimeErrorConfig
         | Some (s, g), None => inl (Collection [s], Collection [g])
         | None, Some p => inl p
         | None, None => inr RuntimeErrorConfig
         end) with
  | inr e => inr e
  | inl (start_vertices, goal_vertices) =>
      let cfg := {| bc_is_tree := false; bc_build_paths := build_path; bc_labeled := labeled; bc_report_depth_increase := true |} in
      match bfs_start cfg None (Some start_vertices) None lim, bfs_start cfg None (Some goal_vertices) None lim with
      | inl (f, sf), inl (b, sb) =>
          let init := {| bb_forwards := true; bb_current := {| bs_state := f; bs_depth := 0 |}; bb_other := {| bs_state := b; bs_depth := 0 |}; bb_prev := None |} in
          let '(starts, start_vertices) := iterate (sv_argument sf) in                     (* line 240 *)
          let '(goals, _) := iterate (sv_argument sb) in                                   (* line 245 *)
          let common v := if in_dec I_dec (vid v) (map vid goals) then true else false in
          match (if existsb common starts then find common (fst (iterate start_vertices)) else None) with   (* lines 249-255 *)
          | Some v => inl ([{| br_length := 0; br_path := from_vertex labeled v |}], Ended init)
          | None => inl (run (bb_step V_dec vid VS PM LM next_f next_b labeled build_path fail_silently) n init)
          end
      | inr e, _ => inr e
      | _, inr e => inr e
      end
  end.

(** bidirectional_search/shortest_path.py:160-343, [vertices]: start_vertices or goal_vertices: the vertices for [create_paths], those listed in lines 257-262 *)
Definition b2_lists (vertices : iterable V) : list V * list V :=
  let vertices := if build_path && negb (is_collection vertices) then Collection (fst (iterate vertices)) else vertices in
  let '(for_paths, vertices) := if build_path then iterate vertices else ([], vertices) in
  (for_paths, fst (iterate vertices)).

(** shortest_path.py:160-530, executed up to [n] passes of the loop *)
Definition b2_start_from (next_f next_b : V -> list (V * W * L)) (one : option (V * V)) (many : option (iterable V * iterable V)) (lim : option Z) (n : nat)
    : (list (@b2_result V L WT) * outcome (option (@b2_state V I L WT DM PM LM)) exn) + exn :=
  match (match one, many with
         | Some _, Some _ => inr RuntimeErrorConfig
         | Some (s, g), None => inl (Collection [s], Collection [g])
         | None, Some p => inl p
         | None, None => inr RuntimeErrorConfig
         end) with
  | inr e => inr e
  | inl (start_vertices, goal_vertices) =>
      let '(starts_for_paths, starts) := b2_lists start_vertices in
      let '(goals_for_paths, goals) := b2_lists goal_vertices in
      let side for_paths starts :=
        let dist := define_distances WT DM None (map (fun v => (vid v, w_zero WT)) starts) false in
        {| b2_heap := heapify WT (b2_entries vid WT DM 256 dist starts); b2_no := 256 - Z.of_nat (length starts); b2_dist := dist;
           b2_pred := create_predecessors vid PM build_path for_paths; b2_labels := pm_empty LM; b2_limit := limit_init lim; b2_calls := [] |} in
      inl (match starts, goals with
           | first :: _, _ :: _ =>
               match b2_common I_dec vid starts goals with
               | Some v => ([{| b2_length := w_zero WT; b2_path := from_vertex labeled v |}], Ended None)
               | None =>
                   let '(os, r) := run (b2_step V_dec vid WT DM PM LM next_f next_b labeled build_path fail_silently) n
                     {| b2_pc_of := SLoop; b2_forwards := true; b2_current := side starts_for_paths starts; b2_other := side goals_for_paths goals;
                        b2_best := w_inf WT; b2_node := first; b2_others := w_zero WT; b2_outdated := false |} in
                   (os, match r with Running s => Running (Some s) | Ended s => Ended (Some s) | Raised x s => Raised x (Some s) end)
               end
           | _, _ => match b2_failed WT labeled fail_silently with inl r => ([r], Ended None) | inr x => ([], Raised x None) end
           end)
  end.
End Bi.
End Starts.
