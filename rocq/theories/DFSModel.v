(** Model of depth_first.py (TraversalDepthFirstFlex).

    Simplifications, for all definitions of this file: the code variants for sets based on sequences (lines 675-696 and the like) are covered by
    the abstract sets and maps of [GearSpec]; lines 766-786 raise AssertionError if the sequence of on_trace is too short, the
    model reads a missing entry as "not contained" (see DESIGN.md, findings). The confirming second yield
    (lines 914, 1150, 1162) goes to the caller of skip_expanding_entered_vertex and is not a report of the iteration. *)
From Coq Require Import List ZArith Bool.
From Verif Require Import Machine GearSpec Common.
Import ListNotations.

(** depth_first_enum_types.py:72-84 *)
Inductive dfs_event :=
| ENTERING_START | LEAVING_START | ENTERING_SUCCESSOR | LEAVING_SUCCESSOR | SKIPPING_START
| BACK_EDGE | FORWARD_EDGE | CROSS_EDGE | SOME_NON_TREE_EDGE | FORWARD_OR_CROSS_EDGE.

(** depth_first_enum_types.py:126-128 *)
Inductive dfs_mode := DFS_TREE | ALL_PATHS | ALL_WALKS.

(** Options of the traversal after start_from (depth_first.py:376-381); [dc_report]: the set of events to be reported. *)
Record dfs_cfg := {
  dc_is_tree : bool;
  dc_build_paths : bool;
  dc_labeled : bool;
  dc_mode : dfs_mode;
  dc_report : dfs_event -> bool;
  dc_compute_depth : bool;
  dc_compute_trace : bool;
  dc_compute_on_trace : bool;
  dc_compute_index : bool
}.

Definition is_dfs_tree (m : dfs_mode) : bool := match m with DFS_TREE => true | _ => false end.
Definition is_all_paths (m : dfs_mode) : bool := match m with ALL_PATHS => true | _ => false end.
Definition is_all_walks (m : dfs_mode) : bool := match m with ALL_WALKS => true | _ => false end.

(** depth_first.py:292-374: derived options and the checks of the options; the argument holds the options as the user has given
    them. [av]: already_visited is given. *)
Definition dfs_options (o : dfs_cfg) (av : bool) : dfs_cfg + exn :=
  let R := dc_report o in
  let non_tree_edges := R FORWARD_EDGE || R BACK_EDGE || R CROSS_EDGE in
  let compute_on_trace := dc_compute_on_trace o ||
    (negb (dc_is_tree o) && (non_tree_edges || R FORWARD_OR_CROSS_EDGE || is_all_paths (dc_mode o))) in
  let compute_index := dc_compute_index o || (negb (dc_is_tree o) && (R FORWARD_EDGE || R CROSS_EDGE)) in
  let only_entering := negb (R LEAVING_START || R LEAVING_SUCCESSOR || R SKIPPING_START || R BACK_EDGE || R FORWARD_EDGE ||
                             R CROSS_EDGE || R SOME_NON_TREE_EDGE || R FORWARD_OR_CROSS_EDGE) in
  let compute_trace := dc_compute_trace o || negb only_entering || compute_index || compute_on_trace in
  let tree_or_walks := dc_is_tree o || is_all_walks (dc_mode o) in
  if R SOME_NON_TREE_EDGE && non_tree_edges then inr RuntimeErrorConfig                               (* 293-297 *)
  else if R FORWARD_OR_CROSS_EDGE && (R FORWARD_EDGE || R CROSS_EDGE) then inr RuntimeErrorConfig      (* 298-304 *)
  else if (non_tree_edges || R SOME_NON_TREE_EDGE || R FORWARD_OR_CROSS_EDGE) && tree_or_walks
  then inr RuntimeErrorConfig                                                                           (* 334-344 *)
  else if compute_on_trace && tree_or_walks then inr RuntimeErrorConfig                                 (* 345-349 *)
  else if (R FORWARD_EDGE || R CROSS_EDGE || R SOME_NON_TREE_EDGE || R FORWARD_OR_CROSS_EDGE) && is_all_paths (dc_mode o)
  then inr RuntimeErrorConfig                                                                           (* 350-364 *)
  else if dc_build_paths o && is_all_walks (dc_mode o) then inr RuntimeErrorConfig                      (* 365-369 *)
  else if compute_index && av then inr RuntimeErrorConfig                                               (* 370-374 *)
  else inl {| dc_is_tree := dc_is_tree o; dc_build_paths := dc_build_paths o; dc_labeled := dc_labeled o; dc_mode := dc_mode o;
              dc_report := R; dc_compute_depth := dc_compute_depth o; dc_compute_trace := compute_trace;
              dc_compute_on_trace := compute_on_trace; dc_compute_index := compute_index |}.

Section DFS.
Context {V I L : Type}.
Variable V_dec : forall a b : V, {a = b} + {a <> b}.
Variable vid : V -> I.
Variable VS : VSet I.
Variable PM : PMap I V.
Variable LM : PMap I L.
Variable XM : DMap I Z 0%Z.        (* vertex_id_to_number_mapping *)
Variable next : V -> list (V * L).
Variable cfg : dfs_cfg.
(** Does the consumer call skip_expanding_entered_vertex at the [n]-th report (counted from zero)? *)
Variable skip : nat -> bool.

Notation R := (dc_report cfg).

(** What the user sees at a report. *)
Record dfs_report := {
  fr_vertex : V;
  fr_event : option dfs_event;
  fr_depth : Z;
  fr_trace : list V;                 (* first to last *)
  fr_trace_labels : list L;          (* first to last *)
  fr_on_trace : vs_t VS;
  fr_index : dm_t XM;
  fr_visited : vs_t VS;
  fr_pred : pm_t PM;
  fr_labels : pm_t LM
}.

(** ** The implementation with trace, depth_first.py:400-936 *)

(** Position: at the begin of the for loop over start vertices (line 562), or in the while loops (569-936).
    The flag is the variable no_leaving_reported_so_far. *)
Inductive dfs_pc := FStarts | FLoop (no_leaving_reported_so_far : bool).

(** Stacks top first. [f_start]: variable start_vertex (meaningful in FLoop). [f_var_labels]: variable labels,
    [None] before its first assignment. [f_count]: number of reports so far. [f_calls]: calls of the neighbor
    function, most recent first, each with the attribute depth. *)
Record dfs_state := {
  f_pc : dfs_pc;
  f_starts : list V;
  f_start : option V;
  f_to_visit : list V;
  f_to_visit_labels : list L;
  f_markers : list bool;
  f_var_labels : option L;
  f_trace : list V;
  f_trace_labels : list L;
  f_on_trace : vs_t VS;
  f_index : dm_t XM;
  f_time : Z;
  f_depth : Z;
  f_event : option dfs_event;
  f_visited : vs_t VS;
  f_pred : pm_t PM;
  f_labels : pm_t LM;
  f_limit : option Z;
  f_count : nat;
  f_calls : list (V * Z)
}.

Definition dfs_observe (v : V) (s : dfs_state) : dfs_report :=
  {| fr_vertex := v; fr_event := f_event s; fr_depth := f_depth s; fr_trace := rev (f_trace s);
     fr_trace_labels := rev (f_trace_labels s); fr_on_trace := f_on_trace s; fr_index := f_index s;
     fr_visited := f_visited s; fr_pred := f_pred s; fr_labels := f_labels s |}.

(** depth_first.py:279-290, 382-386, 402-560. Start vertices are neither marked as visited nor get a path here. *)
Definition dfs_init (starts : list V) (already_visited : option (vs_t VS)) (calculation_limit : option Z) : dfs_state :=
  {| f_pc := FStarts; f_starts := starts; f_start := None; f_to_visit := []; f_to_visit_labels := []; f_markers := [];
     f_var_labels := None; f_trace := []; f_trace_labels := []; f_on_trace := vs_empty VS; f_index := dm_empty XM;
     f_time := 1; f_depth := -1; f_event := None;
     f_visited := define_visited VS already_visited [] (dc_is_tree cfg);
     f_pred := create_predecessors vid PM (dc_build_paths cfg) [];
     f_labels := pm_empty LM; f_limit := limit_init calculation_limit; f_count := 0; f_calls := [] |}.

(** depth_first.py:562-565 *)
Definition dfs_begin (s : dfs_state) (v : V) (rest : list V) : dfs_state :=
  {| f_pc := FLoop true; f_starts := rest; f_start := Some v; f_to_visit := v :: f_to_visit s;
     f_to_visit_labels := f_to_visit_labels s; f_markers := false :: f_markers s; f_var_labels := f_var_labels s;
     f_trace := f_trace s; f_trace_labels := f_trace_labels s; f_on_trace := f_on_trace s; f_index := f_index s;
     f_time := f_time s; f_depth := f_depth s; f_event := f_event s; f_visited := f_visited s; f_pred := f_pred s;
     f_labels := f_labels s; f_limit := f_limit s; f_count := f_count s; f_calls := f_calls s |}.

(** depth_first.py:627-631 *)
Definition dfs_finish (s : dfs_state) : dfs_state :=
  {| f_pc := FStarts; f_starts := f_starts s; f_start := f_start s; f_to_visit := f_to_visit s;
     f_to_visit_labels := f_to_visit_labels s; f_markers := f_markers s; f_var_labels := f_var_labels s;
     f_trace := f_trace s; f_trace_labels := f_trace_labels s; f_on_trace := f_on_trace s; f_index := f_index s;
     f_time := f_time s; f_depth := f_depth s; f_event := f_event s; f_visited := f_visited s; f_pred := f_pred s;
     f_labels := f_labels s; f_limit := f_limit s; f_count := f_count s; f_calls := f_calls s |}.

(** Set the attributes event and trace for a report (lines 593-595, 602, 702-703, 812-815). *)
Definition dfs_show (s : dfs_state) (ev : option dfs_event) (tr : list V) (trl : list L) : dfs_state :=
  {| f_pc := f_pc s; f_starts := f_starts s; f_start := f_start s; f_to_visit := f_to_visit s;
     f_to_visit_labels := f_to_visit_labels s; f_markers := f_markers s; f_var_labels := f_var_labels s;
     f_trace := tr; f_trace_labels := trl; f_on_trace := f_on_trace s; f_index := f_index s;
     f_time := f_time s; f_depth := f_depth s; f_event := ev; f_visited := f_visited s; f_pred := f_pred s;
     f_labels := f_labels s; f_limit := f_limit s; f_count := f_count s; f_calls := f_calls s |}.

(** depth_first.py:597-598, 604-626: after the report of leaving [v]; [m], [t], [tl]: what remains of the stacks. *)
Definition dfs_left (s : dfs_state) (no_leaving : bool) (v : V) (m : list bool) (t : list V) (tl : list L) (reports : nat) : dfs_state :=
  {| f_pc := FLoop no_leaving; f_starts := f_starts s; f_start := f_start s; f_to_visit := f_to_visit s;
     f_to_visit_labels := f_to_visit_labels s; f_markers := m; f_var_labels := f_var_labels s;
     f_trace := t; f_trace_labels := tl;
     f_on_trace := if dc_compute_on_trace cfg then vs_discard VS (vid v) (f_on_trace s) else f_on_trace s;
     f_index := f_index s; f_time := f_time s;
     f_depth := if dc_compute_depth cfg then (f_depth s - 1)%Z else f_depth s;
     f_event := f_event s; f_visited := f_visited s; f_pred := f_pred s;
     f_labels := f_labels s; f_limit := f_limit s; f_count := f_count s + reports; f_calls := f_calls s |}.

(** depth_first.py:584-626: the marker says that we leave the last vertex of the trace *)
Definition dfs_leave (s : dfs_state) (no_leaving : bool) (m : list bool) : step_result dfs_state dfs_report exn :=
  match f_trace s with
  | [] => Raise [] IndexErrorModel s
  | v :: t =>
      match m with
      | _ :: _ =>
          let show := R LEAVING_SUCCESSOR in
          let s1 := if show && no_leaving then dfs_show s (Some LEAVING_SUCCESSOR) (f_trace s) (f_trace_labels s) else s in
          let o := if show then [dfs_observe v s1] else [] in
          if dc_labeled cfg then
            match f_trace_labels s1 with
            | [] => Raise o IndexErrorModel s1
            | _ :: tl => Go o (dfs_left s1 (no_leaving && negb show) v m t tl (length o))
            end
          else Go o (dfs_left s1 (no_leaving && negb show) v m t (f_trace_labels s1) (length o))
      | [] =>
          let show := R LEAVING_START in
          let s1 := if show then dfs_show s (Some LEAVING_START) (f_trace s) (f_trace_labels s) else s in
          let o := if show then [dfs_observe v s1] else [] in
          Go o (dfs_left s1 no_leaving v m t (f_trace_labels s1) (length o))
      end
  end.

(** depth_first.py:633-645: take a vertex from the stack, and its label *)
Definition dfs_pop (s : dfs_state) (m : list bool) : option (V * dfs_state) :=
  match f_to_visit s with
  | [] => None
  | v :: q =>
      let result labels tvl :=
        Some (v, {| f_pc := FLoop true; f_starts := f_starts s; f_start := f_start s; f_to_visit := q;
                    f_to_visit_labels := tvl; f_markers := m; f_var_labels := labels;
                    f_trace := f_trace s; f_trace_labels := f_trace_labels s; f_on_trace := f_on_trace s; f_index := f_index s;
                    f_time := f_time s; f_depth := f_depth s; f_event := f_event s; f_visited := f_visited s; f_pred := f_pred s;
                    f_labels := f_labels s; f_limit := f_limit s; f_count := f_count s; f_calls := f_calls s |}) in
      match dc_labeled cfg, q with
      | true, _ :: _ => match f_to_visit_labels s with
                        | [] => None
                        | l :: tvl => result (Some l) tvl
                        end
      | _, _ => result (f_var_labels s) (f_to_visit_labels s)
      end
  end.

(** depth_first.py:741-809: the event for a vertex that is not entered again, and the trace [p :: t].
    [None]: nothing is reported. [back]: the event is already known to be a back edge (mode ALL_PATHS, line 713). *)
Definition dfs_classify (s : dfs_state) (v : V) (back : bool) : option dfs_event :=
  if R SOME_NON_TREE_EDGE then Some SOME_NON_TREE_EDGE                                            (* 745-747 *)
  else if R FORWARD_EDGE || R BACK_EDGE || R CROSS_EDGE || R FORWARD_OR_CROSS_EDGE then             (* 749-755 *)
    if R BACK_EDGE && (back || vs_mem VS (vid v) (f_on_trace s)) then Some BACK_EDGE              (* 713, 760-786 *)
    else if R FORWARD_EDGE || R CROSS_EDGE then                                                   (* 790-792 *)
      match f_trace s with
      | [] => None
      | p :: _ => if (dm_get XM (vid p) (f_index s) <? dm_get XM (vid v) (f_index s))%Z
                  then (if R FORWARD_EDGE then Some FORWARD_EDGE else None)
                  else (if R CROSS_EDGE then Some CROSS_EDGE else None)                             (* 801-805, 809 *)
      end
    else None
  else None.                                                                                      (* 806-807 *)

(** One more report; the trace is restored. *)
Definition dfs_reported (s : dfs_state) (ev : option dfs_event) : dfs_state :=
  {| f_pc := f_pc s; f_starts := f_starts s; f_start := f_start s; f_to_visit := f_to_visit s;
     f_to_visit_labels := f_to_visit_labels s; f_markers := f_markers s; f_var_labels := f_var_labels s;
     f_trace := f_trace s; f_trace_labels := f_trace_labels s; f_on_trace := f_on_trace s; f_index := f_index s;
     f_time := f_time s; f_depth := f_depth s; f_event := ev; f_visited := f_visited s; f_pred := f_pred s;
     f_labels := f_labels s; f_limit := f_limit s; f_count := f_count s + 1; f_calls := f_calls s |}.

(** depth_first.py:697-706, 741-821: a vertex that is not entered (again) *)
Definition dfs_revisit (s : dfs_state) (v : V) (back : bool) : step_result dfs_state dfs_report exn :=
  match f_trace s with
  | [] => if R SKIPPING_START
          then Go [dfs_observe v (dfs_show s (Some SKIPPING_START) [v] (f_trace_labels s))] (dfs_reported s (Some SKIPPING_START))
          else Go [] s
  | _ :: _ =>
      match dfs_classify s v back with
      | None => Go [] s
      | Some ev =>
          match dc_labeled cfg, f_var_labels s with
          | true, None => Raise [] AssertionModel s
          | true, Some l => Go [dfs_observe v (dfs_show s (Some ev) (v :: f_trace s) (l :: f_trace_labels s))] (dfs_reported s (Some ev))
          | false, _ => Go [dfs_observe v (dfs_show s (Some ev) (v :: f_trace s) (f_trace_labels s))] (dfs_reported s (Some ev))
          end
      end
  end.

(** Is [v] the start vertex (line 900)? *)
Definition is_current_start (s : dfs_state) (v : V) : bool :=
  match f_start s with Some u => if V_dec v u then true else false | None => false end.

(** depth_first.py:856-888: the new predecessor and label *)
Definition dfs_pred (s : dfs_state) (v : V) : pm_t PM :=
  if dc_build_paths cfg then
    match f_trace s with
    | p :: _ => pm_set PM (vid v) p (f_pred s)
    | [] => match f_start s with
            | None => f_pred s
            | Some u => if pm_is_none PM (vid u) (f_pred s) then pm_set PM (vid u) u (f_pred s) else f_pred s
            end
    end
  else f_pred s.
Definition dfs_labels (s : dfs_state) (v : V) : pm_t LM :=
  match f_trace s, f_var_labels s with
  | _ :: _, Some l => if dc_build_paths cfg && dc_labeled cfg then pm_set LM (vid v) l (f_labels s) else f_labels s
  | _, _ => f_labels s
  end.

(** depth_first.py:823-905: enter [v] *)
Definition dfs_enter (s : dfs_state) (v : V) : dfs_state :=
  {| f_pc := FLoop true; f_starts := f_starts s; f_start := f_start s; f_to_visit := f_to_visit s;
     f_to_visit_labels := f_to_visit_labels s; f_markers := true :: f_markers s; f_var_labels := f_var_labels s;
     f_trace := v :: f_trace s;
     f_trace_labels := match f_trace s, f_var_labels s with
                       | _ :: _, Some l => if dc_labeled cfg then l :: f_trace_labels s else f_trace_labels s
                       | _, _ => f_trace_labels s
                       end;
     f_on_trace := if negb (dc_is_tree cfg) && negb (is_all_walks (dc_mode cfg)) &&
                      (dc_compute_on_trace cfg || is_all_paths (dc_mode cfg))
                   then vs_add VS (vid v) (f_on_trace s) else f_on_trace s;
     f_index := if dc_compute_index cfg then dm_set XM (vid v) (f_time s) (f_index s) else f_index s;
     f_time := if dc_compute_index cfg then (f_time s + 1)%Z else f_time s;
     f_depth := if dc_compute_depth cfg then (f_depth s + 1)%Z else f_depth s;
     f_event := Some (if is_current_start s v then ENTERING_START else ENTERING_SUCCESSOR);
     f_visited := if negb (dc_is_tree cfg) && is_dfs_tree (dc_mode cfg) then vs_add VS (vid v) (f_visited s) else f_visited s;
     f_pred := dfs_pred s v; f_labels := dfs_labels s v; f_limit := f_limit s; f_count := f_count s; f_calls := f_calls s |}.

(** depth_first.py:922-936: put all neighbors on the stack; the last one is on top *)
Definition dfs_expand (s : dfs_state) (v : V) (limit : option Z) (reports : nat) : dfs_state :=
  {| f_pc := FLoop true; f_starts := f_starts s; f_start := f_start s;
     f_to_visit := rev (map fst (next v)) ++ f_to_visit s;
     f_to_visit_labels := if dc_labeled cfg then rev (map snd (next v)) ++ f_to_visit_labels s else f_to_visit_labels s;
     f_markers := map (fun _ => false) (next v) ++ f_markers s;
     f_var_labels := if dc_labeled cfg then
                       match rev (next v) with (_, l) :: _ => Some l | [] => f_var_labels s end
                     else f_var_labels s;
     f_trace := f_trace s; f_trace_labels := f_trace_labels s; f_on_trace := f_on_trace s; f_index := f_index s;
     f_time := f_time s; f_depth := f_depth s; f_event := f_event s; f_visited := f_visited s; f_pred := f_pred s;
     f_labels := f_labels s; f_limit := limit; f_count := f_count s + reports; f_calls := (v, f_depth s) :: f_calls s |}.

Definition dfs_count (s : dfs_state) (reports : nat) : dfs_state :=
  {| f_pc := f_pc s; f_starts := f_starts s; f_start := f_start s; f_to_visit := f_to_visit s;
     f_to_visit_labels := f_to_visit_labels s; f_markers := f_markers s; f_var_labels := f_var_labels s;
     f_trace := f_trace s; f_trace_labels := f_trace_labels s; f_on_trace := f_on_trace s; f_index := f_index s;
     f_time := f_time s; f_depth := f_depth s; f_event := f_event s; f_visited := f_visited s; f_pred := f_pred s;
     f_labels := f_labels s; f_limit := f_limit s; f_count := f_count s + reports; f_calls := f_calls s |}.

(** depth_first.py:846-936: enter [v], report it, and expand it if the consumer does not skip this *)
Definition dfs_visit (s : dfs_state) (v : V) : step_result dfs_state dfs_report exn :=
  match f_trace s, dc_labeled cfg, f_var_labels s with
  | _ :: _, true, None => Raise [] AssertionModel s                                            (* labels unbound, lines 866, 904 *)
  | _, _, _ =>
      let s1 := dfs_enter s v in
      let show := R (if is_current_start s v then ENTERING_START else ENTERING_SUCCESSOR) in
      let o := if show then [dfs_observe v s1] else [] in
      if show && skip (f_count s) then Go o (dfs_count s1 (length o))
      else match limit_check (f_limit s1) with                                                 (* 917-920 *)
           | None => Raise o RuntimeErrorLimit (dfs_count s1 (length o))
           | Some lim => Go o (dfs_expand s1 v lim (length o))
           end
  end.

(** One pass of the while loops, depth_first.py:569-936. *)
Definition dfs_step (s : dfs_state) : step_result dfs_state dfs_report exn :=
  match f_pc s with
  | FStarts =>
      match f_starts s with
      | [] => Halt [] s
      | v :: rest => Go [] (dfs_begin s v rest)
      end
  | FLoop no_leaving =>
      match f_markers s with
      | [] => Go [] (dfs_finish s)
      | true :: m => dfs_leave s no_leaving m
      | false :: m =>
          match dfs_pop s m with
          | None => Raise [] IndexErrorModel s
          | Some (v, s1) =>
              if negb (dc_is_tree cfg) && negb (is_all_walks (dc_mode cfg)) then               (* 656 *)
                if is_dfs_tree (dc_mode cfg) then
                  if vs_mem VS (vid v) (f_visited s1) then dfs_revisit s1 v false              (* 667-706 *)
                  else dfs_visit s1 v
                else if vs_mem VS (vid v) (f_on_trace s1) then dfs_revisit s1 v true           (* 708-740 *)
                else dfs_visit s1 v
              else dfs_visit s1 v
          end
      end
  end.

(** ** The implementation without trace, depth_first.py:938-1254 *)

(** Local variables and attributes; stacks top first. *)
Inductive dfw_pc := WStarts | WLoop | WEdges (v : V) (rest : list (V * L)).
Record dfw_state := {
  w_pc : dfw_pc;
  w_starts : list V;
  w_start : option V;
  w_to_visit : list V;
  w_markers : list bool;
  w_loop_depth : Z;
  w_depth : Z;
  w_event : option dfs_event;
  w_visited : vs_t VS;
  w_pred : pm_t PM;
  w_labels : pm_t LM;
  w_limit : option Z;
  w_count : nat;
  w_calls : list (V * Z)
}.

(** The attributes trace, trace_labels, on_trace and index are empty in this implementation (lines 383-386). *)
Definition dfw_observe (v : V) (s : dfw_state) : dfs_report :=
  {| fr_vertex := v; fr_event := w_event s; fr_depth := w_depth s; fr_trace := []; fr_trace_labels := [];
     fr_on_trace := vs_empty VS; fr_index := dm_empty XM;
     fr_visited := w_visited s; fr_pred := w_pred s; fr_labels := w_labels s |}.

(** depth_first.py:279-290, 382, 948-1043 *)
Definition dfw_init (starts : list V) (already_visited : option (vs_t VS)) (calculation_limit : option Z) : dfw_state :=
  {| w_pc := WStarts; w_starts := starts; w_start := None; w_to_visit := []; w_markers := []; w_loop_depth := -1;
     w_depth := if dc_compute_depth cfg then 0 else -1; w_event := None;
     w_visited := define_visited VS already_visited [] (dc_is_tree cfg);
     w_pred := create_predecessors vid PM (dc_build_paths cfg) [];
     w_labels := pm_empty LM; w_limit := limit_init calculation_limit; w_count := 0; w_calls := [] |}.

(** depth_first.py:1045-1067 *)
Definition dfw_begin (s : dfw_state) (v : V) (rest : list V) : dfw_state :=
  {| w_pc := WLoop; w_starts := rest; w_start := Some v; w_to_visit := v :: w_to_visit s;
     w_markers := if dc_compute_depth cfg then false :: w_markers s else w_markers s;
     w_loop_depth := w_loop_depth s; w_depth := w_depth s; w_event := w_event s; w_visited := w_visited s;
     w_pred := if dc_build_paths cfg then
                 if pm_is_none PM (vid v) (w_pred s) then pm_set PM (vid v) v (w_pred s) else w_pred s
               else w_pred s;
     w_labels := w_labels s; w_limit := w_limit s; w_count := w_count s; w_calls := w_calls s |}.

(** depth_first.py:1081-1083: remove markers up to and including the first False *)
Fixpoint dfw_leave (markers : list bool) (depth : Z) : list bool * Z :=
  match markers with
  | [] => ([], depth)
  | true :: m => dfw_leave m (depth - 1)
  | false :: m => (m, depth)
  end.

(** Changes of the loop variables. *)
Definition dfw_set (s : dfw_state) (pc : dfw_pc) (q : list V) (m : list bool) (depth : Z) : dfw_state :=
  {| w_pc := pc; w_starts := w_starts s; w_start := w_start s; w_to_visit := q; w_markers := m; w_loop_depth := depth;
     w_depth := w_depth s; w_event := w_event s; w_visited := w_visited s; w_pred := w_pred s; w_labels := w_labels s;
     w_limit := w_limit s; w_count := w_count s; w_calls := w_calls s |}.

Definition dfw_is_start (s : dfw_state) (v : V) : bool :=
  match w_start s with Some u => if V_dec v u then true else false | None => false end.

(** depth_first.py:1092-1132, 1142: visit [v] *)
Definition dfw_enter (s : dfw_state) (v : V) : dfw_state :=
  {| w_pc := w_pc s; w_starts := w_starts s; w_start := w_start s; w_to_visit := w_to_visit s;
     w_markers := if dc_compute_depth cfg then true :: w_markers s else w_markers s;
     w_loop_depth := if dc_compute_depth cfg then (w_loop_depth s + 1)%Z else w_loop_depth s;
     w_depth := if dc_compute_depth cfg then (w_loop_depth s + 1)%Z else w_depth s;
     w_event := if dfw_is_start s v then Some ENTERING_START else w_event s;
     w_visited := if dc_is_tree cfg then w_visited s else vs_add VS (vid v) (w_visited s);
     w_pred := w_pred s; w_labels := w_labels s; w_limit := w_limit s; w_count := w_count s; w_calls := w_calls s |}.

(** depth_first.py:1170: call of the neighbor function *)
Definition dfw_expand (s : dfw_state) (v : V) (limit : option Z) (reports : nat) : dfw_state :=
  {| w_pc := WEdges v (next v); w_starts := w_starts s; w_start := w_start s; w_to_visit := w_to_visit s;
     w_markers := w_markers s; w_loop_depth := w_loop_depth s; w_depth := w_depth s; w_event := w_event s;
     w_visited := w_visited s; w_pred := w_pred s; w_labels := w_labels s; w_limit := limit;
     w_count := w_count s + reports; w_calls := (v, w_depth s) :: w_calls s |}.

(** Continue with the next vertex; lines 1151 and 1241-1247 reset the event after a start vertex. *)
Definition dfw_continue (s : dfw_state) (v : V) (reports : nat) : dfw_state :=
  {| w_pc := WLoop; w_starts := w_starts s; w_start := w_start s; w_to_visit := w_to_visit s;
     w_markers := w_markers s; w_loop_depth := w_loop_depth s; w_depth := w_depth s;
     w_event := if dfw_is_start s v then Some ENTERING_SUCCESSOR else w_event s;
     w_visited := w_visited s; w_pred := w_pred s; w_labels := w_labels s; w_limit := w_limit s;
     w_count := w_count s + reports; w_calls := w_calls s |}.

(** depth_first.py:1218-1239: store predecessor and labels, and put the neighbor on the stack *)
Definition dfw_push (s : dfw_state) (v n : V) (l : L) (rest : list (V * L)) : dfw_state :=
  {| w_pc := WEdges v rest; w_starts := w_starts s; w_start := w_start s; w_to_visit := n :: w_to_visit s;
     w_markers := if dc_compute_depth cfg then false :: w_markers s else w_markers s;
     w_loop_depth := w_loop_depth s; w_depth := w_depth s; w_event := w_event s; w_visited := w_visited s;
     w_pred := if dc_build_paths cfg then pm_set PM (vid n) v (w_pred s) else w_pred s;
     w_labels := if dc_build_paths cfg && dc_labeled cfg then pm_set LM (vid n) l (w_labels s) else w_labels s;
     w_limit := w_limit s; w_count := w_count s; w_calls := w_calls s |}.

(** depth_first.py:1249-1254 *)
Definition dfw_end (s : dfw_state) : dfw_state :=
  {| w_pc := w_pc s; w_starts := w_starts s; w_start := w_start s; w_to_visit := w_to_visit s;
     w_markers := w_markers s; w_loop_depth := w_loop_depth s; w_depth := -1; w_event := w_event s;
     w_visited := w_visited s; w_pred := w_pred s; w_labels := w_labels s; w_limit := w_limit s;
     w_count := w_count s; w_calls := w_calls s |}.

(** depth_first.py:1126-1170: enter, report, expand *)
Definition dfw_visit (s : dfw_state) (v : V) : step_result dfw_state dfs_report exn :=
  let s1 := dfw_enter s v in
  let show := R (if dfw_is_start s v then ENTERING_START else ENTERING_SUCCESSOR) in
  let o := if show then [dfw_observe v s1] else [] in
  if show && skip (w_count s) then Go o (dfw_continue s1 v (length o))
  else match limit_check (w_limit s1) with
       | None => Raise o RuntimeErrorLimit s1
       | Some lim => Go o (dfw_expand s1 v lim (length o))
       end.

(** One pass of the loops, depth_first.py:1045-1247. *)
Definition dfw_step (s : dfw_state) : step_result dfw_state dfs_report exn :=
  match w_pc s with
  | WStarts =>
      match w_starts s with
      | [] => Halt [] (dfw_end s)
      | v :: rest => Go [] (dfw_begin s v rest)
      end
  | WLoop =>
      let '(m, depth) := if dc_compute_depth cfg then dfw_leave (w_markers s) (w_loop_depth s)
                         else (w_markers s, w_loop_depth s) in
      match w_to_visit s with
      | [] => Go [] (dfw_set s WStarts [] m depth)                                                (* 1085-1088 *)
      | v :: q =>
          let s1 := dfw_set s WLoop q m depth in
          if negb (dc_is_tree cfg) && vs_mem VS (vid v) (w_visited s1) then Go [] s1              (* 1092-1124 *)
          else dfw_visit s1 v
      end
  | WEdges v [] => Go [] (dfw_continue s v 0)
  | WEdges v ((n, l) :: rest) =>
      if (negb (dc_is_tree cfg) || dc_build_paths cfg) && vs_mem VS (vid n) (w_visited s)         (* 1173-1216 *)
      then Go [] (dfw_set s (WEdges v rest) (w_to_visit s) (w_markers s) (w_loop_depth s))
      else Go [] (dfw_push s v n l rest)
  end.
End DFS.

Arguments fr_vertex {V I L VS PM LM XM}. Arguments fr_event {V I L VS PM LM XM}. Arguments fr_depth {V I L VS PM LM XM}.
Arguments fr_trace {V I L VS PM LM XM}. Arguments fr_trace_labels {V I L VS PM LM XM}. Arguments fr_on_trace {V I L VS PM LM XM}.
Arguments fr_index {V I L VS PM LM XM}. Arguments fr_visited {V I L VS PM LM XM}. Arguments fr_pred {V I L VS PM LM XM}.
Arguments fr_labels {V I L VS PM LM XM}.
Arguments f_pc {V I L VS PM LM XM}. Arguments f_starts {V I L VS PM LM XM}. Arguments f_start {V I L VS PM LM XM}.
Arguments f_to_visit {V I L VS PM LM XM}. Arguments f_to_visit_labels {V I L VS PM LM XM}. Arguments f_markers {V I L VS PM LM XM}.
Arguments f_var_labels {V I L VS PM LM XM}. Arguments f_trace {V I L VS PM LM XM}. Arguments f_trace_labels {V I L VS PM LM XM}.
Arguments f_on_trace {V I L VS PM LM XM}. Arguments f_index {V I L VS PM LM XM}. Arguments f_time {V I L VS PM LM XM}.
Arguments f_depth {V I L VS PM LM XM}. Arguments f_event {V I L VS PM LM XM}. Arguments f_visited {V I L VS PM LM XM}.
Arguments f_pred {V I L VS PM LM XM}. Arguments f_labels {V I L VS PM LM XM}. Arguments f_limit {V I L VS PM LM XM}.
Arguments f_count {V I L VS PM LM XM}. Arguments f_calls {V I L VS PM LM XM}.
Arguments w_pc {V I L VS PM LM}. Arguments w_starts {V I L VS PM LM}. Arguments w_start {V I L VS PM LM}.
Arguments w_to_visit {V I L VS PM LM}. Arguments w_markers {V I L VS PM LM}. Arguments w_loop_depth {V I L VS PM LM}.
Arguments w_depth {V I L VS PM LM}. Arguments w_event {V I L VS PM LM}. Arguments w_visited {V I L VS PM LM}.
Arguments w_pred {V I L VS PM LM}. Arguments w_labels {V I L VS PM LM}. Arguments w_limit {V I L VS PM LM}.
Arguments w_count {V I L VS PM LM}. Arguments w_calls {V I L VS PM LM}.

(** [n] passes of a started traversal, with trace and without trace (depth_first.py:391-398 chooses between them). *)
Definition dfs_run {V I L} (V_dec : forall a b : V, {a = b} + {a <> b}) (vid : V -> I) (VS : VSet I) (PM : PMap I V) (LM : PMap I L)
    (XM : DMap I Z 0%Z) (next : V -> list (V * L)) (cfg : dfs_cfg) (skip : nat -> bool) (starts : list V)
    (already_visited : option (vs_t VS)) (calculation_limit : option Z) (n : nat)
  : list (@dfs_report V I L VS PM LM XM) * outcome (@dfs_state V I L VS PM LM XM) exn :=
  run (dfs_step V_dec vid VS PM LM XM next cfg skip) n (dfs_init vid VS PM LM XM cfg starts already_visited calculation_limit).

Definition dfw_run {V I L} (V_dec : forall a b : V, {a = b} + {a <> b}) (vid : V -> I) (VS : VSet I) (PM : PMap I V) (LM : PMap I L)
    (XM : DMap I Z 0%Z) (next : V -> list (V * L)) (cfg : dfs_cfg) (skip : nat -> bool) (starts : list V)
    (already_visited : option (vs_t VS)) (calculation_limit : option Z) (n : nat)
  : list (@dfs_report V I L VS PM LM XM) * outcome (@dfw_state V I L VS PM LM) exn :=
  run (dfw_step V_dec vid VS PM LM XM next cfg skip) n (dfw_init vid VS PM LM cfg starts already_visited calculation_limit).

(** depth_first.py:395: which implementation is used *)
Definition dfs_uses_trace (cfg : dfs_cfg) : bool := dc_compute_trace cfg || negb (is_dfs_tree (dc_mode cfg)).

(** The result of a run, with the calls of the neighbor function as the only part of the final state. *)
Definition outcome_map {A B X} (f : A -> B) (r : outcome A X) : outcome B X :=
  match r with Running s => Running (f s) | Ended s => Ended (f s) | Raised x s => Raised x (f s) end.

(** [n] passes of the generator that method _traverse returns, depth_first.py:391-398 *)
Definition dfs_traverse {V I L} (V_dec : forall a b : V, {a = b} + {a <> b}) (vid : V -> I) (VS : VSet I) (PM : PMap I V) (LM : PMap I L)
    (XM : DMap I Z 0%Z) (next : V -> list (V * L)) (cfg : dfs_cfg) (skip : nat -> bool) (starts : list V)
    (already_visited : option (vs_t VS)) (calculation_limit : option Z) (n : nat)
  : list (@dfs_report V I L VS PM LM XM) * outcome (list (V * Z)) exn :=
  if dfs_uses_trace cfg
  then let (os, r) := dfs_run V_dec vid VS PM LM XM next cfg skip starts already_visited calculation_limit n in (os, outcome_map f_calls r)
  else let (os, r) := dfw_run V_dec vid VS PM LM XM next cfg skip starts already_visited calculation_limit n in (os, outcome_map w_calls r).
