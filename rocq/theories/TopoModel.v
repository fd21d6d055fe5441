(** Model of [TraversalTopologicalSortFlex]
    (src/nographs/_strategies/traversals/without_weights/topological_sort.py). *)
From Coq Require Import List ZArith Bool.
From Verif Require Import Machine GearSpec Common.
Import ListNotations.

(** Options of the constructor and of [start_from], topological_sort.py:118, 146. *)
Record topo_cfg := {
  tc_is_tree : bool;
  tc_build_paths : bool;
  tc_labeled : bool
}.

Section Topo.
Context {V I L : Type}.
Variable vid : V -> I.
Variable VS : VSet I.
Variable PM : PMap I V.
Variable LM : PMap I L.
Variable next : V -> list (V * L).
Variable cfg : topo_cfg.

(** Position: at the begin of the while loop (lines 281, 452), or in the for loop over the edges of [v] (300-332, 545-641). *)
Inductive topo_pc :=
| TWhile
| TEdges (v : V) (rest : list (V * L)).

(** [t_stack]: to_enter_or_leave resp. to_expand_or_leave, top first. [t_trace_set]: used without is_tree. [t_markers]: to_leave_markers, top first, used with
    is_tree. [t_cycle]: attribute cycle_from_start. [t_calls]: calls of the neighbor function, most recent first, each with the attribute depth. *)
Record topo_state := {
  t_pc : topo_pc;
  t_stack : list V;
  t_trace_set : vs_t VS;
  t_markers : list bool;
  t_depth : Z;
  t_visited : vs_t VS;
  t_pred : pm_t PM;
  t_labels : pm_t LM;
  t_cycle : list V;
  t_limit : option Z;
  t_calls : list (V * Z)
}.

(** What the user sees when a vertex is reported. *)
Record topo_report := {
  tr_vertex : V;
  tr_depth : Z;
  tr_visited : vs_t VS;
  tr_pred : pm_t PM;
  tr_labels : pm_t LM
}.
Definition topo_observe (v : V) (s : topo_state) : topo_report :=
  {| tr_vertex := v; tr_depth := t_depth s; tr_visited := t_visited s; tr_pred := t_pred s; tr_labels := t_labels s |}.

(** topological_sort.py:183-194, 217-219, 258-270 resp. 348-350, 402-416. The last start vertex is on top of the stack. *)
Definition topo_init (starts : list V) (already_visited : option (vs_t VS)) (calculation_limit : option Z) : topo_state :=
  {| t_pc := TWhile;
     t_stack := rev starts;
     t_trace_set := vs_empty VS;
     t_markers := map (fun _ => false) starts;
     t_depth := 0;
     t_visited := define_visited VS already_visited (map vid starts) (tc_is_tree cfg);
     t_pred := create_predecessors vid PM (tc_build_paths cfg) starts;
     t_labels := pm_empty LM;
     t_cycle := [];
     t_limit := limit_init calculation_limit;
     t_calls := [] |}.

(** topological_sort.py:284-287, 474-476: leave the vertex on top of the stack; [q], [m]: the remaining stacks; [ts]: the remaining trace set *)
Definition topo_left (s : topo_state) (q : list V) (m : list bool) (ts : vs_t VS) : topo_state :=
  {| t_pc := TWhile; t_stack := q; t_trace_set := ts; t_markers := m; t_depth := t_depth s - 1; t_visited := t_visited s;
     t_pred := t_pred s; t_labels := t_labels s; t_cycle := t_cycle s; t_limit := t_limit s; t_calls := t_calls s |}.

(** topological_sort.py:481: drop the vertex on top of the stack *)
Definition topo_drop (s : topo_state) (q : list V) : topo_state :=
  {| t_pc := TWhile; t_stack := q; t_trace_set := t_trace_set s; t_markers := t_markers s; t_depth := t_depth s; t_visited := t_visited s;
     t_pred := t_pred s; t_labels := t_labels s; t_cycle := t_cycle s; t_limit := t_limit s; t_calls := t_calls s |}.

(** topological_sort.py:479-485: mark the vertex on top of the stack as visited (not if it is a start vertex), and put it on the trace *)
Definition topo_enter (s : topo_state) (v : V) : topo_state :=
  {| t_pc := t_pc s; t_stack := t_stack s; t_trace_set := vs_add VS (vid v) (t_trace_set s); t_markers := t_markers s; t_depth := t_depth s;
     t_visited := if (0 <? t_depth s)%Z then vs_add VS (vid v) (t_visited s) else t_visited s;
     t_pred := t_pred s; t_labels := t_labels s; t_cycle := t_cycle s; t_limit := t_limit s; t_calls := t_calls s |}.

(** topological_sort.py:294-297: the marker on top tells from now on that the vertex has to be left *)
Definition topo_mark (s : topo_state) (m : list bool) : topo_state :=
  {| t_pc := t_pc s; t_stack := t_stack s; t_trace_set := t_trace_set s; t_markers := true :: m; t_depth := t_depth s; t_visited := t_visited s;
     t_pred := t_pred s; t_labels := t_labels s; t_cycle := t_cycle s; t_limit := t_limit s; t_calls := t_calls s |}.

(** topological_sort.py:302, 545: call of the neighbor function *)
Definition topo_expand (s : topo_state) (v : V) (limit : option Z) : topo_state :=
  {| t_pc := TEdges v (next v); t_stack := t_stack s; t_trace_set := t_trace_set s; t_markers := t_markers s; t_depth := t_depth s;
     t_visited := t_visited s; t_pred := t_pred s; t_labels := t_labels s; t_cycle := t_cycle s; t_limit := limit;
     t_calls := (v, t_depth s) :: t_calls s |}.

(** topological_sort.py:575: ignore the edge *)
Definition topo_skip (s : topo_state) (v : V) (rest : list (V * L)) : topo_state :=
  {| t_pc := TEdges v rest; t_stack := t_stack s; t_trace_set := t_trace_set s; t_markers := t_markers s; t_depth := t_depth s;
     t_visited := t_visited s; t_pred := t_pred s; t_labels := t_labels s; t_cycle := t_cycle s; t_limit := t_limit s; t_calls := t_calls s |}.

(** topological_sort.py:311-332, 619-641: store predecessor and labels, and put the neighbor on the stack. (In the non-tree case, there are no markers.) *)
Definition topo_push (s : topo_state) (v n : V) (l : L) (rest : list (V * L)) : topo_state :=
  {| t_pc := TEdges v rest; t_stack := n :: t_stack s; t_trace_set := t_trace_set s;
     t_markers := if tc_is_tree cfg then false :: t_markers s else t_markers s; t_depth := t_depth s; t_visited := t_visited s;
     t_pred := if tc_build_paths cfg then pm_set PM (vid n) v (t_pred s) else t_pred s;
     t_labels := if tc_build_paths cfg && tc_labeled cfg then pm_set LM (vid n) l (t_labels s) else t_labels s;
     t_cycle := t_cycle s; t_limit := t_limit s; t_calls := t_calls s |}.

(** topological_sort.py:334, 644 *)
Definition topo_deeper (s : topo_state) : topo_state :=
  {| t_pc := TWhile; t_stack := t_stack s; t_trace_set := t_trace_set s; t_markers := t_markers s; t_depth := t_depth s + 1; t_visited := t_visited s;
     t_pred := t_pred s; t_labels := t_labels s; t_cycle := t_cycle s; t_limit := t_limit s; t_calls := t_calls s |}.

(** topological_sort.py:646-664 ([_report_cycle]), without the raise: the vertices on the stack that are in the trace set, bottom first, and the neighbor. *)
Definition topo_report_cycle (s : topo_state) (n : V) : topo_state :=
  {| t_pc := t_pc s; t_stack := t_stack s; t_trace_set := t_trace_set s; t_markers := t_markers s; t_depth := t_depth s; t_visited := t_visited s;
     t_pred := t_pred s; t_labels := t_labels s;
     t_cycle := filter (fun v => vs_mem VS (vid v) (t_trace_set s)) (rev (t_stack s)) ++ [n];
     t_limit := t_limit s; t_calls := t_calls s |}.

(** topological_sort.py:299-300, 542-543: expand [v] *)
Definition topo_go_expand (s : topo_state) (v : V) : step_result topo_state topo_report exn :=
  match limit_check (t_limit s) with
  | None => Raise [] RuntimeErrorLimit s
  | Some lim => Go [] (topo_expand s v lim)
  end.

(** One pass without is_tree, topological_sort.py:452-644. *)
Definition topo_step_graph (s : topo_state) : step_result topo_state topo_report exn :=
  match t_pc s with
  | TWhile =>
      match t_stack s with
      | [] => Halt [] s
      | v :: q =>
          if vs_mem VS (vid v) (t_trace_set s) then                                     (* 473-478 *)
            let s1 := topo_left s q (t_markers s) (vs_discard VS (vid v) (t_trace_set s)) in
            Go [topo_observe v s1] s1
          else if (0 <? t_depth s)%Z && vs_mem VS (vid v) (t_visited s) then Go [] (topo_drop s q)   (* 479-482 *)
          else topo_go_expand (topo_enter s v) v
      end
  | TEdges v [] => Go [] (topo_deeper s)
  | TEdges v ((n, l) :: rest) =>
      if vs_mem VS (vid n) (t_visited s) then                                           (* 567-575 *)
        if vs_mem VS (vid n) (t_trace_set s) then Raise [] RuntimeErrorCycle (topo_report_cycle s n)
        else Go [] (topo_skip s v rest)
      else Go [] (topo_push s v n l rest)
  end.

(** One pass with is_tree, topological_sort.py:281-334. *)
Definition topo_step_tree (s : topo_state) : step_result topo_state topo_report exn :=
  match t_pc s with
  | TWhile =>
      match t_stack s, t_markers s with
      | [], _ => Halt [] s
      | v :: q, true :: m => let s1 := topo_left s q m (t_trace_set s) in Go [topo_observe v s1] s1
      | v :: q, false :: m => topo_go_expand (topo_mark s m) v
      | _ :: _, [] => Raise [] IndexErrorModel s
      end
  | TEdges v [] => Go [] (topo_deeper s)
  | TEdges v ((n, l) :: rest) => Go [] (topo_push s v n l rest)
  end.

(** topological_sort.py:196-203 ([_traverse]) *)
Definition topo_step (s : topo_state) : step_result topo_state topo_report exn :=
  if tc_is_tree cfg then topo_step_tree s else topo_step_graph s.

(** [n] passes of the loops of a traversal that has been started. *)
Definition topo_run (starts : list V) (already_visited : option (vs_t VS)) (calculation_limit : option Z) (n : nat)
  : list topo_report * outcome topo_state exn :=
  run topo_step n (topo_init starts already_visited calculation_limit).
End Topo.

Arguments t_pc {V I L VS PM LM}. Arguments t_stack {V I L VS PM LM}. Arguments t_trace_set {V I L VS PM LM}. Arguments t_markers {V I L VS PM LM}.
Arguments t_depth {V I L VS PM LM}. Arguments t_visited {V I L VS PM LM}. Arguments t_pred {V I L VS PM LM}. Arguments t_labels {V I L VS PM LM}.
Arguments t_cycle {V I L VS PM LM}. Arguments t_limit {V I L VS PM LM}. Arguments t_calls {V I L VS PM LM}.
Arguments tr_vertex {V I L VS PM LM}. Arguments tr_depth {V I L VS PM LM}. Arguments tr_visited {V I L VS PM LM}.
Arguments tr_pred {V I L VS PM LM}. Arguments tr_labels {V I L VS PM LM}.
