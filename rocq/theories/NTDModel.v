(** Model of [TraversalNeighborsThenDepthFlex]
    (src/nographs/_strategies/traversals/without_weights/neighbors_then_depth.py). *)
From Coq Require Import List ZArith Bool.
From Verif Require Import Machine GearSpec Common.
Import ListNotations.

(** Options of the constructor and of [start_from], neighbors_then_depth.py:88-105, 163-172. *)
Record ntd_cfg := {
  nc_is_tree : bool;
  nc_build_paths : bool;
  nc_labeled : bool;
  nc_compute_depth : bool
}.

(** neighbors_then_depth.py:312-313: [while to_leave_marker_pop(): depth -= 1]. The stack of markers is given with its top
    first. [None]: IndexError. *)
Fixpoint ntd_leave (markers : list bool) (depth : Z) : option (list bool * Z) :=
  match markers with
  | [] => None
  | true :: m => ntd_leave m (depth - 1)
  | false :: m => Some (m, depth)
  end.

Section NTD.
Context {V I L : Type}.
Variable vid : V -> I.
Variable VS : VSet I.
Variable PM : PMap I V.
Variable LM : PMap I L.
Variable next : V -> list (V * L).
Variable cfg : ntd_cfg.

(** Position: at the begin of the while loop (line 307), or in the for loop over the edges of [v] (324-383). *)
Inductive ntd_pc :=
| NWhile
| NEdges (v : V) (rest : list (V * L)).

(** [n_to_expand], [n_markers]: stacks, top first. [n_loop_depth]: local variable depth. [n_depth]: attribute depth.
    [n_calls]: calls of the neighbor function, most recent first, each with the attribute depth of the traversal object it gets. *)
Record ntd_state := {
  n_pc : ntd_pc;
  n_to_expand : list V;
  n_markers : list bool;
  n_loop_depth : Z;
  n_depth : Z;
  n_visited : vs_t VS;
  n_pred : pm_t PM;
  n_labels : pm_t LM;
  n_limit : option Z;
  n_calls : list (V * Z)
}.

(** What the user sees when a vertex is reported. *)
Record ntd_report := {
  nr_vertex : V;
  nr_depth : Z;
  nr_visited : vs_t VS;
  nr_pred : pm_t PM;
  nr_labels : pm_t LM
}.
Definition ntd_observe (v : V) (s : ntd_state) : ntd_report :=
  {| nr_vertex := v; nr_depth := n_depth s; nr_visited := n_visited s; nr_pred := n_pred s; nr_labels := n_labels s |}.

(** neighbors_then_depth.py:202-216, 231-233, 269-287. The last start vertex is on top of the stack. *)
Definition ntd_init (starts : list V) (already_visited : option (vs_t VS)) (calculation_limit : option Z) : ntd_state :=
  {| n_pc := NWhile;
     n_to_expand := rev starts;
     n_markers := if nc_compute_depth cfg then map (fun _ => false) starts else [];
     n_loop_depth := -1;
     n_depth := if nc_compute_depth cfg then 0 else -1;
     n_visited := define_visited VS already_visited (map vid starts) (nc_is_tree cfg);
     n_pred := create_predecessors vid PM (nc_build_paths cfg) starts;
     n_labels := pm_empty LM;
     n_limit := limit_init calculation_limit;
     n_calls := [] |}.

Definition n_set_pc (s : ntd_state) (pc : ntd_pc) : ntd_state :=
  {| n_pc := pc; n_to_expand := n_to_expand s; n_markers := n_markers s; n_loop_depth := n_loop_depth s;
     n_depth := n_depth s; n_visited := n_visited s; n_pred := n_pred s; n_labels := n_labels s;
     n_limit := n_limit s; n_calls := n_calls s |}.

(** neighbors_then_depth.py:308-319: take a vertex from the stack and update the depth; [None]: IndexError *)
Definition ntd_enter (s : ntd_state) (r : list V) : option ntd_state :=
  if nc_compute_depth cfg then
    match ntd_leave (n_markers s) (n_loop_depth s + 1) with
    | None => None
    | Some (m, depth) =>
        Some {| n_pc := n_pc s; n_to_expand := r; n_markers := true :: m; n_loop_depth := depth; n_depth := depth + 1;
                n_visited := n_visited s; n_pred := n_pred s; n_labels := n_labels s;
                n_limit := n_limit s; n_calls := n_calls s |}
    end
  else Some {| n_pc := n_pc s; n_to_expand := r; n_markers := n_markers s; n_loop_depth := n_loop_depth s;
               n_depth := n_depth s; n_visited := n_visited s; n_pred := n_pred s; n_labels := n_labels s;
               n_limit := n_limit s; n_calls := n_calls s |}.

(** neighbors_then_depth.py:324: call of the neighbor function *)
Definition ntd_expand (s : ntd_state) (v : V) (limit : option Z) : ntd_state :=
  {| n_pc := NEdges v (next v); n_to_expand := n_to_expand s; n_markers := n_markers s;
     n_loop_depth := n_loop_depth s; n_depth := n_depth s; n_visited := n_visited s; n_pred := n_pred s;
     n_labels := n_labels s; n_limit := limit; n_calls := (v, n_loop_depth s) :: n_calls s |}.

(** neighbors_then_depth.py:334-374: mark the neighbor as visited, store predecessor and labels *)
Definition ntd_mark (s : ntd_state) (v n : V) (l : L) (rest : list (V * L)) : ntd_state :=
  {| n_pc := NEdges v rest; n_to_expand := n_to_expand s; n_markers := n_markers s;
     n_loop_depth := n_loop_depth s; n_depth := n_depth s;
     n_visited := if nc_is_tree cfg then n_visited s else vs_add VS (vid n) (n_visited s);
     n_pred := if nc_build_paths cfg then pm_set PM (vid n) v (n_pred s) else n_pred s;
     n_labels := if nc_build_paths cfg && nc_labeled cfg then pm_set LM (vid n) l (n_labels s) else n_labels s;
     n_limit := n_limit s; n_calls := n_calls s |}.

(** neighbors_then_depth.py:379-383 *)
Definition ntd_push (s : ntd_state) (n : V) : ntd_state :=
  {| n_pc := n_pc s; n_to_expand := n :: n_to_expand s;
     n_markers := if nc_compute_depth cfg then false :: n_markers s else n_markers s;
     n_loop_depth := n_loop_depth s; n_depth := n_depth s; n_visited := n_visited s; n_pred := n_pred s;
     n_labels := n_labels s; n_limit := n_limit s; n_calls := n_calls s |}.

(** One pass, neighbors_then_depth.py:307-383. *)
Definition ntd_step (s : ntd_state) : step_result ntd_state ntd_report exn :=
  match n_pc s with
  | NWhile =>
      match n_to_expand s with
      | [] => Halt [] s
      | v :: r =>
          match ntd_enter s r with
          | None => Raise [] IndexErrorModel s
          | Some s1 =>
              match limit_check (n_limit s1) with                          (* lines 321-322 *)
              | None => Raise [] RuntimeErrorLimit s1
              | Some lim => Go [] (ntd_expand s1 v lim)
              end
          end
      end
  | NEdges v [] => Go [] (n_set_pc s NWhile)
  | NEdges v ((n, l) :: rest) =>
      if negb (nc_is_tree cfg) && vs_mem VS (vid n) (n_visited s)          (* lines 337-360 *)
      then Go [] (n_set_pc s (NEdges v rest))
      else let s1 := ntd_mark s v n l rest in
           Go [ntd_observe n s1] (ntd_push s1 n)                           (* lines 376-383 *)
  end.
End NTD.

Arguments n_pc {V I L VS PM LM}. Arguments n_to_expand {V I L VS PM LM}. Arguments n_markers {V I L VS PM LM}.
Arguments n_loop_depth {V I L VS PM LM}. Arguments n_depth {V I L VS PM LM}. Arguments n_visited {V I L VS PM LM}.
Arguments n_pred {V I L VS PM LM}. Arguments n_labels {V I L VS PM LM}. Arguments n_limit {V I L VS PM LM}.
Arguments n_calls {V I L VS PM LM}.
Arguments nr_vertex {V I L VS PM LM}. Arguments nr_depth {V I L VS PM LM}. Arguments nr_visited {V I L VS PM LM}.
Arguments nr_pred {V I L VS PM LM}. Arguments nr_labels {V I L VS PM LM}.

(** [n] passes of a started traversal. *)
Definition ntd_run {V I L} (vid : V -> I) (VS : VSet I) (PM : PMap I V) (LM : PMap I L)
    (next : V -> list (V * L)) (cfg : ntd_cfg) (starts : list V)
    (already_visited : option (vs_t VS)) (calculation_limit : option Z) (n : nat)
  : list (@ntd_report V I L VS PM LM) * outcome (@ntd_state V I L VS PM LM) exn :=
  run (ntd_step vid VS PM LM next cfg) n (ntd_init vid VS PM LM cfg starts already_visited calculation_limit).

Definition ntd_ids {V I L} (vid : V -> I) {VS : VSet I} {PM : PMap I V} {LM : PMap I L}
    (os : list (@ntd_report V I L VS PM LM)) : list I := map (fun rep => vid (nr_vertex rep)) os.
