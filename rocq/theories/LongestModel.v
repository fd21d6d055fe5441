(** Model of the program longest_weighted_path in the documentation of the library, docs/source/reduction_of_other_problems.rst:546-573, on top of the model of TraversalDepthFirst.
    Weights are integers here (numbers in the code). *)
From Coq Require Import List Bool Arith ZArith.
From Verif Require Import Machine GearSpec Common DFSModel.
Import ListNotations.
Open Scope Z_scope.

(** Lines 547-551: the options of start_from, the others have their default values *)
Definition lwp_asked : dfs_cfg :=
  {| dc_is_tree := false; dc_build_paths := false; dc_labeled := true; dc_mode := ALL_PATHS;
     dc_report := fun ev => match ev with ENTERING_SUCCESSOR | LEAVING_SUCCESSOR => true | _ => false end;
     dc_compute_depth := false; dc_compute_trace := true; dc_compute_on_trace := false; dc_compute_index := false |}.
(** What start_from makes of them (depth_first.py:293-374, see [dfs_options]): mode ALL_PATHS needs on_trace. *)
Definition lwp_options : dfs_cfg :=
  {| dc_is_tree := false; dc_build_paths := false; dc_labeled := true; dc_mode := ALL_PATHS; dc_report := dc_report lwp_asked;
     dc_compute_depth := false; dc_compute_trace := true; dc_compute_on_trace := true; dc_compute_index := false |}.

Section Longest.
Context {V : Type}.
Variable V_dec : forall a b : V, {a = b} + {a <> b}.
Variable VS : VSet V.
Variable PM : PMap V V.
Variable LM : PMap V Z.
Variable XM : DMap V Z 0.
Variable next : V -> list (V * Z).
Variables start goal : V.
Notation report := (@dfs_report V V Z VS PM LM XM).
Notation state := (@dfs_state V V Z VS PM LM XM).

(** Lines 559-560: trace_length, longest, length_of_longest *)
Record lwp_state := { lw_length : Z; lw_longest : list V; lw_best : Z }.
Definition lwp_init : lwp_state := {| lw_length := 0; lw_longest := []; lw_best := -1 |}.

(** trace_labels[-1]; [None]: IndexError *)
Definition last_label (labels : list Z) : option Z := match rev labels with l :: _ => Some l | [] => None end.

Definition is_entering (event : option dfs_event) : bool := match event with Some ENTERING_SUCCESSOR => true | _ => false end.

(** Lines 564, 566: does the program throw StopIteration at this report? *)
Definition lwp_prunes (rep : report) : bool := is_entering (fr_event rep) && (if V_dec (fr_vertex rep) goal then true else false).

(** Lines 564-572: the body of the loop; [None]: IndexError *)
Definition lwp_handle (event : option dfs_event) (v : V) (trace : list V) (labels : list Z) (st : lwp_state) : option lwp_state :=
  match last_label labels with
  | None => None
  | Some l =>
      if is_entering event then
        let trace_length := lw_length st + l in
        if V_dec v goal then
          if lw_best st <? trace_length then Some {| lw_length := trace_length; lw_longest := trace; lw_best := trace_length |}
          else Some {| lw_length := trace_length; lw_longest := lw_longest st; lw_best := lw_best st |}
        else Some {| lw_length := trace_length; lw_longest := lw_longest st; lw_best := lw_best st |}
      else Some {| lw_length := lw_length st - l; lw_longest := lw_longest st; lw_best := lw_best st |}
  end.

(** Line 563: the loop *)
Fixpoint lwp_all (reports : list report) (st : lwp_state) : option lwp_state :=
  match reports with
  | [] => Some st
  | rep :: rest =>
      match lwp_handle (fr_event rep) (fr_vertex rep) (fr_trace rep) (fr_trace_labels rep) st with
      | None => None
      | Some st' => lwp_all rest st'
      end
  end.

Definition outputs {S O X} (r : step_result S O X) : list O := match r with Go o _ => o | Halt o _ => o | Raise o _ _ => o end.
(** One pass of the traversal. The program looks at the report (if there is one), and decides then if it throws StopIteration. The report does not depend on this decision
    (depth_first.py:905-915: the report comes first). *)
Definition lwp_step (s : state) : step_result state report exn :=
  let pass decision := dfs_step V_dec (fun v => v) VS PM LM XM next lwp_options (fun _ => decision) s in
  pass (existsb lwp_prunes (outputs (pass false))).

(** [n] passes of the traversal; the result is (length_of_longest, longest), lines 552-573. [None]: IndexError. Reports of one pass and the following ones are handled in order, so they are
    collected first. *)
Definition lwp_run (n : nat) : option (Z * list V) * outcome state exn :=
  let (os, r) := run lwp_step n (dfs_init (fun v => v) VS PM LM XM lwp_options [start] None None) in
  (option_map (fun st => (lw_best st, lw_longest st)) (lwp_all os lwp_init), r).
End Longest.
