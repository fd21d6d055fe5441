(** Model of the program iterative_deepening_dfs in the documentation of the library, docs/source/search_aware_graphs.rst:323-340 (the version that starts a new search for each depth limit), on top of the
    model of TraversalDepthFirst. *)
From Coq Require Import List Bool Arith ZArith.
From Verif Require Import Machine GearSpec Common DFSModel PruneModel.
Import ListNotations.

(** Lines 324-328: the options of start_from, the others have their default values *)
Definition iddfs_asked (mode : dfs_mode) : dfs_cfg :=
  {| dc_is_tree := false; dc_build_paths := false; dc_labeled := false; dc_mode := mode;
     dc_report := fun ev => match ev with ENTERING_START | ENTERING_SUCCESSOR => true | _ => false end;
     dc_compute_depth := false; dc_compute_trace := true; dc_compute_on_trace := false; dc_compute_index := false |}.
(** What start_from makes of them (depth_first.py:293-374, see [dfs_options]): mode ALL_PATHS needs on_trace. *)
Definition iddfs_options (mode : dfs_mode) : dfs_cfg :=
  {| dc_is_tree := false; dc_build_paths := false; dc_labeled := false; dc_mode := mode; dc_report := dc_report (iddfs_asked mode);
     dc_compute_depth := false; dc_compute_trace := true; dc_compute_on_trace := is_all_paths mode; dc_compute_index := false |}.

Section Iddfs.
Context {V L : Type}.
Variable V_dec : forall a b : V, {a = b} + {a <> b}.
Variable VS : VSet V.
Variable PM : PMap V V.
Variable LM : PMap V L.
Variable XM : DMap V Z 0%Z.
Variable next : V -> list (V * L).
Variable mode : dfs_mode.
Variables starts goals : list V.
Notation report := (@dfs_report V V L VS PM LM XM).
Notation state := (@dfs_state V V L VS PM LM XM).

(** Line 331 *)
Definition is_goal (v : V) : bool := if in_dec V_dec v goals then true else false.
(** Lines 333, 334: does the program throw StopIteration at this report (of a vertex that is no goal)? *)
Definition at_limit (depth_limit : nat) (rep : report) : bool := length (fr_trace rep) - 1 =? depth_limit.
(** Lines 336-338: has the vertex a successor? *)
Definition has_successor (rep : report) : bool := match next (fr_vertex rep) with [] => false | _ => true end.

(** Result of one search, or of the program: return traversal.trace (line 332), return [] (line 340), go on with the next limit (line 325), not yet finished, error *)
Inductive iddfs_result := Found (trace : list V) | NotFound | GoOn | Unfinished | Failed (x : exn).

(** Lines 330-338: the loop over the reports of one search. [over]: successors_over_depth_limit. The rest of the reports is ignored when a goal has been found. *)
Fixpoint iddfs_scan (depth_limit : nat) (reports : list report) (over : bool) : list V + bool :=
  match reports with
  | [] => inr over
  | rep :: rest =>
      if is_goal (fr_vertex rep) then inl (fr_trace rep)
      else if at_limit depth_limit rep then iddfs_scan depth_limit rest (over || has_successor rep)
      else iddfs_scan depth_limit rest over
  end.

(** Lines 326-340: the search with one depth limit, for [n] passes of the traversal *)
Definition iddfs_search (depth_limit n : nat) : iddfs_result :=
  let (os, r) := run (prune_step V_dec (fun v => v) VS PM LM XM next (iddfs_options mode) (at_limit depth_limit)) n (dfs_init (fun v => v) VS PM LM XM (iddfs_options mode) starts None None) in
  match iddfs_scan depth_limit os false with
  | inl trace => Found trace
  | inr over => match r with
                | Running _ => Unfinished
                | Raised x _ => Failed x
                | Ended _ => if over then GoOn else NotFound
                end
  end.

(** Line 325: the loop over the depth limits, for at most [rounds] searches with [n] passes each *)
Fixpoint iddfs (rounds n depth_limit : nat) : iddfs_result :=
  match rounds with
  | 0 => Unfinished
  | S rounds' => match iddfs_search depth_limit n with
                 | GoOn => iddfs rounds' n (S depth_limit)
                 | r => r
                 end
  end.
End Iddfs.
Arguments Found {V}. Arguments NotFound {V}. Arguments GoOn {V}. Arguments Unfinished {V}. Arguments Failed {V}.
