(** Model of the program iterative_deepening_dfs in the documentation of the library, docs/source/search_aware_graphs.rst:275-301 (the version with a single search, in a graph that grows during the search, and with
    start vertices that depend on the search), on top of the model of TraversalDepthFirst. *)
From Coq Require Import List Bool Arith ZArith.
From Verif Require Import Machine GearSpec Common DFSModel IddfsModel.
Import ListNotations.

Section IddfsOne.
Context {V L : Type}.
Variable V_dec : forall a b : V, {a = b} + {a <> b}.
Variable VS : VSet V.
Variable PM : PMap V V.
Variable LM : PMap V L.
Variable XM : DMap V Z 0%Z.
Variable next : V -> list (V * L).
Variable mode : dfs_mode.
Variables starts goals : list V.
Notation report := (@dfs_report V V L VS PM LM XM).
Notation search := (@dfs_state V V L VS PM LM XM).
Notation vid := (fun v : V => v).

(** The traversal; the variables depth_limit and successors_over_depth_limit (lines 276, 277); has the generator start_vertices_of_the_search (lines 279-284) been started? If it has been started, and the traversal has
    no further start vertex at hand, the generator waits in line 283, with the list start_vertices used up. The traversal reads the start vertices one by one (depth_first.py:562), [f_starts] contains the rest of the list that the
    generator goes through. *)
Record one_state := { o_search : search; o_limit : nat; o_over : bool; o_begun : bool }.

(** The list of start vertices is at hand again. *)
Definition with_starts (d : search) : search :=
  {| f_pc := f_pc d; f_starts := starts; f_start := f_start d; f_to_visit := f_to_visit d; f_to_visit_labels := f_to_visit_labels d; f_markers := f_markers d; f_var_labels := f_var_labels d;
     f_trace := f_trace d; f_trace_labels := f_trace_labels d; f_on_trace := f_on_trace d; f_index := f_index d; f_time := f_time d; f_depth := f_depth d; f_event := f_event d; f_visited := f_visited d;
     f_pred := f_pred d; f_labels := f_labels d; f_limit := f_limit d; f_count := f_count d; f_calls := f_calls d |}.

(** Lines 281-284, when the traversal asks for the next start vertex and the list start_vertices is used up, or the generator has not been started *)
Definition one_resume (s : one_state) : step_result one_state report exn :=
  let depth_limit := if o_begun s then S (o_limit s) else o_limit s in
  if o_over s
  then Go [] {| o_search := with_starts (o_search s); o_limit := depth_limit; o_over := false; o_begun := true |}
  else Halt [] {| o_search := o_search s; o_limit := depth_limit; o_over := o_over s; o_begun := true |}.

(** Line 288. When the neighbor function is called, the trace contains also the vertex. *)
Definition one_depth (d : search) (v : V) : nat := length (v :: f_trace d) - 1.
(** Lines 289, 290: what next_vertices_pruned yields *)
Definition one_next (d : search) (depth_limit : nat) (v : V) : list (V * L) := if one_depth d v <? depth_limit then next v else [].
(** Lines 289, 291-294: what next_vertices_pruned does to successors_over_depth_limit *)
Definition one_found (d : search) (depth_limit : nat) (over : bool) (v : V) : bool :=
  if one_depth d v <? depth_limit then over else if negb over then match next v with [] => over | _ => true end else over.
(** The vertex the neighbor function has been called for in a pass *)
Definition one_called (before after : search) : option V :=
  if length (f_calls before) <? length (f_calls after) then match f_calls after with (v, _) :: _ => Some v | [] => None end else None.

(** One pass of the traversal (depth_first.py:562-936) with the two functions of the program *)
Definition one_step (s : one_state) : step_result one_state report exn :=
  let d := o_search s in
  let upd d' := {| o_search := d'; o_limit := o_limit s;
                   o_over := match one_called d d' with Some v => one_found d (o_limit s) (o_over s) v | None => o_over s end; o_begun := o_begun s |} in
  let pass := match dfs_step V_dec vid VS PM LM XM (one_next d (o_limit s)) (iddfs_options mode) (fun _ => false) d with
              | Go o d' => Go o (upd d')
              | Halt o d' => Halt o (upd d')
              | Raise o x d' => Raise o x (upd d')
              end in
  match f_pc d with
  | FStarts => match f_starts d with [] => one_resume s | _ :: _ => pass end
  | FLoop _ => pass
  end.

(** Lines 276-299: start *)
Definition one_init : one_state :=
  {| o_search := dfs_init vid VS PM LM XM (iddfs_options mode) [] None None; o_limit := 0; o_over := true; o_begun := false |}.

(** Lines 299-301, for [n] passes: the trace at the first report of a goal vertex; [] if there is none. Without goal vertices, go_for_vertices_in ends at once (traversal.py:218). *)
Definition iddfs_one (n : nat) : iddfs_result :=
  match goals with
  | [] => NotFound
  | _ :: _ =>
      let (os, r) := run one_step n one_init in
      match find (fun rep => is_goal V_dec goals (fr_vertex rep)) os with
      | Some rep => Found (fr_trace rep)
      | None => match r with
                | Running _ => Unfinished
                | Raised x _ => Failed x
                | Ended _ => NotFound
                end
      end
  end.
End IddfsOne.
