(** Model of the program demo_traveling_salesman in the documentation of the library, docs/source/reduction_of_other_problems.rst:146-176, on top of the model of TraversalShortestPaths. *)
From Coq Require Import List ZArith Bool Arith.
From Verif Require Import Machine GearSpec Common PathsModel Weight DijkstraModel.
Import ListNotations.
Open Scope nat_scope.

(** Line 166: the options; the others have their default values *)
Definition demo_options : dij_cfg := {| dc_is_tree := false; dc_build_paths := true; dc_labeled := false; dc_keep_distances := false |}.

Section Demo.
(** The matrix of weights, a list of rows *)
Variable graph : list (list Z).
(** Line 148 *)
Definition no_of_vertices : nat := length graph.
(** graph[a][b], lines 157 and 161; simplification: 0 instead of an IndexError, if there is no such entry. *)
Definition entry (a b : nat) : Z := nth b (nth a graph []) 0%Z.
(** The order in which a frozenset is iterated *)
Variable order : list nat -> list nat.

(** Line 153: a vertex, and the frozenset of vertices to visit (the elements in ascending order) *)
Definition tstate : Type := nat * list nat.
Definition tstate_dec : forall a b : tstate, {a = b} + {a <> b}.
Proof. intros (v & s) (w & t). destruct (Nat.eq_dec v w) as [->|H]; [destruct (list_eq_dec Nat.eq_dec s t) as [->|H]; [left; reflexivity|right; congruence]|right; congruence]. Defined.
(** vertices_to_visit.difference((to_vertex,)) *)
Definition set_without (x : nat) (s : list nat) : list nat := filter (fun y => negb (y =? x)) s.
(** Lines 149-153 *)
Definition start_state : tstate := (0, seq 1 (no_of_vertices - 1)).
(** Lines 155-162 *)
Definition next_states (state : tstate) : list (tstate * option Z * unit) :=
  let (from_vertex, vertices_to_visit) := state in
  let vertices_to_visit_next := match vertices_to_visit with [] => [0] | _ => order vertices_to_visit end in
  map (fun to_vertex => ((to_vertex, set_without to_vertex vertices_to_visit), Some (entry from_vertex to_vertex), tt)) vertices_to_visit_next.

Variable DM : DMap tstate (option Z) None.
Variable PM : PMap tstate tstate.
Variable LM : PMap tstate unit.

(** The program is still running, has returned length and path, or has raised an exception. *)
Inductive demo_result := DRunning | DFound (length : option Z) (path : pres (list nat)) | DRaised (x : exn).
(** Lines 164-176, after [n] passes of the traversal; the statistics (percentage of visited states) is omitted. *)
Definition demo_traveling_salesman (n : nat) : demo_result :=
  let (os, r) := dij_run (fun s : tstate => s) ZInfWeights DM PM LM next_states demo_options [start_state] None None n in
  match find (fun rep => dr_depth rep =? no_of_vertices) os with
  | Some rep => DFound (dr_distance rep) (pres_map (map fst) (iter_vertices_from_start tstate_dec (fun s => s) PM (dr_pred rep) (S no_of_vertices) (dr_vertex rep)))
  | None => match r with Running _ => DRunning | Ended _ => DRaised RuntimeErrorNoPath | Raised x _ => DRaised x end
  end.
End Demo.
