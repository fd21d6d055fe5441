(** Model of [TraversalShortestPathsInfBranchingSortedFlex]
    (src/nographs/_strategies/traversals/with_weights/extra_infinite_branching.py): shortest paths in graphs where vertices
    may have infinitely many edges, by reduction to Dijkstra's algorithm on states (vertex, number of the next edge).
    Weights are integers or infinity. *)
From Coq Require Import List ZArith Bool Arith.
From Verif Require Import Machine GearSpec Common Weight PathsModel DijkstraModel.
Import ListNotations.

Section Inf.
Context {V : Type}.
Variable V_dec : forall a b : V, {a = b} + {a <> b}.
Notation state := (V * nat)%type.                      (* [State], line 25 *)
Notation ZI := ZInfWeights.
Notation W := (option Z).
(** [iter(next_edges(vertex, self))]: element number [k] of the iterator; [None]: exhausted. *)
Variable edge : V -> nat -> option (V * W).
(** The gear, for results, and the internal gear. *)
Variable DM : DMap V W None.
Variable PM : PMap V V.
Variable DMi : DMap state W None.
Variable PMi : PMap state state.
Variable LMi : PMap state unit.
Variables build_paths store_distances : bool.

(** Lines 239-247: the options of the internal traversal *)
Definition inf_inner_cfg : dij_cfg := {| dc_is_tree := false; dc_build_paths := build_paths; dc_labeled := false; dc_keep_distances := true |}.

(** [x - y].  Simplification: the second number is a distance of a reached state, thus finite; the other case is given by infinity. *)
Definition w_sub (x y : W) : W := match x, y with Some a, Some b => Some (a - b)%Z | _, _ => None end.

(** [n_iters]: state_iterators (lines 233-236), where an iterator is given by the number of elements already taken.
    [n_calls] records the calls of the neighbor function, most recent first: vertex and value of [distance].
    [n_reads] records the calls of [next(iterator)] (line 212), most recent first: vertex and number of elements taken before. *)
Record inf_state := {
  n_in : @dij_state state state unit ZI DMi PMi LMi;
  n_iters : V -> option nat;
  n_distance : W;
  n_pred : pm_t PM;
  n_distances : dm_t DM;
  n_calls : list (V * W);
  n_reads : list (V * nat)
}.

(** What the user sees when a vertex is reported. *)
Record inf_report := { nr_vertex : V; nr_distance : W; nr_pred : pm_t PM; nr_distances : dm_t DM }.

(** States are compared by [==]. *)
Definition state_dec (a b : state) : {a = b} + {a <> b}.
Proof. decide equality. apply Nat.eq_dec. Defined.

Definition put (f : V -> option nat) (v : V) (x : option nat) : V -> option nat := fun u => if V_dec u v then x else f u.

(** Lines 193-225 ([next_state_edges]): the edges from a state, and the changed iterators.  [None]: KeyError of [state_iterators[vertex]]. *)
Definition next_state_edges (iters : V -> option nat) (distances : dm_t DMi) (st : state) : option (list (state * W * unit) * (V -> option nat)) :=
  let '(vertex, edge_no) := st in
  let base_state_distance := dm_get DMi (vertex, 0) distances in
  match (if Nat.eqb edge_no 0 then Some 0 else iters vertex) with
  | None => None
  | Some taken =>
      match edge vertex taken with                                                       (* next(iterator) *)
      | Some (next_vertex, length_from_base) =>
          let next_distance := w_add ZI length_from_base base_state_distance in
          let state_distance := dm_get DMi st distances in
          let state_edge_length := w_sub next_distance state_distance in
          Some ([((next_vertex, 0), state_edge_length, tt); ((vertex, S edge_no), state_edge_length, tt)], put iters vertex (Some (S taken)))
      | None => Some ([], put iters vertex None)                                         (* StopIteration *)
      end
  end.

(** Lines 159-190, 227-247 *)
Definition inf_init (starts : list V) (limit : option Z) : inf_state :=
  {| n_in := dij_init (fun s => s) ZI DMi PMi LMi inf_inner_cfg (map (fun v => (v, 0)) starts) None limit;
     n_iters := fun _ => None;
     n_distance := None;
     n_pred := create_predecessors (fun v => v) PM build_paths starts;
     n_distances := define_distances ZI DM None (if store_distances then map (fun v => (v, Some 0%Z)) starts else []) false;
     n_calls := [];
     n_reads := [] |}.

(** Lines 250-266: what happens with the states the internal traversal reports during a pass (at most one).
    Simplification: the second vertex that [iter_vertices_to_start] delivers is taken from [predecessor]. *)
Definition inf_handle (s : inf_state) (os : list (@dij_report state state unit ZI DMi PMi LMi)) : (list inf_report * inf_state) + exn :=
  match os with
  | [] => inl ([], s)
  | rep :: _ =>
      let '(vertex, edge_no) := dr_vertex rep in
      if negb (Nat.eqb edge_no 0) then inl ([], s)
      else
        let predecessors :=
          if build_paths
          then match paths_predecessor state_dec (fun s => s) PMi (dr_pred rep) (vertex, edge_no) with
               | POk (Some (prev_vertex, _)) => inl (pm_set PM vertex prev_vertex (n_pred s))
               | _ => inr AssertionModel                                                 (* does not occur *)
               end
          else inl (n_pred s) in
        match predecessors with
        | inr x => inr x
        | inl p =>
            let d := if store_distances then dm_set DM vertex (dr_distance rep) (n_distances s) else n_distances s in
            inl ([{| nr_vertex := vertex; nr_distance := dr_distance rep; nr_pred := p; nr_distances := d |}],
                 {| n_in := n_in s; n_iters := n_iters s; n_distance := dr_distance rep; n_pred := p; n_distances := d; n_calls := n_calls s; n_reads := n_reads s |})
        end
  end.

Definition n_set_in (s : inf_state) (i : @dij_state state state unit ZI DMi PMi LMi) : inf_state :=
  {| n_in := i; n_iters := n_iters s; n_distance := n_distance s; n_pred := n_pred s; n_distances := n_distances s; n_calls := n_calls s; n_reads := n_reads s |}.

(** The state for which the internal traversal has called its neighbor function in a pass *)
Definition inf_expanded (i i' : @dij_state state state unit ZI DMi PMi LMi) : option state :=
  match d_pc i, d_pc i' with DLoop _, DEdges _ st _ _ _ => Some st | _, _ => None end.

(** Lines 202-212: after the internal traversal has asked for the edges of a state; in the base state, the neighbor function is called. *)
Definition inf_note (s : inf_state) (st : state) (iters : V -> option nat) : inf_state :=
  let base := dm_get DMi (fst st, 0) (d_distances (n_in s)) in
  {| n_in := n_in s; n_iters := iters;
     n_distance := if Nat.eqb (snd st) 0 then base else n_distance s;
     n_pred := n_pred s; n_distances := n_distances s;
     n_calls := if Nat.eqb (snd st) 0 then (fst st, base) :: n_calls s else n_calls s;
     n_reads := match (if Nat.eqb (snd st) 0 then Some 0 else n_iters s (fst st)) with Some taken => (fst st, taken) :: n_reads s | None => n_reads s end |}.

(** One pass: a pass of the internal traversal, whose neighbor function is [next_state_edges] with the current iterators and distances.
    A state is first reported (if it has a predecessor), then its edges are demanded. *)
Definition inf_step (s : inf_state) : step_result inf_state inf_report exn :=
  let edges st := match next_state_edges (n_iters s) (d_distances (n_in s)) st with Some (l, _) => l | None => [] end in
  match dij_step (fun s => s) ZI DMi PMi LMi edges inf_inner_cfg (n_in s) with
  | Halt os i => match inf_handle s os with inl (out, s1) => Halt out (n_set_in s1 i) | inr x => Raise [] x s end
  | Raise os x i => match inf_handle s os with inl (out, s1) => Raise out x (n_set_in s1 i) | inr y => Raise [] y s end
  | Go os i =>
      match inf_handle s os with
      | inr x => Raise [] x s
      | inl (out, s1) =>
          let s2 := n_set_in s1 i in
          match inf_expanded (n_in s) i with
          | None => Go out s2
          | Some st =>
              match next_state_edges (n_iters s) (d_distances (n_in s)) st with
              | None => Raise out KeyErrorNotFound s2
              | Some (_, iters) => Go out (inf_note s2 st iters)
              end
          end
      end
  end.

(** [n] passes of a started traversal *)
Definition inf_run (starts : list V) (limit : option Z) (n : nat) : list inf_report * outcome inf_state exn := run inf_step n (inf_init starts limit).
End Inf.

Arguments n_in {V DM PM DMi PMi LMi}. Arguments n_iters {V DM PM DMi PMi LMi}. Arguments n_distance {V DM PM DMi PMi LMi}.
Arguments n_pred {V DM PM DMi PMi LMi}. Arguments n_distances {V DM PM DMi PMi LMi}. Arguments n_calls {V DM PM DMi PMi LMi}. Arguments n_reads {V DM PM DMi PMi LMi}.
Arguments nr_vertex {V DM PM}. Arguments nr_distance {V DM PM}. Arguments nr_pred {V DM PM}. Arguments nr_distances {V DM PM}.
