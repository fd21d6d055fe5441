(** Model of src/nographs/_extra_tsp.py, for weights that are Python integers, and gears whose infinity is larger than all integers (e.g., [GearDefault]). *)
From Coq Require Import List ZArith Bool.
From Verif Require Import Machine GearSpec Common PathsModel PathModel Weight BiSPModel.
Import ListNotations.
Local Open Scope Z_scope.

(** [min(..., default=...)] *)
Definition min_default (l : list Z) (default : Z) : Z := match l with [] => default | x :: r => fold_left Z.min r x end.

(** _extra_tsp.py:48-66: negate_weights, weight_offset, and whether weights are changed *)
Definition weight_changes_for_negative_weights (weights : list Z) (zero : Z) : bool * Z * bool :=
  let offset := zero - Z.min zero (min_default weights zero) in
  (false, offset, negb (offset =? zero)).

(** _extra_tsp.py:69-88 *)
Definition weight_changes_for_find_longest (weights : list Z) (zero : Z) : bool * Z :=
  (true, zero - Z.min zero (min_default (map (fun w => zero - w) weights) zero)).

(** _extra_tsp.py:91-106 *)
Fixpoint subtract_repeatedly (length : Z) (n : nat) (offset : Z) : Z := match n with O => length | S n => subtract_repeatedly (length - offset) n offset end.
Definition undo_weight_changes_in_travel_length (length : Z) (no_of_edges : nat) (zero : Z) (negate_weights : bool) (weight_offset : Z) : Z :=
  let length := subtract_repeatedly length no_of_edges weight_offset in
  if negate_weights then zero - length else length.

(** [graph[v][w]] for integers; outside of the matrix, there is no weight *)
Definition cell (graph : list (list (option Z))) (v w : Z) : option Z :=
  match nth_error graph (Z.to_nat v) with
  | None => None
  | Some row => match nth_error row (Z.to_nat w) with None => None | Some x => x end
  end.

(** [range(n)] *)
Definition range (n : nat) : list Z := map Z.of_nat (seq 0 n).

Section Search.
(** graph_forwards or graph_backwards, and the number of vertices *)
Variable graph : list (list (option Z)).
Variable no_of_vertices : nat.
Notation n := (Z.of_nat no_of_vertices).

(** _extra_tsp.py:244-259, 264-279: the set of the vertices with an edge from (or to) a vertex, as bits of an integer *)
Definition adjacent (vertex : Z) : Z :=
  fold_left Z.lor (map (fun to => if negb (vertex =? to) && match cell graph vertex to with Some _ => true | None => false end then Z.shiftl 1 to else 0) (range no_of_vertices)) 0.

(** The loops of lines 298-306 and 327-334: the edges to the vertices in a set; [new_state]: the state that belongs to a vertex.  [fuel]: upper bound for the number of
    vertices in the set.
    Simplification: the weight of an edge in the search graph is [Some w]; [None], the infinite weight, would result only for a vertex without edge, and such vertices are
    not in the set. *)
Fixpoint edges_to (fuel : nat) (to_visit_next : Z) (vertex : Z) (new_state : Z -> Z) : list (Z * option Z * unit) :=
  match fuel with
  | O => []
  | S fuel =>
      if to_visit_next =? 0 then []
      else
        let to_vertex := Z.log2 to_visit_next in          (* bit_length() - 1 *)
        let to_vertex_set := Z.shiftl 1 to_vertex in
        (new_state to_vertex, cell graph vertex to_vertex, tt) :: edges_to fuel (to_visit_next - to_vertex_set) vertex new_state
  end.

(** _extra_tsp.py:285-306; the start vertex is 0, the set that contains only it is 1 *)
Definition next_edges_forwards (state : Z) : list (Z * option Z * unit) :=
  let to_visit_forwards := state / n in
  let vertex := state mod n in
  let to_visit_forwards := if to_visit_forwards =? 0 then 1 else to_visit_forwards in
  let to_visit_next := Z.land to_visit_forwards (adjacent vertex) in
  edges_to no_of_vertices to_visit_next vertex (fun to_vertex => to_vertex + (to_visit_forwards - Z.shiftl 1 to_vertex) * n).

(** _extra_tsp.py:308-334 *)
Definition next_edges_backwards (state : Z) : list (Z * option Z * unit) :=
  let to_visit_forwards := state / n in
  let vertex := state mod n in
  let to_visit_next := (Z.shiftl 1 n - 1) - to_visit_forwards in
  let to_visit_next := if to_visit_next =? 1 then to_visit_next else to_visit_next - 1 in
  let to_visit_next := Z.land to_visit_next (adjacent vertex) in
  let vertices_remaining_to_visit := if vertex =? 0 then to_visit_forwards else to_visit_forwards + Z.shiftl 1 vertex in
  edges_to no_of_vertices to_visit_next vertex (fun from_vertex => from_vertex + vertices_remaining_to_visit * n).
End Search.

Section Tsp.
Variable DM : DMap Z (option Z) None.
Variable PM : PMap Z Z.
Variable LM : PMap Z unit.
Notation ZI := ZInfWeights.

(** All weights of the graph, line 150 *)
Definition iter_weights (graph : list (list (option Z))) : list Z := flat_map (flat_map (fun w => match w with Some x => [x] | None => [] end)) graph.

(** Lines 195-219, the change of one weight *)
Definition changed_weight (negate_weights : bool) (weight_offset weight : Z) : Z := (if negate_weights then 0 - weight else weight) + weight_offset.

(** Lines 195-219: the matrix of changed weights; [swap]: for graph_backwards *)
Definition changed_graph (graph : list (list (option Z))) (no_of_vertices : nat) (negate_weights : bool) (weight_offset : Z) (swap : bool) : list (list (option Z)) :=
  map (fun v => map (fun w =>
    match (if swap then cell graph w v else cell graph v w) with
    | None => None
    | Some weight => Some (changed_weight negate_weights weight_offset weight)
    end) (range no_of_vertices)) (range no_of_vertices).

(** Lines 221-236 *)
Definition start_state (no_of_vertices : nat) : Z := 0 + ((Z.shiftl 1 (Z.of_nat no_of_vertices) - 1) - 1) * Z.of_nat no_of_vertices.
Definition goal_state (no_of_vertices : nat) : Z := 0 + 0 * Z.of_nat no_of_vertices.

(** Lines 336-343: the bidirectional search *)
Definition tsp_search (forth back : list (list (option Z))) (no_of_vertices passes : nat) :=
  b2_run Z.eq_dec Z.eq_dec (fun s => s) ZI DM PM LM (next_edges_forwards forth no_of_vertices) (next_edges_backwards back no_of_vertices) false true false
    [start_state no_of_vertices] [goal_state no_of_vertices] None passes.

(** _extra_tsp.py:114-353: solve the TSP for vertices 0, 1, ...  [None]: the search has not ended after the given number of passes.  The result are the length and the
    vertices of the path. *)
Definition tsp_int_vertices (graph : list (list (option Z))) (find_longest : bool) (passes : nat) : option ((Z * list Z) + exn) :=
  let weights := iter_weights graph in
  let '(negate_weights, weight_offset, weights_changed) :=
    if find_longest then (weight_changes_for_find_longest weights 0, true) else weight_changes_for_negative_weights weights 0 in
  let no_of_vertices := length graph in
  if (no_of_vertices <? 2)%nat then Some (inr RuntimeErrorProblem)                                               (* lines 177-185 *)
  else if existsb (fun edges => negb (Nat.eqb (length edges) no_of_vertices)) graph then Some (inr RuntimeErrorProblem)   (* lines 188-193 *)
  else
    let forth := changed_graph graph no_of_vertices negate_weights weight_offset false in
    let back := changed_graph graph no_of_vertices negate_weights weight_offset true in
    if existsb (fun v => adjacent forth no_of_vertices v =? 0) (range no_of_vertices) then Some (inr KeyErrorNotFound)    (* lines 260-263 *)
    else if existsb (fun v => adjacent back no_of_vertices v =? 0) (range no_of_vertices) then Some (inr KeyErrorNotFound)  (* lines 280-283 *)
    else
      match tsp_search forth back no_of_vertices passes with
      | (_, Running _) => None
      | (_, Raised x _) => Some (inr x)
      | (result :: _, Ended _) =>
          match b2_length result, path_vertices_from_start (b2_path result) (S no_of_vertices) with
          | Some found, POk states =>
              Some (inl (if weights_changed then undo_weight_changes_in_travel_length found no_of_vertices 0 negate_weights weight_offset else found,
                         map (fun s => s mod Z.of_nat no_of_vertices) states))
          | _, _ => Some (inr AssertionModel)          (* does not occur *)
          end
      | ([], Ended _) => Some (inr AssertionModel)      (* does not occur *)
      end.

Context {T : Type}.

(** Lines 432-453: the matrix for vertices of any type.  [weights v]: [None] for KeyError, IndexError and None. *)
Definition int_graph (vertices : list T) (weights : T -> option (T -> option Z)) : list (list (option Z)) :=
  map (fun v => match weights v with
                | None => map (fun _ => None) vertices
                | Some edges => map edges vertices
                end) vertices.

(** _extra_tsp.py:356-461 ([traveling_salesman_flex]).  Simplification: a vertex number that is no index would be left out; such numbers do not occur. *)
Definition traveling_salesman (vertices : list T) (weights : T -> option (T -> option Z)) (find_longest : bool) (passes : nat) : option ((Z * list T) + exn) :=
  match tsp_int_vertices (int_graph vertices weights) find_longest passes with
  | None => None
  | Some (inr x) => Some (inr x)
  | Some (inl (length, path)) => Some (inl (length, flat_map (fun v => match nth_error vertices (Z.to_nat v) with Some x => [x] | None => [] end) path))
  end.
End Tsp.
