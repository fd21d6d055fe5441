(** Specification vocabulary for round trips (traveling salesman problem). *)
From Coq Require Import List ZArith Permutation.
Import ListNotations.
Local Open Scope Z_scope.

Section TspSpec.
Context {T : Type}.
(** The weight of the edge between two vertices, if there is an edge. *)
Variable weight : T -> T -> option Z.

(** The sum of the weights along a sequence of vertices; [None], if an edge is missing. *)
Fixpoint route_length (route : list T) : option Z :=
  match route with
  | a :: ((b :: _) as rest) =>
      match weight a b, route_length rest with
      | Some x, Some y => Some (x + y)
      | _, _ => None
      end
  | _ => Some 0
  end.

(** [route] starts at vertex [first], visits each of the vertices exactly once, and returns to [first]; all edges exist, and the sum of their weights is [length]. *)
Definition is_tour (vertices : list T) (first : T) (route : list T) (length : Z) : Prop :=
  exists others, route = first :: others ++ [first] /\ Permutation (first :: others) vertices /\ route_length route = Some length.
End TspSpec.

(** [x] is the weight of an edge between the vertices. *)
Definition edge_weight {T} (weight : T -> T -> option Z) (vertices : list T) (x : Z) : Prop := exists a b, In a vertices /\ In b vertices /\ weight a b = Some x.

(** [m] is the smallest of 0 and the numbers with property [P]. *)
Definition lowest (m : Z) (P : Z -> Prop) : Prop := (m = 0 \/ P m) /\ m <= 0 /\ forall x, P x -> m <= x.
(** [m] is the greatest of 0 and the numbers with property [P]. *)
Definition greatest (m : Z) (P : Z -> Prop) : Prop := (m = 0 \/ P m) /\ 0 <= m /\ forall x, P x -> x <= m.

(** The sum of numbers *)
Definition total (l : list Z) : Z := fold_right Z.add 0 l.

(** The weight of the edge from [a] to [b] in a table of tables: a vertex without table, or without entry there, has no edge. *)
Definition weight_of {T} (weights : T -> option (T -> option Z)) (a b : T) : option Z := match weights a with Some edges => edges b | None => None end.

(** A tour of [k] edges with length [len] compared to another one with length [len'].  If the shortest tour is wanted, and [m] is the smallest edge weight (or 0),
    then [k * m] is a lower bound for each length, and [len] is at most twice as far away from it as [len'].  For a longest tour, correspondingly. *)
Definition near (longest : bool) (k : Z) (P : Z -> Prop) (len len' : Z) : Prop :=
  if longest then forall m, greatest m P -> k * m - len <= 2 * (k * m - len')
  else forall m, lowest m P -> len - k * m <= 2 * (len' - k * m).
