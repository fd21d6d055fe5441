(** Specification for C100: work that is linear in the number of edges. *)
From Coq Require Import List Arith.
Import ListNotations.

(** a passes for each out-edge, and b passes for each vertex *)
Definition work {V A : Type} (next : V -> list A) (a b : nat) (vs : list V) : nat := list_sum (map (fun v => a * length (next v) + b) vs).

(** The same for a graph: [deg i] bounds the number of out-edges reported for a vertex with id [i]; each id of [ids] counts once. *)
Definition graph_work {I : Type} (deg : I -> nat) (a b : nat) (ids : list I) : nat := list_sum (map (fun i => a * deg i + b) ids).
