(** Specification of simple paths and their lengths in a graph with weighted edges. *)
From Coq Require Import List ZArith.
Import ListNotations.
Open Scope Z_scope.

Section LongestSpec.
Context {V : Type}.
Variable next : V -> list (V * Z).

(** [trail s vs v w]: the vertices [vs] are a walk along edges from [s] to [v], and [w] is the sum of the weights of its edges. *)
Inductive trail (s : V) : list V -> V -> Z -> Prop :=
| tr_start : trail s [s] s 0
| tr_edge vs u w v l : trail s vs u w -> In (v, l) (next u) -> trail s (vs ++ [v]) v (w + l).

(** A simple path from [s] to another vertex [g], with length [w] *)
Definition simple_path (s g : V) (vs : list V) (w : Z) : Prop := trail s vs g w /\ NoDup vs /\ s <> g.

(** The answer of a program for the longest simple path: the length and the path, or (-1, ()) if there is none *)
Definition longest_answer (s g : V) (answer : Z * list V) : Prop :=
  (answer = (-1, []) /\ forall vs w, ~ simple_path s g vs w) \/
  (simple_path s g (snd answer) (fst answer) /\ forall vs w, simple_path s g vs w -> w <= fst answer).
End LongestSpec.
