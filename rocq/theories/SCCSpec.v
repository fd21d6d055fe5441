(** Specification for C106: strongly connected components. *)
From Coq Require Import List.
From Verif Require Import Spec.
Import ListNotations.

(** The edges that a neighbor function describes *)
Definition edge_of {V L} (next : V -> list (V * L)) (u v : V) : Prop := In v (map fst (next u)).

(** There is a path from [u] to [v]. *)
Definition leads {V} (E : V -> V -> Prop) (u v : V) : Prop := exists p, walk E u p v.

(** [C] lists the vertices of a strongly connected component: all vertices that can be reached from one of them, and from which it can be reached; each one once. *)
Definition strongly_connected_component {V} (E : V -> V -> Prop) (C : list V) : Prop :=
  C <> [] /\ NoDup C /\ forall u, In u C -> forall v, In v C <-> leads E u v /\ leads E v u.
