(** Specification for C112. *)
From Coq Require Import List.
From Verif Require Import Spec.
Import ListNotations.

(** [t] lists the vertices of a walk from a start vertex to a goal vertex, along edges [E]. *)
Definition way {V} (E : V -> V -> Prop) (starts goals t : list V) : Prop := exists s w g, t = s :: w /\ In s starts /\ walk E s w g /\ In g goals.
(** The graph has no cycles. *)
Definition no_cycles {V} (E : V -> V -> Prop) : Prop := forall v w, walk E v w v -> w = [].
