(** Specification vocabulary for searches from start vertices to goal vertices. *)
From Coq Require Import List.
From Verif Require Import Spec TraversalSpec.
Import ListNotations.

Section BiSpec.
Context {V I : Type}.
Variable vid : V -> I.
Variable E : I -> I -> Prop.
Variables starts goals : list V.

(** There is a path with [k] edges from a start vertex to a goal vertex. *)
Definition connection (k : nat) : Prop :=
  exists s p g, is_start vid starts s /\ is_start vid goals g /\ walk E s p g /\ length p = k.

(** The smallest number of edges of such a path is [k]. *)
Definition shortest_connection (k : nat) : Prop := connection k /\ forall k', connection k' -> k <= k'.
End BiSpec.
