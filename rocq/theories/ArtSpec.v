(** Specification for C107 and C108: articulation points, biconnected components. *)
From Coq Require Import List.
From Verif Require Import Spec SCCSpec.
Import ListNotations.

(** An undirected graph: each edge can be followed in both directions. *)
Definition undirected {V} (E : V -> V -> Prop) : Prop := forall u v, E u v -> E v u.

(** Without [v], some connected vertices [a] and [b] would not be connected any more: each walk from [a] to [b] (here without its first vertex) leads through [v]. *)
Definition articulation_point {V} (E : V -> V -> Prop) (v : V) : Prop :=
  exists a b, a <> v /\ b <> v /\ leads E a b /\ forall p, walk E a p b -> In v p.

(** The vertices of [C] are connected within [C], and stay connected within [C] without any single vertex [v]. *)
Definition biconnected {V} (E : V -> V -> Prop) (C : list V) : Prop :=
  forall v a b, In a C -> In b C -> a <> v -> b <> v -> exists p, walk E a p b /\ forall x, In x p -> In x C /\ x <> v.
(** A largest such set of vertices *)
Definition biconnected_component {V} (E : V -> V -> Prop) (C : list V) : Prop :=
  NoDup C /\ biconnected E C /\ forall D, incl C D -> biconnected E D -> incl D C.
