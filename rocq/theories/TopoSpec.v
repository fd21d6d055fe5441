(** Notions for the statements about topological sort. *)
From Coq Require Import List.
From Verif Require Import Spec.
Import ListNotations.

Section TopoSpec.
Context {I : Type}.
Variable E : I -> I -> Prop.
Variable St : I -> Prop.

(** No start vertex can be reached from another one. *)
Definition independent : Prop := forall i j p, St i -> St j -> i <> j -> ~ walk E i p j.

(** From a start vertex, one can reach a vertex from which a walk of at least one edge leads back to it. *)
Definition cycle_reachable : Prop := exists i p, reachable E St i /\ p <> [] /\ walk E i p i.
End TopoSpec.

(** [a] results from [b] by leaving out elements. *)
Inductive subseq {A} : list A -> list A -> Prop :=
| ss_nil : subseq [] []
| ss_keep x a b : subseq a b -> subseq (x :: a) (x :: b)
| ss_drop x a b : subseq a b -> subseq a (x :: b).
