(** Specification vocabulary for spanning trees. An edge is given as (vertex id, weight, vertex id). *)
From Coq Require Import List.
From Verif Require Import Weight WeightSpec.
Import ListNotations.

Section SpanningTrees.
Context {I : Type}.
Variable WT : Weights.
Variable E : I -> w_t WT -> I -> Prop.

(** The graph has each edge in both directions, with the same weight. *)
Definition undirected : Prop := forall i w j, E i w j -> E j w i.

(** [F] has an edge between [i] and [j] (in some direction). *)
Definition joined (F : list (I * w_t WT * I)) (i j : I) : Prop := exists w, In (i, w, j) F \/ In (j, w, i) F.

(** [i] and [j] are connected by the edges of [F], used in any direction. *)
Inductive linked (F : list (I * w_t WT * I)) : I -> I -> Prop :=
| linked_refl i : linked F i i
| linked_step i j k : joined F i j -> linked F j k -> linked F i k.

(** [F] consists of edges of the graph, and connects each vertex that can be reached from the start vertices with some
    start vertex. *)
Definition attaches (Start : I -> Prop) (F : list (I * w_t WT * I)) : Prop :=
  (forall i w j, In (i, w, j) F -> E i w j) /\
  (forall i, wreachable WT E Start i -> exists s, Start s /\ linked F i s).

(** The ends of an edge of [F] are not connected by the other edges of [F]. *)
Definition acyclic (F : list (I * w_t WT * I)) : Prop :=
  forall F1 i w j F2, F = F1 ++ (i, w, j) :: F2 -> ~ linked (F1 ++ F2) i j.

Definition edge_weight (e : I * w_t WT * I) : w_t WT := snd (fst e).

(** Sum of the weights. *)
Definition total_weight (F : list (I * w_t WT * I)) : w_t WT :=
  fold_right (fun e d => w_add WT (edge_weight e) d) (w_zero WT) F.
End SpanningTrees.
