(** Specification vocabulary for heuristic search. *)
From Coq Require Import List Bool ZArith Lia.
From Verif Require Import Weight WeightSpec.
Import ListNotations.

(** Weights with exact arithmetic: addition is associative and commutative, zero is neutral, and finite summands
    can be cancelled. This holds for integers (with or without an infinity value); it does not hold for rounded sums. *)
Record exact (WT : Weights) : Prop := {
  ex_comm : forall a b, w_add WT a b = w_add WT b a;
  ex_assoc : forall a b c, w_add WT a (w_add WT b c) = w_add WT (w_add WT a b) c;
  ex_zero : forall a, w_add WT (w_zero WT) a = a;
  ex_cancel : forall h a b, w_ltb WT h (w_inf WT) = true ->
     w_leb WT (w_add WT h a) (w_add WT h b) = true -> w_leb WT a b = true
}.

Section Heuristic.
Context {I : Type}.
Variable WT : Weights.
Variable E : I -> w_t WT -> I -> Prop.
Variable h : I -> w_t WT.

(** [h] never overestimates the weight of a walk to a goal vertex. *)
Definition admissible (Goal : I -> Prop) : Prop :=
  forall i p g, wwalk WT E i p g -> Goal g -> w_leb WT (h i) (walk_weight WT p) = true.

(** Following an edge does not reduce the estimation by more than the weight of the edge. *)
Definition consistent : Prop :=
  forall i w j, E i w j -> w_leb WT (h i) (w_add WT w (h j)) = true.

(** All estimations are finite. *)
Definition finite_estimates : Prop := forall i, w_ltb WT (h i) (w_inf WT) = true.

(** [d] is the least weight of a walk from a start vertex to some goal vertex. *)
Definition is_goal_distance (Start Goal : I -> Prop) (d : w_t WT) : Prop :=
  (exists s p g, Start s /\ Goal g /\ wwalk WT E s p g /\ walk_weight WT p = d) /\
  (forall s p g, Start s -> Goal g -> wwalk WT E s p g -> w_leb WT d (walk_weight WT p) = true).
End Heuristic.

Lemma exact_ZWeights inf H : exact (ZWeights inf H).
Proof.
  constructor; simpl; intros; lia.
Qed.

Lemma exact_ZInfWeights : exact ZInfWeights.
Proof.
  constructor; simpl; intros;
    repeat match goal with x : option Z |- _ => destruct x end; simpl in *; try discriminate; auto;
    try (f_equal; lia); lia.
Qed.
