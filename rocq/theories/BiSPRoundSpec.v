(** Specification vocabulary for bidirectional searches where sums of weights are rounded (C118). *)
From Coq Require Import List ZArith.
From Verif Require Import Weight WeightSpec FloatModel FloatSpec.
Import ListNotations.

(** The order of two summands does not matter, and adding zero changes nothing; but a sum of three weights may depend on the brackets. *)
Record rounded_addition (WT : Weights) : Prop := {
  ra_comm : forall a b, w_add WT a b = w_add WT b a;
  ra_zero : forall a, w_add WT a (w_zero WT) = a
}.

(** [c] is the length of the walk [p], computed from both ends: the weights of the edges of a first part are summed up from the start of the walk on, the weights of the remaining edges
    from the end of the walk on, backwards, and the two sums are added. *)
Definition length_from_both_ends {I} (WT : Weights) (p : list (w_t WT * I)) (c : w_t WT) : Prop :=
  exists p1 p2, p = p1 ++ p2 /\
    c = w_add WT (fold_left (fun d e => w_add WT (fst e) d) p1 (w_zero WT)) (fold_right (fun e d => w_add WT (fst e) d) (w_zero WT) p2).
