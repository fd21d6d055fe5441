(** Specification vocabulary for graphs whose weights are floats (C96): exact sums and relative errors. *)
From Coq Require Import List ZArith.
From Verif Require Import Weight WeightSpec FloatModel.
Import ListNotations.
Local Open Scope Z_scope.

Section FloatSpec.
Context {I : Type}.
Variables prec largest : Z.
Hypothesis Hprec : 1 <= prec.
Hypothesis Hlarge : 0 <= largest.
Notation FW := (FloatWeights prec largest Hprec Hlarge).

(** The exact sum of the weights of a walk (in units of the smallest positive float), if they are finite. *)
Fixpoint exact_sum (p : list (option (fin prec largest) * I)) : option Z :=
  match p with
  | [] => Some 0
  | (None, _) :: _ => None
  | (Some w, _) :: p' => match exact_sum p' with Some x => Some (fin_value prec largest w + x) | None => None end
  end.

(** [x] is at most [y] times (1 + 2^-prec)^k. *)
Definition at_most_up (k : nat) (x y : Z) : Prop := (2 ^ prec) ^ Z.of_nat k * x <= (2 ^ prec + 1) ^ Z.of_nat k * y.

(** [x] times (1 - 2^-prec)^k is at most [y]. *)
Definition at_most_down (k : nat) (x y : Z) : Prop := (2 ^ prec - 1) ^ Z.of_nat k * x <= (2 ^ prec) ^ Z.of_nat k * y.

(** The estimation [h] is finite and not larger than the exact sum of the weights of a walk to a goal vertex, for all such walks with finite weights. *)
Definition float_admissible (E : I -> option (fin prec largest) -> I -> Prop) (h : I -> option (fin prec largest)) (Goal : I -> Prop) : Prop :=
  forall i q g x, wwalk FW E i q g -> Goal g -> exact_sum q = Some x -> exists y, h i = Some y /\ fin_value prec largest y <= x.

(** All estimations are finite, and following an edge does not reduce the estimation by more than the weight of the edge, in exact arithmetic. *)
Definition float_consistent (E : I -> option (fin prec largest) -> I -> Prop) (h : I -> option (fin prec largest)) : Prop :=
  (forall i, exists a, h i = Some a) /\
  (forall i w j a b, E i (Some w) j -> h i = Some a -> h j = Some b -> fin_value prec largest a <= fin_value prec largest w + fin_value prec largest b).
End FloatSpec.
