(** Specification for C102 and C103: measures of edges, walks that use given edges only. *)
From Coq Require Import List ZArith.
From Verif Require Import Weight WeightSpec MSTSpec.
From Verif Require FloatModel.
Import ListNotations.

Section Spec.
Context {I : Type} (WT : Weights).
(** The sum of a measure of the weights of edges, in exact arithmetic. *)
Definition total_measure (value : w_t WT -> Z) (F : list (I * w_t WT * I)) : Z := fold_right (fun e z => (value (edge_weight WT e) + z)%Z) 0%Z F.
(** A measure that does not get smaller if the weight gets larger. *)
Definition monotone (value : w_t WT -> Z) : Prop := forall a b, w_leb WT a b = true -> (value a <= value b)%Z.
(** The graph that has only the edges [T], in their direction. *)
Definition only (T : list (I * w_t WT * I)) (i : I) (w : w_t WT) (j : I) : Prop := In (i, w, j) T.
(** No edge of [p] is heavier than all edges of [q]: the heaviest edge of [p] is at most as heavy as the heaviest edge of [q]. *)
Definition not_heavier (p q : list (w_t WT * I)) : Prop := forall w, In w (map fst p) -> exists w', In w' (map fst q) /\ w_leb WT w w' = true.
End Spec.

(** The exact value of a finite float, in units of the smallest positive float. (Infinity counts like the largest float; the theorem about floats is about graphs without
    infinite weights.) *)
Definition float_units {prec largest : Z} (w : option (FloatModel.fin prec largest)) : Z :=
  match w with Some x => FloatModel.fin_value prec largest x | None => largest end.
