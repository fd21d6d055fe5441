(** Edge weights and distances.

    The traversals use weights only through comparisons, one addition ([weight + path_weight]),
    and the constants [zero] and [infinity] of the gear (_gears.py:223-259).  Here: what the
    shortest path algorithms need. Addition need not be associative or commutative, so
    sums that are rounded monotonically (floating point) are covered. *)
From Coq Require Import Bool ZArith Lia.

Record Weights := {
  w_t : Type;
  w_leb : w_t -> w_t -> bool;                (* [<=] *)
  w_add : w_t -> w_t -> w_t;                 (* [w_add weight path_weight] *)
  w_zero : w_t;
  w_inf : w_t;
  w_leb_total : forall a b, w_leb a b = true \/ w_leb b a = true;
  w_leb_trans : forall a b c, w_leb a b = true -> w_leb b c = true -> w_leb a c = true;
  w_leb_antisym : forall a b, w_leb a b = true -> w_leb b a = true -> a = b;
  (** addition is monotone in the path weight *)
  w_add_mono : forall w a b, w_leb a b = true -> w_leb (w_add w a) (w_add w b) = true;
  (** adding a non-negative weight does not make a distance smaller *)
  w_add_infl : forall w a, w_leb w_zero w = true -> w_leb a (w_add w a) = true;
  w_zero_inf : w_leb w_inf w_zero = false
}.

(** [a < b] *)
Definition w_ltb (WT : Weights) (a b : w_t WT) : bool := negb (w_leb WT b a).

Section WeightLemmas.
Variable WT : Weights.
Notation leb := (w_leb WT).
Notation ltb := (w_ltb WT).

Lemma w_leb_refl a : leb a a = true.
Proof. destruct (w_leb_total WT a a); auto. Qed.

Lemma w_ltb_lt a b : ltb a b = true <-> leb b a = false.
Proof. unfold w_ltb. destruct (leb b a); simpl; intuition congruence. Qed.

Lemma w_ltb_ge a b : ltb a b = false <-> leb b a = true.
Proof. unfold w_ltb. destruct (leb b a); simpl; intuition congruence. Qed.

Lemma w_lt_le a b : ltb a b = true -> leb a b = true.
Proof. intros H. apply w_ltb_lt in H. destruct (w_leb_total WT a b); congruence. Qed.

Lemma w_lt_le_trans a b c : ltb a b = true -> leb b c = true -> ltb a c = true.
Proof.
  intros H1 H2. apply w_ltb_lt in H1. apply w_ltb_lt. destruct (leb c a) eqn:E; auto.
  rewrite (w_leb_trans WT b c a) in H1; auto.
Qed.

Lemma w_le_lt_trans a b c : leb a b = true -> ltb b c = true -> ltb a c = true.
Proof.
  intros H1 H2. apply w_ltb_lt in H2. apply w_ltb_lt. destruct (leb c a) eqn:E; auto.
  rewrite (w_leb_trans WT c a b) in H2; auto.
Qed.

Lemma w_lt_irrefl a : ltb a a = false.
Proof. apply w_ltb_ge, w_leb_refl. Qed.

Lemma w_le_lt_contra a b : leb a b = true -> ltb b a = true -> False.
Proof. intros H1 H2. apply w_ltb_lt in H2. congruence. Qed.

Lemma w_le_neq_lt a b : leb a b = true -> a <> b -> ltb a b = true.
Proof.
  intros H1 H2. apply w_ltb_lt. destruct (leb b a) eqn:E; auto.
  exfalso. apply H2. now apply w_leb_antisym.
Qed.
End WeightLemmas.

(** Integers with a constant as infinity value, e.g. _gears.py:716-762 ([..CInts]) *)
Definition ZWeights (inf : Z) (H : (0 < inf)%Z) : Weights.
Proof.
  refine {| w_t := Z; w_leb := Z.leb; w_add := Z.add; w_zero := 0%Z; w_inf := inf |}.
  all: intros; rewrite ?Z.leb_le, ?Z.leb_gt in *; lia.
Defined.

(** Python integers together with [float("infinity")] ([None]), _gears.py:330-340. *)
Definition zi_leb (a b : option Z) : bool :=
  match a, b with
  | _, None => true
  | None, Some _ => false
  | Some x, Some y => (x <=? y)%Z
  end.
Definition zi_add (a b : option Z) : option Z :=
  match a, b with Some x, Some y => Some (x + y)%Z | _, _ => None end.
Definition ZInfWeights : Weights.
Proof.
  refine {| w_t := option Z; w_leb := zi_leb; w_add := zi_add; w_zero := Some 0%Z; w_inf := None |}.
  all: unfold zi_leb, zi_add; intros;
    repeat match goal with x : option Z |- _ => destruct x end;
    rewrite ?Z.leb_le, ?Z.leb_gt in *; try discriminate; try (f_equal; lia); auto; lia.
Defined.
