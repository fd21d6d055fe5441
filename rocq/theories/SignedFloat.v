(** Floats with sign as weights: Python's floats without NaN.  Values are multiples of the smallest positive float, see FloatModel. *)
From Coq Require Import List ZArith Bool Lia Eqdep_dec.
From Verif Require Import Weight FloatModel.
Local Open Scope Z_scope.

Section Signed.
Variables prec largest : Z.
Hypothesis Hprec : 1 <= prec.
Hypothesis Hlarge : 0 <= largest.

(** Round to the nearest, ties to even; rounding is symmetric. *)
Definition sround (x : Z) : Z := if 0 <=? x then round prec x else - round prec (- x).
Definition sfits (x : Z) : bool := (sround x =? x) && (Z.abs x <=? largest).
Definition sfin : Type := { x : Z | sfits x = true }.
Definition sfin_value (a : sfin) : Z := proj1_sig a.

Inductive sfloat := NegInf | Finite (a : sfin) | PosInf.

(** The float for an exact result *)
Definition sfloat_of (x : Z) : sfloat :=
  let y := sround x in
  match bool_dec (sfits y) true with left H => Finite (exist _ y H) | right _ => if 0 <=? x then PosInf else NegInf end.

Definition s_leb (a b : sfloat) : bool :=
  match a, b with
  | NegInf, _ => true
  | _, PosInf => true
  | Finite x, Finite y => sfin_value x <=? sfin_value y
  | _, _ => false
  end.
(** [a + b].  Simplification: the sum of the two infinities, in Python NaN, is infinity here. *)
Definition s_add (a b : sfloat) : sfloat :=
  match a, b with
  | PosInf, _ | _, PosInf => PosInf
  | NegInf, _ | _, NegInf => NegInf
  | Finite x, Finite y => sfloat_of (sfin_value x + sfin_value y)
  end.
(** [a - b].  Simplification: if [a] and [b] are the same infinity, the result, in Python NaN, is infinity here. *)
Definition s_sub (a b : sfloat) : sfloat :=
  match a, b with
  | PosInf, _ | _, NegInf => PosInf
  | NegInf, _ | _, PosInf => NegInf
  | Finite x, Finite y => sfloat_of (sfin_value x - sfin_value y)
  end.

Lemma sfin_eq (a b : sfin) : sfin_value a = sfin_value b -> a = b.
Proof. destruct a as [x Hx], b as [y Hy]. cbn. intros ->. f_equal. apply UIP_dec. apply bool_dec. Qed.
Lemma sfin_spec (a : sfin) : sround (sfin_value a) = sfin_value a /\ Z.abs (sfin_value a) <= largest.
Proof. destruct a as [x Hx]. cbn. unfold sfits in Hx. rewrite andb_true_iff, Z.leb_le, Z.eqb_eq in Hx. exact Hx. Qed.

Lemma sround_mono x y : x <= y -> sround x <= sround y.
Proof using Hprec.
  intros H. unfold sround. destruct (Z.leb_spec 0 x), (Z.leb_spec 0 y); try lia.
  - apply round_mono; [exact Hprec|lia].
  - pose proof (round_nonneg prec y ltac:(lia)). pose proof (round_nonneg prec (- x) ltac:(lia)). lia.
  - pose proof (round_mono prec Hprec (- y) (- x) ltac:(lia)). lia.
Qed.
Lemma sround_sround x : sround (sround x) = sround x.
Proof using Hprec.
  unfold sround at 2 3. destruct (Z.leb_spec 0 x) as [Hx|Hx].
  - pose proof (round_nonneg prec x Hx). unfold sround. destruct (Z.leb_spec 0 (round prec x)); [|lia]. now apply round_round.
  - pose proof (round_nonneg prec (- x) ltac:(lia)). unfold sround. destruct (Z.leb_spec 0 (- round prec (- x))) as [H0|H0].
    + replace (round prec (- x)) with 0 by lia. apply round_0; exact Hprec.
    + rewrite Z.opp_involutive, round_round; [reflexivity|exact Hprec|lia].
Qed.

(** What [sfloat_of] gives *)
Lemma sfloat_of_spec x : match sfloat_of x with Finite a => sfin_value a = sround x | PosInf => largest < sround x | NegInf => sround x < - largest end.
Proof using Hprec Hlarge.
  unfold sfloat_of. cbv zeta. destruct (bool_dec _ _) as [H|H]; [reflexivity|].
  assert (Hn : largest < Z.abs (sround x)).
  { apply not_true_is_false in H. unfold sfits in H. rewrite sround_sround, Z.eqb_refl in H. cbn in H. apply Z.leb_gt in H. exact H. }
  unfold sround in *. destruct (Z.leb_spec 0 x) as [Hx|Hx].
  - pose proof (round_nonneg prec x Hx). lia.
  - pose proof (round_nonneg prec (- x) ltac:(lia)). lia.
Qed.
Lemma sfloat_of_mono x y : x <= y -> s_leb (sfloat_of x) (sfloat_of y) = true.
Proof using Hprec Hlarge.
  intros H. pose proof (sfloat_of_spec x) as HX. pose proof (sfloat_of_spec y) as HY. pose proof (sround_mono x y H).
  destruct (sfloat_of x) as [|a|], (sfloat_of y) as [|b|]; cbn; try reflexivity.
  - pose proof (sfin_spec a). lia.
  - apply Z.leb_le. lia.
  - lia.
  - pose proof (sfin_spec b). lia.
Qed.
Lemma sfloat_of_value a : sfloat_of (sfin_value a) = Finite a.
Proof using Hprec Hlarge.
  pose proof (sfloat_of_spec (sfin_value a)) as HX. pose proof (sfin_spec a) as (H1 & H2). rewrite H1 in HX.
  destruct (sfloat_of (sfin_value a)) as [|b|]; [lia| |lia]. f_equal. now apply sfin_eq.
Qed.

Lemma s_leb_total a b : s_leb a b = true \/ s_leb b a = true.
Proof. destruct a, b; cbn; rewrite ?Z.leb_le; auto; lia. Qed.
Lemma s_leb_trans a b c : s_leb a b = true -> s_leb b c = true -> s_leb a c = true.
Proof. destruct a, b, c; cbn; rewrite ?Z.leb_le; auto; try discriminate; lia. Qed.
Lemma s_leb_antisym a b : s_leb a b = true -> s_leb b a = true -> a = b.
Proof. destruct a, b; cbn; rewrite ?Z.leb_le; auto; try discriminate. intros H1 H2. f_equal. apply sfin_eq. lia. Qed.
Lemma s_add_mono w a b : s_leb a b = true -> s_leb (s_add w a) (s_add w b) = true.
Proof using Hprec Hlarge.
  destruct w as [|w|], a as [|a|], b as [|b|]; cbn [s_leb s_add]; rewrite ?Z.leb_le; auto; try discriminate.
  - intros H. apply sfloat_of_mono. lia.
  - intros _. destruct (sfloat_of _); reflexivity.
Qed.

Lemma szero_fits : sfits 0 = true.
Proof using Hprec Hlarge. unfold sfits, sround. cbn [Z.leb]. change (0 <=? 0) with true. cbv iota. rewrite round_0 by exact Hprec. cbn. now apply Z.leb_le. Qed.
Definition s_zero : sfin := exist _ 0 szero_fits.
Lemma s_add_infl w a : s_leb (Finite s_zero) w = true -> s_leb a (s_add w a) = true.
Proof using Hprec Hlarge.
  destruct w as [|w|], a as [|a|]; try reflexivity; try discriminate. intros H. cbn [s_leb] in H. apply Z.leb_le in H.
  pose proof (sfloat_of_mono (sfin_value a) (sfin_value w + sfin_value a)) as HM. rewrite sfloat_of_value in HM. apply HM. change (sfin_value s_zero) with 0 in H. lia.
Qed.

Definition SignedWeights : Weights :=
  {| w_t := sfloat; w_leb := s_leb; w_add := s_add; w_zero := Finite s_zero; w_inf := PosInf;
     w_leb_total := s_leb_total; w_leb_trans := s_leb_trans; w_leb_antisym := s_leb_antisym;
     w_add_mono := s_add_mono; w_add_infl := s_add_infl; w_zero_inf := eq_refl |}.
End Signed.

(** Python's float: 53 bits *)
Definition PySigned : Weights := SignedWeights 53 py_largest py_prec py_largest_nonneg.
