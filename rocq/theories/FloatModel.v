(** Model of floating point numbers (Python's float, IEEE 754 binary64) as non-negative weights and distances (_gears.py:330-340, and the weights of the user).

    A non-negative finite float is an integer multiple of the smallest positive float (2^-1074), so it is modelled by this integer. The sum of two floats is the
    exact sum, rounded to the nearest integer with at most [prec] significant bits, ties to even (IEEE 754, roundTiesToEven; the default, and the only mode used by Python);
    sums beyond the largest float are infinite. Numbers of bits are parameters: [prec] = 53 for Python's float, 24 for the items of arrays of type "f". *)
From Coq Require Import Bool ZArith Lia Eqdep_dec.
From Verif Require Import Weight.
Local Open Scope Z_scope.

Section Round.
Variable prec : Z.

(** Number of the bits that are lost if [x] is rounded *)
Definition lost_bits (x : Z) : Z := Z.max 0 (Z.log2 x + 1 - prec).

(** Round to the nearest, ties to even *)
Definition round (x : Z) : Z :=
  let unit := 2 ^ lost_bits x in
  let q := x / unit in
  let r := x mod unit in
  (if (unit <? 2 * r) || ((2 * r =? unit) && Z.odd q) then q + 1 else q) * unit.

(** The largest float is [largest]; [fits x]: [x] is a float *)
Variable largest : Z.
Definition fits (x : Z) : bool := (0 <=? x) && (round x =? x) && (x <=? largest).
End Round.

Section RoundProofs.
Variable prec : Z.
Hypothesis Hprec : 1 <= prec.
Notation round := (round prec).
Notation lost_bits := (lost_bits prec).

Lemma lost_nonneg x : 0 <= lost_bits x. Proof. unfold FloatModel.lost_bits. lia. Qed.
Lemma unit_pos x : 0 < 2 ^ lost_bits x. Proof. apply Z.pow_pos_nonneg; [lia|apply lost_nonneg]. Qed.

Lemma round_nonneg x : 0 <= x -> 0 <= round x.
Proof.
  intros Hx. unfold FloatModel.round. cbv zeta. pose proof (unit_pos x) as Hu. pose proof (Z.div_pos x (2 ^ lost_bits x) Hx Hu).
  apply Z.mul_nonneg_nonneg; [|lia]. destruct (_ || _); lia.
Qed.

(** Numbers with at most [prec] bits, and powers of two, are floats. *)
Lemma round_divides x : 0 <= x -> (2 ^ lost_bits x | x) -> round x = x.
Proof.
  intros Hx (m & Hm). unfold FloatModel.round. cbv zeta. pose proof (unit_pos x) as Hu.
  assert (Hr : x mod 2 ^ lost_bits x = 0) by (rewrite Hm at 1; apply Z_mod_mult).
  assert (Hq : x / 2 ^ lost_bits x * 2 ^ lost_bits x = x) by (pose proof (Z.div_mod x (2 ^ lost_bits x) ltac:(lia)); lia).
  rewrite Hr. replace (2 ^ lost_bits x <? 2 * 0) with false by (symmetry; apply Z.ltb_ge; lia).
  replace (2 * 0 =? 2 ^ lost_bits x) with false by (symmetry; apply Z.eqb_neq; lia). exact Hq.
Qed.

Lemma round_short m k : 0 <= m <= 2 ^ prec -> 0 <= k -> round (m * 2 ^ k) = m * 2 ^ k.
Proof.
  intros Hm Hk. pose proof (Z.pow_pos_nonneg 2 k ltac:(lia) Hk) as Hp. apply round_divides; [nia|].
  assert (H2 : forall a b, 0 <= a <= b -> (2 ^ a | 2 ^ b)).
  { intros a b Hab. exists (2 ^ (b - a)). rewrite <- Z.pow_add_r by lia. f_equal. lia. }
  destruct (Z.eq_dec m (2 ^ prec)) as [->|Hne].
  - rewrite <- Z.pow_add_r by lia. apply H2. unfold FloatModel.lost_bits. rewrite Z.log2_pow2 by lia. lia.
  - apply Z.divide_mul_r. apply H2. split; [apply lost_nonneg|]. unfold FloatModel.lost_bits.
    destruct (Z.eq_dec m 0) as [->|Hm0]; [rewrite Z.mul_0_l; cbn [Z.log2]; lia|].
    assert (Z.log2 (m * 2 ^ k) < prec + k); [|lia].
    apply Z.log2_lt_pow2; [nia|]. rewrite Z.pow_add_r by lia. nia.
Qed.

(** Bounds of the rounded number *)
Lemma round_bounds x : 0 < x -> 2 ^ Z.log2 x <= round x <= 2 ^ (Z.log2 x + 1).
Proof using Hprec.
  intros Hx. destruct (Z.log2_spec x Hx) as [Hl Hh]. pose proof (Z.log2_nonneg x) as Hn. unfold Z.succ in Hh.
  destruct (Z.eq_dec (lost_bits x) 0) as [H0|H0].
  - rewrite (round_divides x) by (try lia; rewrite H0; apply Z.divide_1_l). lia.
  - pose proof (unit_pos x) as Hu. pose proof (lost_nonneg x) as Hk.
    assert (Hk' : lost_bits x = Z.log2 x + 1 - prec) by (unfold FloatModel.lost_bits in *; lia).
    assert (HA : 2 ^ Z.log2 x = 2 ^ (prec - 1) * 2 ^ lost_bits x) by (rewrite <- Z.pow_add_r by lia; f_equal; lia).
    assert (HB : 2 ^ (Z.log2 x + 1) = 2 ^ prec * 2 ^ lost_bits x) by (rewrite <- Z.pow_add_r by lia; f_equal; lia).
    assert (HC : 2 ^ (prec - 1) <= x / 2 ^ lost_bits x) by (apply Z.div_le_lower_bound; lia).
    assert (HD : x / 2 ^ lost_bits x < 2 ^ prec) by (apply Z.div_lt_upper_bound; lia).
    unfold FloatModel.round. cbv zeta. rewrite HA, HB. destruct (_ || _); nia.
Qed.

Lemma round_mono x y : 0 <= x <= y -> round x <= round y.
Proof using Hprec.
  intros Hxy. destruct (Z.eq_dec x 0) as [->|Hx0].
  { rewrite (round_divides 0); [apply round_nonneg; lia|lia|apply Z.divide_0_r]. }
  pose proof (Z.log2_le_mono x y ltac:(lia)) as Hlog. destruct (Z.eq_dec (Z.log2 x) (Z.log2 y)) as [He|Hne].
  - unfold FloatModel.round. cbv zeta. replace (lost_bits y) with (lost_bits x) by (unfold FloatModel.lost_bits; now rewrite He).
    pose proof (unit_pos x) as Hu. set (u := 2 ^ lost_bits x) in *. apply Z.mul_le_mono_nonneg_r; [lia|].
    pose proof (Z.div_le_mono x y u Hu ltac:(lia)) as Hq. destruct (Z.eq_dec (x / u) (y / u)) as [Hqe|Hqn].
    + assert (Hr : x mod u <= y mod u) by (rewrite !Z.mod_eq by lia; rewrite Hqe; lia).
      rewrite Hqe. destruct (u <? 2 * (x mod u)) eqn:C1; cbn [orb].
      * apply Z.ltb_lt in C1. replace (u <? 2 * (y mod u)) with true by (symmetry; apply Z.ltb_lt; lia). cbn [orb]. lia.
      * destruct (2 * (x mod u) =? u) eqn:C2; cbn [andb]; [|destruct (_ || _); lia]. apply Z.eqb_eq in C2.
        destruct (u <? 2 * (y mod u)) eqn:C3; cbn [orb]; [destruct (Z.odd _); lia|]. apply Z.ltb_ge in C3.
        replace (2 * (y mod u) =? u) with true by (symmetry; apply Z.eqb_eq; lia). cbn [andb]. lia.
    + destruct (_ || _), (_ || _); lia.
  - pose proof (round_bounds x ltac:(lia)) as HX. pose proof (round_bounds y ltac:(lia)) as HY.
    assert (2 ^ (Z.log2 x + 1) <= 2 ^ Z.log2 y) by (apply Z.pow_le_mono_r; lia). lia.
Qed.

Lemma round_round x : 0 <= x -> round (round x) = round x.
Proof using Hprec.
  intros Hx. destruct (Z.eq_dec x 0) as [->|Hx0].
  { rewrite (round_divides 0) by (try lia; apply Z.divide_0_r). now rewrite (round_divides 0) by (try lia; apply Z.divide_0_r). }
  destruct (Z.eq_dec (lost_bits x) 0) as [H0|H0].
  { rewrite (round_divides x) by (try lia; rewrite H0; apply Z.divide_1_l). apply round_divides; [lia|rewrite H0; apply Z.divide_1_l]. }
  pose proof (round_bounds x ltac:(lia)) as HB. pose proof (round_nonneg x Hx) as HN. pose proof (lost_nonneg x) as Hk. pose proof (unit_pos x) as Hu.
  assert (HE : exists q, round x = q * 2 ^ lost_bits x) by (eexists; reflexivity). destruct HE as (q & HE). rewrite HE in *.
  apply round_short; [|exact Hk]. pose proof (Z.log2_nonneg x) as Hn.
  assert (Hk' : lost_bits x = Z.log2 x + 1 - prec) by (unfold FloatModel.lost_bits in *; lia).
  assert (HB' : 2 ^ (Z.log2 x + 1) = 2 ^ prec * 2 ^ lost_bits x) by (rewrite <- Z.pow_add_r by lia; f_equal; lia). nia.
Qed.

(** Rounding changes a number by at most one part in 2^prec. *)
Lemma round_error x : 0 <= x -> 2 ^ prec * Z.abs (round x - x) <= x.
Proof using Hprec.
  intros Hx. destruct (Z.eq_dec x 0) as [->|Hx0].
  { rewrite (round_divides 0) by (try lia; apply Z.divide_0_r). cbn. lia. }
  destruct (Z.eq_dec (lost_bits x) 0) as [H0|H0].
  { rewrite (round_divides x) by (try lia; rewrite H0; apply Z.divide_1_l). rewrite Z.sub_diag. cbn. lia. }
  destruct (Z.log2_spec x ltac:(lia)) as [Hl _]. pose proof (Z.log2_nonneg x) as Hn. pose proof (lost_nonneg x) as Hk.
  assert (Hk' : lost_bits x = Z.log2 x + 1 - prec) by (unfold FloatModel.lost_bits in *; lia).
  assert (HA : 2 * 2 ^ Z.log2 x = 2 ^ prec * 2 ^ lost_bits x).
  { rewrite <- Z.pow_add_r by lia. rewrite <- (Z.pow_1_r 2) at 1. rewrite <- Z.pow_add_r by lia. f_equal. lia. }
  assert (HE : 2 * Z.abs (round x - x) <= 2 ^ lost_bits x).
  { unfold FloatModel.round. cbv zeta. pose proof (unit_pos x) as Hu. set (u := 2 ^ lost_bits x) in *.
    pose proof (Z.div_mod x u ltac:(lia)) as HD. pose proof (Z.mod_pos_bound x u Hu) as HM.
    destruct (u <? 2 * (x mod u)) eqn:C1; cbn [orb].
    - apply Z.ltb_lt in C1. rewrite Z.abs_eq by nia. nia.
    - apply Z.ltb_ge in C1. destruct (2 * (x mod u) =? u) eqn:C2; cbn [andb].
      + apply Z.eqb_eq in C2. destruct (Z.odd _); [rewrite Z.abs_eq by nia|rewrite Z.abs_neq by nia]; nia.
      + rewrite Z.abs_neq by nia. nia. }
  pose proof (Z.pow_pos_nonneg 2 prec ltac:(lia) ltac:(lia)). nia.
Qed.
End RoundProofs.

(** ** Floats as weights *)
Section Floats.
Variables prec largest : Z.
Hypothesis Hprec : 1 <= prec.
Hypothesis Hlarge : 0 <= largest.

(** Finite floats *)
Definition fin : Type := { x : Z | fits prec largest x = true }.
Definition fin_value (a : fin) : Z := proj1_sig a.

Lemma fin_eq (a b : fin) : fin_value a = fin_value b -> a = b.
Proof. destruct a as [x Hx], b as [y Hy]. cbn. intros ->. f_equal. apply UIP_dec. apply bool_dec. Qed.
Lemma fin_spec (a : fin) : 0 <= fin_value a <= largest /\ round prec (fin_value a) = fin_value a.
Proof. destruct a as [x Hx]. cbn. unfold fits in Hx. rewrite !andb_true_iff, !Z.leb_le, Z.eqb_eq in Hx. tauto. Qed.

(** The float for an exact result *)
Definition float_of (x : Z) : option fin :=
  let y := round prec x in
  match bool_dec (fits prec largest y) true with left H => Some (exist _ y H) | right _ => None end.

(** [a <= b]; [None]: infinity *)
Definition float_leb (a b : option fin) : bool :=
  match a, b with
  | _, None => true
  | None, Some _ => false
  | Some x, Some y => fin_value x <=? fin_value y
  end.
(** [a + b] *)
Definition float_add (a b : option fin) : option fin :=
  match a, b with Some x, Some y => float_of (fin_value x + fin_value y) | _, _ => None end.

Lemma float_of_spec x : 0 <= x ->
  match float_of x with Some y => fin_value y = round prec x /\ round prec x <= largest | None => largest < round prec x end.
Proof using Hprec.
  intros Hx. unfold float_of. cbv zeta. destruct (bool_dec _ _) as [H|H].
  - cbn. split; [reflexivity|]. unfold fits in H. rewrite !andb_true_iff, !Z.leb_le in H. tauto.
  - apply not_true_is_false in H. unfold fits in H. rewrite (round_round prec Hprec x Hx), Z.eqb_refl, andb_true_r in H.
    rewrite andb_false_iff, !Z.leb_gt in H. pose proof (round_nonneg prec x Hx). lia.
Qed.

Lemma round_0 : round prec 0 = 0.
Proof. apply round_divides; [lia|]. apply Z.divide_0_r. Qed.

Lemma fits_zero : fits prec largest 0 = true.
Proof. unfold fits. rewrite round_0. cbn. now apply Z.leb_le. Qed.
Definition float_zero : fin := exist _ 0 fits_zero.

Lemma float_leb_total a b : float_leb a b = true \/ float_leb b a = true.
Proof. destruct a, b; cbn; rewrite ?Z.leb_le; auto; lia. Qed.
Lemma float_leb_trans a b c : float_leb a b = true -> float_leb b c = true -> float_leb a c = true.
Proof. destruct a, b, c; cbn; rewrite ?Z.leb_le; auto; try discriminate; lia. Qed.
Lemma float_leb_antisym a b : float_leb a b = true -> float_leb b a = true -> a = b.
Proof. destruct a, b; cbn; rewrite ?Z.leb_le; auto; try discriminate. intros H1 H2. f_equal. apply fin_eq. lia. Qed.
Lemma float_add_mono w a b : float_leb a b = true -> float_leb (float_add w a) (float_add w b) = true.
Proof using Hprec.
  destruct w as [w|], a as [a|], b as [b|]; cbn [float_leb float_add]; rewrite ?Z.leb_le; auto; try discriminate.
  - intros H. pose proof (fin_spec w). pose proof (fin_spec a). pose proof (fin_spec b).
    pose proof (float_of_spec (fin_value w + fin_value a) ltac:(lia)) as HA. pose proof (float_of_spec (fin_value w + fin_value b) ltac:(lia)) as HB.
    pose proof (round_mono prec Hprec (fin_value w + fin_value a) (fin_value w + fin_value b) ltac:(lia)).
    destruct (float_of (fin_value w + fin_value a)), (float_of (fin_value w + fin_value b)); cbn; auto; [apply Z.leb_le|]; lia.
  - intros _. destruct (float_of _); reflexivity.
Qed.
Lemma float_add_infl w a : float_leb (Some float_zero) w = true -> float_leb a (float_add w a) = true.
Proof using Hprec.
  destruct w as [w|], a as [a|]; cbn [float_leb float_add]; rewrite ?Z.leb_le; auto. intros H.
  pose proof (fin_spec w). pose proof (fin_spec a) as Ha. pose proof (float_of_spec (fin_value w + fin_value a) ltac:(lia)) as HA.
  pose proof (round_mono prec Hprec (fin_value a) (fin_value w + fin_value a) ltac:(lia)).
  destruct (float_of _); [apply Z.leb_le|reflexivity]. lia.
Qed.

(** The weights of a graph are non-negative floats. *)
Definition FloatWeights : Weights :=
  {| w_t := option fin; w_leb := float_leb; w_add := float_add; w_zero := Some float_zero; w_inf := None;
     w_leb_total := float_leb_total; w_leb_trans := float_leb_trans; w_leb_antisym := float_leb_antisym;
     w_add_mono := float_add_mono; w_add_infl := float_add_infl; w_zero_inf := eq_refl |}.
End Floats.

(** Python's float: 53 bits; the largest one is (2^53 - 1) * 2^971, and 2^-1074 is the unit. *)
Definition py_largest : Z := (2 ^ 53 - 1) * 2 ^ (971 + 1074).
Lemma py_prec : 1 <= 53. Proof. lia. Qed.
Lemma py_largest_nonneg : 0 <= py_largest. Proof. unfold py_largest. lia. Qed.
Definition PyFloat : Weights := FloatWeights 53 py_largest py_prec py_largest_nonneg.
