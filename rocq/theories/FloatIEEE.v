(** The model of floats agrees with the specification of IEEE 754 floats in the standard library of Coq (Coq.Floats.SpecFloat), for all non-negative
    floats: same numbers, same comparison, same sum. *)
From Coq Require Import Bool ZArith Lia SpecFloat.
From Verif Require Import Weight FloatModel.
Local Open Scope Z_scope.

Section IEEE.
Variables prec emax : Z.
Hypothesis Hprec : 1 <= prec.
Hypothesis Hemax : prec < emax.
Notation emin := (emin prec emax).
Notation fexp := (fexp prec emax).

(** The value of a float, in units of the smallest one, 2^emin. [None]: infinity *)
Definition sf_value (x : spec_float) : option Z :=
  match x with
  | S754_finite _ m e => Some (Zpos m * 2 ^ (e - emin))
  | S754_zero _ => Some 0
  | _ => None
  end.
Definition sf_nonneg (x : spec_float) : bool :=
  match x with S754_finite s _ _ | S754_infinity s => negb s | S754_zero _ => true | S754_nan => false end.
(** The largest float *)
Definition sf_largest : Z := (2 ^ prec - 1) * 2 ^ (emax - prec - emin).

Lemma digits_log2 m : Zpos (digits2_pos m) = Z.log2 (Zpos m) + 1.
Proof.
  induction m as [m IH|m IH|]; [| |reflexivity]; cbn [digits2_pos]; rewrite Pos2Z.inj_succ, IH.
  - rewrite Pos2Z.inj_xI, Z.log2_succ_double by lia. lia.
  - rewrite Pos2Z.inj_xO, Z.log2_double by lia. lia.
Qed.

(** What the record of a shift says about the number [x] before the shift by [n] bits *)
Definition shifted (x n : Z) (rc : shr_record) : Prop :=
  0 <= n /\ 0 <= shr_m rc /\ exists rem, x = shr_m rc * 2 ^ n + rem /\ 0 <= rem < 2 ^ n /\
  (shr_s rc || shr_r rc = false <-> rem = 0) /\ (shr_r rc = true <-> 2 ^ n <= 2 * rem) /\ (shr_r rc = true -> (shr_s rc = true <-> 2 ^ n < 2 * rem)).

Lemma shifted_1 x n rc : shifted x n rc -> shifted x (n + 1) (shr_1 rc).
Proof.
  intros (Hn & Hq & rem & Hx & Hr & H1 & H2 & H3). destruct rc as [q r s]. cbn [shr_m shr_r shr_s] in *.
  pose proof (Z.pow_pos_nonneg 2 n ltac:(lia) Hn) as Hp. assert (HP : 2 ^ (n + 1) = 2 * 2 ^ n) by (rewrite Z.pow_add_r by lia; lia).
  assert (HZ : (r || s = true) <-> rem <> 0).
  { rewrite orb_comm, <- not_false_iff_true, H1. reflexivity. }
  assert (HB : exists q' b, q = 2 * q' + (if b : bool then 1 else 0) /\ 0 <= q' /\ shr_1 (Build_shr_record q r s) = Build_shr_record q' b (r || s)).
  { destruct q as [|[p|p|]|p]; [exists 0, false|exists (Zpos p), true|exists (Zpos p), false|exists 0, true|lia]; cbn; repeat split; lia. }
  destruct HB as (q' & b & Hq' & Hq0 & ->). unfold shifted. cbn [shr_m shr_r shr_s]. split; [lia|]. split; [exact Hq0|].
  exists ((if b then 2 ^ n else 0) + rem). rewrite HP. destruct b.
  - split; [nia|]. split; [lia|]. rewrite orb_true_r. split; [split; [discriminate|lia]|]. split; [split; [lia|reflexivity]|]. intros _. rewrite HZ. lia.
  - split; [nia|]. split; [lia|]. rewrite orb_false_r. split; [|split; [split; [discriminate|lia]|discriminate]].
    rewrite orb_comm, H1. lia.
Qed.

Lemma shifted_iter p : forall x n rc, shifted x n rc -> shifted x (n + Zpos p) (iter_pos shr_1 p rc).
Proof.
  induction p as [p IH|p IH|]; intros x n rc H; cbn [iter_pos].
  - apply shifted_1 in H. apply IH in H. apply IH in H. replace (n + Zpos p~1) with (n + 1 + Zpos p + Zpos p) by lia. exact H.
  - apply IH in H. apply IH in H. replace (n + Zpos p~0) with (n + Zpos p + Zpos p) by lia. exact H.
  - now apply shifted_1.
Qed.

Lemma shr_spec x e n : 0 <= x -> 0 <= n -> exists rc, shr (shr_record_of_loc x loc_Exact) e n = (rc, e + n) /\ shifted x n rc.
Proof.
  intros Hx Hn. assert (H0 : shifted x 0 (Build_shr_record x false false)).
  { unfold shifted. cbn. split; [lia|]. split; [exact Hx|]. exists 0. rewrite Z.mul_1_r, Z.add_0_r. repeat split; try lia; discriminate. }
  destruct n as [|p|p]; [|exists (iter_pos shr_1 p (Build_shr_record x false false))|lia].
  - exists (Build_shr_record x false false). cbn. rewrite Z.add_0_r. split; [reflexivity|exact H0].
  - cbn. split; [reflexivity|]. apply (shifted_iter p) in H0. exact H0.
Qed.

(** Rounding after the shift *)
Lemma rounded x n rc : shifted x n rc ->
  round_nearest_even (shr_m rc) (loc_of_shr_record rc) =
  (if (2 ^ n <? 2 * (x mod 2 ^ n)) || ((2 * (x mod 2 ^ n) =? 2 ^ n) && Z.odd (x / 2 ^ n)) then x / 2 ^ n + 1 else x / 2 ^ n).
Proof.
  intros (Hn & Hq & rem & Hx & Hr & H1 & H2 & H3). destruct rc as [q r s]. cbn [shr_m shr_r shr_s] in *.
  assert (Hd : x / 2 ^ n = q) by (symmetry; apply (Z.div_unique x (2 ^ n) q rem); lia).
  assert (Hm : x mod 2 ^ n = rem) by (symmetry; apply (Z.mod_unique x (2 ^ n) q rem); lia). rewrite Hd, Hm.
  destruct r.
  - pose proof (proj1 H2 eq_refl) as Hle. specialize (H3 eq_refl). destruct s; cbn [loc_of_shr_record round_nearest_even].
    + replace (2 ^ n <? 2 * rem) with true by (symmetry; apply Z.ltb_lt; now apply H3). reflexivity.
    + assert (~ 2 ^ n < 2 * rem) by (intros Hc; apply H3 in Hc; discriminate).
      replace (2 ^ n <? 2 * rem) with false by (symmetry; apply Z.ltb_ge; lia). replace (2 * rem =? 2 ^ n) with true by (symmetry; apply Z.eqb_eq; lia).
      cbn. rewrite <- Z.negb_even. destruct (Z.even q); reflexivity.
  - assert (~ 2 ^ n <= 2 * rem) by (intros Hc; apply H2 in Hc; discriminate).
    replace (2 ^ n <? 2 * rem) with false by (symmetry; apply Z.ltb_ge; lia). replace (2 * rem =? 2 ^ n) with false by (symmetry; apply Z.eqb_neq; lia).
    destruct s; reflexivity.
Qed.

Lemma largest_nonneg : 0 <= sf_largest.
Proof.
  unfold sf_largest. apply Z.mul_nonneg_nonneg; [pose proof (Z.pow_pos_nonneg 2 prec); lia|]. apply Z.pow_nonneg. lia.
Qed.

(** A float with normalized mantissa *)
Definition normalized (m : positive) (e : Z) : Prop :=
  emin <= e /\ Zpos m < 2 ^ prec /\ (emin < e -> 2 ^ (prec - 1) <= Zpos m).

Lemma canonical_normalized m e : canonical_mantissa prec emax m e = true <-> normalized m e.
Proof.
  unfold canonical_mantissa, normalized, SpecFloat.fexp. rewrite <- (Zeq_is_eq_bool (Z.max _ _) e), digits_log2.
  destruct (Z.log2_spec (Zpos m) ltac:(lia)) as [Hl Hh]. unfold Z.succ in Hh.
  assert (HA : Z.log2 (Zpos m) < prec <-> Zpos m < 2 ^ prec) by (symmetry; apply Z.log2_lt_pow2; lia).
  assert (HB : prec - 1 <= Z.log2 (Zpos m) <-> 2 ^ (prec - 1) <= Zpos m) by (symmetry; apply Z.log2_le_pow2; lia).
  rewrite <- HA, <- HB. lia.
Qed.

Lemma largest_iff m e : normalized m e -> (e <= emax - prec <-> Zpos m * 2 ^ (e - emin) <= sf_largest).
Proof.
  intros (He & Hm & Hn). unfold sf_largest. pose proof (Z.pow_pos_nonneg 2 (e - emin) ltac:(lia) ltac:(lia)) as Hp.
  assert (Hem : emin <= emax - prec) by (unfold SpecFloat.emin; lia).
  pose proof (Z.pow_pos_nonneg 2 (emax - prec - emin) ltac:(lia) ltac:(lia)) as Hq. split; intros H.
  - transitivity ((2 ^ prec - 1) * 2 ^ (e - emin)); [nia|]. apply Z.mul_le_mono_nonneg_l; [lia|]. apply Z.pow_le_mono_r; lia.
  - destruct (Z_le_gt_dec e (emax - prec)) as [Hd|Hd]; [exact Hd|exfalso]. specialize (Hn ltac:(lia)).
    assert (H2 : 2 * 2 ^ (emax - prec - emin) <= 2 ^ (e - emin)).
    { replace (2 * 2 ^ (emax - prec - emin)) with (2 ^ (emax - prec - emin + 1)) by (rewrite Z.pow_add_r by lia; lia). apply Z.pow_le_mono_r; lia. }
    assert (H3 : 2 ^ prec = 2 * 2 ^ (prec - 1)) by (replace (2 ^ prec) with (2 ^ (prec - 1 + 1)) by (f_equal; lia); rewrite Z.pow_add_r by lia; lia).
    pose proof (Z.pow_pos_nonneg 2 (prec - 1) ltac:(lia) ltac:(lia)). nia.
Qed.

(** Rounding in the standard library is [round]. *)
Lemma binary_round_spec mx ex : emin <= ex -> let x := Zpos mx * 2 ^ (ex - emin) in
  exists m e, normalized m e /\ round prec x = Zpos m * 2 ^ (e - emin) /\
  binary_round prec emax false mx ex = (if e <=? emax - prec then S754_finite false m e else S754_infinity false).
Proof.
  intros Hex x. pose proof (Z.pow_pos_nonneg 2 (ex - emin) ltac:(lia) ltac:(lia)) as Hpx. assert (Hx : 0 < x) by (unfold x; lia).
  assert (Hlx : Z.log2 x = Z.log2 (Zpos mx) + (ex - emin)) by (unfold x; rewrite Z.log2_mul_pow2 by lia; lia).
  set (k := lost_bits prec x). pose proof (lost_nonneg prec x) as Hk. fold k in Hk.
  assert (HF : fexp (Zpos (digits2_pos mx) + ex) = emin + k).
  { unfold k, lost_bits, SpecFloat.fexp. rewrite digits_log2, Hlx. lia. }
  (* the first alignment *)
  assert (HS : exists mz ez, shl_align mx ex (fexp (Zpos (digits2_pos mx) + ex)) = (mz, ez) /\ emin <= ez <= emin + k /\ Zpos mz * 2 ^ (ez - emin) = x).
  { rewrite HF. unfold shl_align. destruct (emin + k - ex) as [|d|d] eqn:ED; [exists mx, ex|exists mx, ex|exists (shift_pos d mx), (emin + k)]; split; try reflexivity.
    1, 2: split; [lia|reflexivity].
    split; [lia|]. rewrite shift_pos_correct, Z.pow_pos_fold. rewrite (Z.mul_comm (2 ^ Zpos d)). rewrite <- Z.mul_assoc, <- Z.pow_add_r by lia.
    unfold x. do 2 f_equal. lia. }
  destruct HS as (mz & ez & HS & Hez & Hmz). unfold binary_round. rewrite HS. cbv beta iota.
  assert (Hlz : Z.log2 (Zpos mz) + (ez - emin) = Z.log2 x) by (rewrite <- Hmz, Z.log2_mul_pow2 by lia; lia).
  unfold binary_round_aux.
  assert (HF1 : fexp (Zdigits2 (Zpos mz) + ez) - ez = emin + k - ez).
  { cbn [Zdigits2]. unfold k, lost_bits, SpecFloat.fexp. rewrite digits_log2, <- Hlz. lia. }
  set (n := emin + k - ez) in *.
  destruct (shr_spec (Zpos mz) ez n ltac:(lia) ltac:(unfold n; lia)) as (rc & HSH & HSD).
  unfold shr_fexp at 1. rewrite HF1, HSH. cbv beta iota. rewrite (rounded (Zpos mz) n rc HSD).
  (* the rounded mantissa *)
  assert (Hn : 0 <= n) by (unfold n; lia). pose proof (Z.pow_pos_nonneg 2 n ltac:(lia) Hn) as Hp2n.
  pose proof (Z.pow_pos_nonneg 2 (ez - emin) ltac:(lia) ltac:(lia)) as Hp2e.
  assert (Hku : 2 ^ k = 2 ^ n * 2 ^ (ez - emin)) by (rewrite <- Z.pow_add_r by lia; f_equal; unfold n; lia).
  assert (Hdiv : x / 2 ^ k = Zpos mz / 2 ^ n) by (rewrite <- Hmz, Hku; apply Z.div_mul_cancel_r; lia).
  assert (Hmod : x mod 2 ^ k = (Zpos mz mod 2 ^ n) * 2 ^ (ez - emin)) by (rewrite <- Hmz, Hku; apply Z.mul_mod_distr_r; lia).
  set (q := if _ || _ then Zpos mz / 2 ^ n + 1 else Zpos mz / 2 ^ n).
  assert (Hround : round prec x = q * 2 ^ k).
  { unfold round. fold k. cbv zeta. rewrite Hdiv, Hmod. unfold q. f_equal.
    replace (2 ^ k <? 2 * (Zpos mz mod 2 ^ n * 2 ^ (ez - emin))) with (2 ^ n <? 2 * (Zpos mz mod 2 ^ n)).
    2: { rewrite Hku. apply eq_true_iff_eq. rewrite !Z.ltb_lt. nia. }
    replace (2 * (Zpos mz mod 2 ^ n * 2 ^ (ez - emin)) =? 2 ^ k) with (2 * (Zpos mz mod 2 ^ n) =? 2 ^ n); [reflexivity|].
    rewrite Hku. apply eq_true_iff_eq. rewrite !Z.eqb_eq. nia. }
  clearbody q. pose proof (round_bounds prec Hprec x Hx) as HB. pose proof (Z.pow_pos_nonneg 2 k ltac:(lia) Hk) as Hp2k.
  pose proof (Z.log2_nonneg x) as Hl0. pose proof (Z.pow_pos_nonneg 2 (Z.log2 x) ltac:(lia) Hl0) as Hpl.
  assert (Hq0 : 0 < q) by (rewrite Hround in HB; nia).
  assert (Hle : Z.log2 x + 1 <= prec + k) by (unfold k, lost_bits; lia).
  assert (Hq1 : q <= 2 ^ prec).
  { assert (2 ^ (Z.log2 x + 1) <= 2 ^ prec * 2 ^ k); [|rewrite Hround in HB; nia]. rewrite <- Z.pow_add_r by lia. apply Z.pow_le_mono_r; lia. }
  assert (Hq2 : 0 < k -> 2 ^ (prec - 1) <= q).
  { intros Hk0. assert (HA : 2 ^ Z.log2 x = 2 ^ (prec - 1) * 2 ^ k) by (rewrite <- Z.pow_add_r by lia; f_equal; unfold k, lost_bits in *; lia).
    rewrite Hround, HA in HB. nia. }
  assert (HP : 2 ^ prec = 2 * 2 ^ (prec - 1)) by (replace (2 ^ prec) with (2 ^ (prec - 1 + 1)) by (f_equal; lia); rewrite Z.pow_add_r by lia; lia).
  pose proof (Z.pow_pos_nonneg 2 (prec - 1) ltac:(lia) ltac:(lia)) as Hpp.
  replace (ez + n) with (emin + k) by (unfold n; lia). unfold shr_fexp. destruct (Z.eq_dec q (2 ^ prec)) as [He|Hne].
  - (* carry *)
    assert (HD : Zdigits2 q = prec + 1).
    { destruct q as [|q|q]; [lia| |lia]. cbn [Zdigits2]. rewrite digits_log2, He, Z.log2_pow2 by lia. lia. }
    assert (HF2 : fexp (Zdigits2 q + (emin + k)) - (emin + k) = 1) by (rewrite HD; unfold SpecFloat.fexp; lia).
    rewrite HF2. destruct (shr_spec q (emin + k) 1 ltac:(lia) ltac:(lia)) as (rc2 & HSH2 & (_ & _ & rem & HX2 & HR2 & _)).
    rewrite HSH2. cbv beta iota. rewrite Z.pow_1_r in *.
    assert (Hm2 : shr_m rc2 = 2 ^ (prec - 1)) by lia. rewrite Hm2. destruct (2 ^ (prec - 1)) as [|m|m] eqn:Em; [lia| |lia].
    exists m, (emin + k + 1). split; [|split; [|reflexivity]].
    + unfold normalized. rewrite Em. lia.
    + rewrite Hround. replace (emin + k + 1 - emin) with (1 + k) by lia. rewrite Z.pow_add_r by lia. rewrite Z.pow_1_r. nia.
  - assert (HN : Zdigits2 q <= prec).
    { destruct q as [|q|q]; [lia| |lia]. cbn [Zdigits2]. rewrite digits_log2. assert (Z.log2 (Zpos q) < prec) by (apply Z.log2_lt_pow2; lia). lia. }
    assert (HF2 : fexp (Zdigits2 q + (emin + k)) - (emin + k) <= 0) by (unfold SpecFloat.fexp; lia).
    assert (HS2 : shr (shr_record_of_loc q loc_Exact) (emin + k) (fexp (Zdigits2 q + (emin + k)) - (emin + k)) = (Build_shr_record q false false, emin + k)).
    { clear HF1. destruct (fexp (Zdigits2 q + (emin + k)) - (emin + k)); [reflexivity|lia|reflexivity]. }
    rewrite HS2. cbn [shr_m]. destruct q as [|m|m]; [lia| |lia]. exists m, (emin + k). split; [|split; [|reflexivity]].
    + unfold normalized. split; [lia|]. split; [lia|]. intros. apply Hq2. lia.
    + rewrite Hround. do 2 f_equal. lia.
Qed.

(** Non-negative valid floats are numbers of the model, and all numbers of the model are. *)
Lemma ieee_numbers x : valid_binary prec emax x = true -> sf_nonneg x = true ->
  match sf_value x with Some v => fits prec sf_largest v = true | None => True end.
Proof.
  intros Hv Hs. pose proof largest_nonneg as HL. destruct x as [s|s| |s m e]; cbn [sf_value]; auto.
  - unfold fits. rewrite round_0, Z.eqb_refl. cbn. now apply Z.leb_le.
  - cbn [valid_binary] in Hv. unfold bounded in Hv. rewrite andb_true_iff in Hv. destruct Hv as [Hc He]. apply canonical_normalized in Hc.
    apply Zle_bool_imp_le in He. pose proof (proj1 (largest_iff m e Hc) He) as HL2. destruct Hc as (C1 & C2 & C3).
    unfold fits. rewrite round_short; [|exact Hprec|lia|lia]. rewrite Z.eqb_refl, andb_true_r. rewrite andb_true_iff, !Z.leb_le. split; [|exact HL2].
    pose proof (Z.pow_nonneg 2 (e - emin)). nia.
Qed.

Lemma ieee_all_numbers v : fits prec sf_largest v = true -> exists x, valid_binary prec emax x = true /\ sf_nonneg x = true /\ sf_value x = Some v.
Proof.
  intros Hf. unfold fits in Hf. rewrite !andb_true_iff, !Z.leb_le, Z.eqb_eq in Hf. destruct Hf as ((H0 & Hr) & Hl).
  destruct v as [|p|p]; [exists (S754_zero false); auto| |lia].
  destruct (binary_round_spec p emin ltac:(lia)) as (m & e & Hn & HR & _). rewrite Z.sub_diag, Z.pow_0_r, Z.mul_1_r in HR.
  exists (S754_finite false m e). cbn [valid_binary sf_nonneg sf_value negb]. rewrite <- HR, Hr. split; [|split; reflexivity].
  unfold bounded. rewrite andb_true_iff. split; [now apply canonical_normalized|]. apply Zle_imp_le_bool. apply (largest_iff m e Hn). rewrite <- HR, Hr. exact Hl.
Qed.

(** Comparison *)
Definition value_leb (a b : option Z) : bool :=
  match a, b with _, None => true | None, Some _ => false | Some x, Some y => x <=? y end.

Lemma finite_compare m1 e1 m2 e2 : normalized m1 e1 -> normalized m2 e2 -> e1 < e2 -> Zpos m1 * 2 ^ (e1 - emin) < Zpos m2 * 2 ^ (e2 - emin).
Proof.
  intros (A1 & A2 & A3) (B1 & B2 & B3) Hlt. specialize (B3 ltac:(lia)).
  pose proof (Z.pow_pos_nonneg 2 (e1 - emin) ltac:(lia) ltac:(lia)).
  assert (H2 : 2 * 2 ^ (e1 - emin) <= 2 ^ (e2 - emin)).
  { replace (2 * 2 ^ (e1 - emin)) with (2 ^ (e1 - emin + 1)) by (rewrite Z.pow_add_r by lia; lia). apply Z.pow_le_mono_r; lia. }
  assert (H3 : 2 ^ prec = 2 * 2 ^ (prec - 1)) by (replace (2 ^ prec) with (2 ^ (prec - 1 + 1)) by (f_equal; lia); rewrite Z.pow_add_r by lia; lia).
  pose proof (Z.pow_pos_nonneg 2 (prec - 1) ltac:(lia) ltac:(lia)). nia.
Qed.

Lemma ieee_leb x y : valid_binary prec emax x = true -> sf_nonneg x = true -> valid_binary prec emax y = true -> sf_nonneg y = true ->
  SFleb x y = value_leb (sf_value x) (sf_value y).
Proof.
  intros Vx Nx Vy Ny. unfold SFleb.
  destruct x as [sx|[|]| |[|] mx ex], y as [sy|[|]| |[|] my ey]; try discriminate; cbn [SFcompare sf_value value_leb]; try reflexivity.
  - symmetry. apply Z.leb_le. pose proof (Z.pow_nonneg 2 (ey - emin)). lia.
  - cbn [valid_binary] in Vx. unfold bounded in Vx. rewrite andb_true_iff, canonical_normalized in Vx. destruct Vx as [(C1 & _) _].
    symmetry. apply Z.leb_gt. pose proof (Z.pow_pos_nonneg 2 (ex - emin) ltac:(lia) ltac:(lia)). lia.
  - cbn [valid_binary] in Vx, Vy. unfold bounded in Vx, Vy. rewrite andb_true_iff, canonical_normalized in Vx, Vy. destruct Vx as [Cx _], Vy as [Cy _].
    destruct (Z.compare_spec ex ey) as [He|He|He].
    + subst ey. change (Pos.compare_cont Eq mx my) with (Pos.compare mx my).
      pose proof (Z.pow_pos_nonneg 2 (ex - emin) ltac:(lia) ltac:(destruct Cx; lia)).
      destruct (Pos.compare_spec mx my) as [Hm|Hm|Hm]; symmetry; [apply Z.leb_le|apply Z.leb_le|apply Z.leb_gt]; nia.
    + pose proof (finite_compare mx ex my ey Cx Cy He). symmetry. apply Z.leb_le. lia.
    + pose proof (finite_compare my ey mx ex Cy Cx He). symmetry. apply Z.leb_gt. lia.
Qed.

(** Addition *)
Definition value_add (a b : option Z) : option Z :=
  match a, b with
  | Some x, Some y => if round prec (x + y) <=? sf_largest then Some (round prec (x + y)) else None
  | _, _ => None
  end.

Lemma align_value m e ez : ez <= e -> Zpos (fst (shl_align m e ez)) = Zpos m * 2 ^ (e - ez).
Proof.
  intros H. unfold shl_align. destruct (ez - e) as [|d|d] eqn:ED; cbn [fst].
  - replace (e - ez) with 0 by lia. lia.
  - lia.
  - rewrite shift_pos_correct, Z.pow_pos_fold. replace (e - ez) with (Zpos d) by lia. lia.
Qed.

Lemma ieee_add x y : valid_binary prec emax x = true -> sf_nonneg x = true -> valid_binary prec emax y = true -> sf_nonneg y = true ->
  sf_value (SFadd prec emax x y) = value_add (sf_value x) (sf_value y) /\ sf_nonneg (SFadd prec emax x y) = true /\
  valid_binary prec emax (SFadd prec emax x y) = true.
Proof.
  intros Vx Nx Vy Ny. pose proof (ieee_numbers x Vx Nx) as Fx. pose proof (ieee_numbers y Vy Ny) as Fy.
  assert (HF : forall v, fits prec sf_largest v = true -> 0 <= v <= sf_largest /\ round prec v = v).
  { intros v Hf. unfold fits in Hf. rewrite !andb_true_iff, !Z.leb_le, Z.eqb_eq in Hf. tauto. }
  pose proof largest_nonneg as HL.
  destruct x as [sx|[|]| |[|] mx ex], y as [sy|[|]| |[|] my ey]; try discriminate; cbn [SFadd sf_value value_add] in *; try (repeat split; assumption); try (split; [reflexivity|split; reflexivity]).
  - rewrite Z.add_0_r, round_0. replace (0 <=? sf_largest) with true by (symmetry; now apply Z.leb_le). destruct (Bool.eqb sx sy); auto.
  - destruct (HF _ Fy) as [H1 H2]. rewrite Z.add_0_l, H2. replace (_ <=? sf_largest) with true by (symmetry; apply Z.leb_le; lia). auto.
  - destruct (HF _ Fx) as [H1 H2]. rewrite Z.add_0_r, H2. replace (_ <=? sf_largest) with true by (symmetry; apply Z.leb_le; lia). auto.
  - cbn [valid_binary] in Vx, Vy. unfold bounded in Vx, Vy. rewrite andb_true_iff, canonical_normalized in Vx, Vy. destruct Vx as [(X1 & _) _], Vy as [(Y1 & _) _].
    cbn [cond_Zopp]. set (ez := Z.min ex ey). rewrite !align_value by (unfold ez; lia).
    assert (HS : exists p, Zpos mx * 2 ^ (ex - ez) + Zpos my * 2 ^ (ey - ez) = Zpos p /\ Zpos p * 2 ^ (ez - emin) = Zpos mx * 2 ^ (ex - emin) + Zpos my * 2 ^ (ey - emin)).
    { pose proof (Z.pow_pos_nonneg 2 (ex - ez) ltac:(lia) ltac:(unfold ez; lia)). pose proof (Z.pow_pos_nonneg 2 (ey - ez) ltac:(lia) ltac:(unfold ez; lia)).
      exists (Z.to_pos (Zpos mx * 2 ^ (ex - ez) + Zpos my * 2 ^ (ey - ez))). rewrite Z2Pos.id by lia. split; [reflexivity|].
      rewrite Z.mul_add_distr_r, <- !Z.mul_assoc, <- !Z.pow_add_r by (unfold ez; lia). f_equal; do 2 f_equal; lia. }
    destruct HS as (p & HS1 & HS2). rewrite HS1. cbn [binary_normalize].
    destruct (binary_round_spec p ez ltac:(unfold ez; lia)) as (m & e & Hn & HR & HB). rewrite HB. rewrite HS2 in HR. rewrite HR.
    pose proof (largest_iff m e Hn) as HI. destruct (Z.leb_spec e (emax - prec)) as [He|He].
    + replace (_ <=? sf_largest) with true by (symmetry; apply Z.leb_le; tauto). split; [reflexivity|]. split; [reflexivity|].
      cbn [valid_binary]. unfold bounded. rewrite andb_true_iff. split; [now apply canonical_normalized|]. now apply Zle_imp_le_bool.
    + replace (_ <=? sf_largest) with false by (symmetry; apply Z.leb_gt; lia). auto.
Qed.

(** ** The weights of the model *)
Notation num := (option (fin prec sf_largest)).
(** The valid non-negative float [x] (not NaN) is the number [a] of the model. *)
Definition is_number (x : spec_float) (a : num) : Prop :=
  valid_binary prec emax x = true /\ sf_nonneg x = true /\ sf_value x = option_map (fin_value prec sf_largest) a.

Lemma ieee_agrees :
  (forall x, valid_binary prec emax x = true -> sf_nonneg x = true -> exists a, is_number x a) /\
  (forall a, exists x, is_number x a) /\
  (forall x y a b, is_number x a -> is_number y b ->
     SFleb x y = w_leb (FloatWeights prec sf_largest Hprec largest_nonneg) a b /\
     is_number (SFadd prec emax x y) (w_add (FloatWeights prec sf_largest Hprec largest_nonneg) a b)).
Proof.
  split; [|split].
  - intros x Vx Nx. pose proof (ieee_numbers x Vx Nx) as F. destruct (sf_value x) as [v|] eqn:Ev.
    + exists (Some (exist _ v F)). repeat split; auto.
    + exists None. repeat split; auto.
  - intros [[v Hv]|].
    + destruct (ieee_all_numbers v Hv) as (x & H1 & H2 & H3). exists x. repeat split; auto.
    + exists (S754_infinity false). repeat split.
  - intros x y a b (Vx & Nx & Ex) (Vy & Ny & Ey). split.
    + rewrite (ieee_leb x y Vx Nx Vy Ny), Ex, Ey. destruct a, b; reflexivity.
    + destruct (ieee_add x y Vx Nx Vy Ny) as (H1 & H2 & H3). repeat split; auto. rewrite H1, Ex, Ey. destruct a as [a|], b as [b|]; try reflexivity.
      cbn [option_map value_add w_add FloatWeights float_add]. pose proof (fin_spec prec sf_largest a). pose proof (fin_spec prec sf_largest b).
      pose proof (float_of_spec prec sf_largest Hprec (fin_value prec sf_largest a + fin_value prec sf_largest b) ltac:(lia)) as HS.
      destruct (float_of _ _ _) as [c|].
      * destruct HS as [HS1 HS2]. replace (_ <=? sf_largest) with true by (symmetry; now apply Z.leb_le). cbn. now rewrite HS1.
      * replace (_ <=? sf_largest) with false by (symmetry; now apply Z.leb_gt). reflexivity.
Qed.
End IEEE.

(** Python's float *)
Lemma py_largest_eq : sf_largest 53 1024 = py_largest.
Proof. vm_compute. reflexivity. Qed.
