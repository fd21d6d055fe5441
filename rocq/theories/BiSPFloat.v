(** The bidirectional search of shortest paths with floats: errors. *)
From Coq Require Import List ZArith Bool Lia.
From Verif Require Import Machine GearSpec Spec TraversalSpec Common PathsModel PathModel PathSpec Weight WeightSpec HeapModel DijkstraModel FloatModel FloatSpec FloatProofs
  BiSPModel BiSPSpec BiSPSide BiSPProofs BiSPMore BiSPRun BiSPRoundSpec BiSPRound BiSPRoundRun.
Import ListNotations.
Local Open Scope Z_scope.

Section Sums.
Context {I : Type}.
Variables prec largest : Z.
Hypothesis Hprec : 1 <= prec.
Hypothesis Hlarge : 0 <= largest.
Notation FW := (FloatWeights prec largest Hprec Hlarge).
Notation value := (fin_value prec largest).
Notation esum := (exact_sum prec largest).
Notation rsum := (rsum prec largest).
Notation B := (2 ^ prec).
Notation edges := (list (option (fin prec largest) * I)).

Lemma float_rounded : rounded_addition FW.
Proof.
  split.
  - intros [a|] [b|]; cbn; try reflexivity. now rewrite Z.add_comm.
  - intros [a|]; [|reflexivity]. cbn [w_add w_zero FloatWeights float_add]. change (value (float_zero prec largest Hlarge)) with 0. rewrite Z.add_0_r.
    pose proof (fin_spec prec largest a) as (H1 & H2). pose proof (float_of_spec prec largest Hprec (value a) ltac:(lia)) as H. rewrite H2 in H.
    destruct (float_of prec largest (value a)) as [b|]; [|lia]. f_equal. apply fin_eq. tauto.
Qed.

Lemma up_lift k m x y : 0 <= y -> at_most_up prec k x y -> at_most_up prec (k + m) x y.
Proof using Hprec.
  unfold at_most_up. intros Hy H. rewrite Nat2Z.inj_add, !Z.pow_add_r by lia. pose proof (B_pos prec Hprec) as HB.
  pose proof (pow_mono_nat B (B + 1) k ltac:(lia)). pose proof (pow_mono_nat B (B + 1) m ltac:(lia)).
  set (a := B ^ Z.of_nat k) in *. set (b := B ^ Z.of_nat m) in *. set (c := (B + 1) ^ Z.of_nat k) in *. set (d := (B + 1) ^ Z.of_nat m) in *.
  transitivity (b * (a * x)); [nia|]. transitivity (b * (c * y)); [nia|]. assert (0 <= c * y) by nia. nia.
Qed.
Lemma down_lift k m x y : 0 <= y -> at_most_down prec k x y -> at_most_down prec (k + m) x y.
Proof using Hprec.
  unfold at_most_down. intros Hy H. rewrite Nat2Z.inj_add, !Z.pow_add_r by lia. pose proof (B_pos prec Hprec) as HB.
  pose proof (pow_mono_nat (B - 1) B k ltac:(lia)). pose proof (pow_mono_nat (B - 1) B m ltac:(lia)).
  set (a := B ^ Z.of_nat k) in *. set (b := B ^ Z.of_nat m) in *. set (c := (B - 1) ^ Z.of_nat k) in *. set (d := (B - 1) ^ Z.of_nat m) in *.
  transitivity (d * (c * x)); [nia|]. transitivity (d * (a * y)); [nia|]. assert (0 <= a * y) by nia. nia.
Qed.
Lemma up_sum k x1 y1 x2 y2 : at_most_up prec k x1 y1 -> at_most_up prec k x2 y2 -> at_most_up prec k (x1 + x2) (y1 + y2).
Proof. unfold at_most_up. lia. Qed.
Lemma down_sum k x1 y1 x2 y2 : at_most_down prec k x1 y1 -> at_most_down prec k x2 y2 -> at_most_down prec k (x1 + x2) (y1 + y2).
Proof. unfold at_most_down. lia. Qed.
Lemma up_round k x y : 0 <= x -> at_most_up prec k x y -> at_most_up prec (S k) (round prec x) y.
Proof using Hprec.
  unfold at_most_up. intros Hx H. rewrite !pow_S. pose proof (round_up prec Hprec x Hx) as HU. pose proof (B_pos prec Hprec) as HB. pose proof (pow_mono_nat B (B + 1) k ltac:(lia)).
  set (a := B ^ Z.of_nat k) in *. set (c := (B + 1) ^ Z.of_nat k) in *. transitivity (a * ((B + 1) * x)); nia.
Qed.
Lemma down_round k x y : 0 <= y -> at_most_down prec k x y -> at_most_down prec (S k) x (round prec y).
Proof using Hprec.
  unfold at_most_down. intros Hy H. rewrite !pow_S. pose proof (round_down prec Hprec y Hy) as HU. pose proof (B_pos prec Hprec) as HB. pose proof (pow_mono_nat (B - 1) B k ltac:(lia)).
  set (a := B ^ Z.of_nat k) in *. set (c := (B - 1) ^ Z.of_nat k) in *. transitivity (a * ((B - 1) * y)); nia.
Qed.

Lemma esum_app (p q : edges) : esum (p ++ q) = match esum p, esum q with Some x, Some y => Some (x + y) | _, _ => None end.
Proof.
  induction p as [|[[a|] j] p IH]; cbn [app exact_sum].
  - destruct (esum q); [f_equal; lia|reflexivity].
  - rewrite IH. destruct (esum p), (esum q); try reflexivity. f_equal. lia.
  - reflexivity.
Qed.
Lemma esum_rev (p : edges) : esum (rev p) = esum p.
Proof. induction p as [|[w j] p IH]; [reflexivity|]. cbn [rev]. rewrite esum_snoc, IH. cbn [exact_sum]. destruct w as [w|], (esum p); try reflexivity. f_equal. lia. Qed.

(** The rounded sum from both ends, without largest float *)
Definition csum (p1 p2 : edges) : Z := round prec (rsum p1 + rsum (rev p2)).
Lemma csum_errors p1 p2 x : esum (p1 ++ p2) = Some x -> at_most_up prec (pred (length (p1 ++ p2))) (csum p1 p2) x /\ at_most_down prec (pred (length (p1 ++ p2))) x (csum p1 p2).
Proof using Hprec.
  rewrite esum_app. destruct (esum p1) as [x1|] eqn:E1; [|discriminate]. destruct (esum p2) as [x2|] eqn:E2; [|discriminate]. intros [= <-].
  pose proof (rsum_errors prec largest Hprec p1 x1 E1) as (U1 & D1). pose proof (rsum_errors prec largest Hprec (rev p2) x2 ltac:(now rewrite esum_rev)) as (U2 & D2).
  rewrite rev_length in U2, D2. pose proof (rsum_nonneg prec largest p1) as N1. pose proof (rsum_nonneg prec largest (rev p2)) as N2.
  pose proof (esum_nonneg prec largest p1 x1 E1) as M1. pose proof (esum_nonneg prec largest p2 x2 E2) as M2. unfold csum.
  destruct p1 as [|e1 p1]; [cbn in E1; injection E1 as <-; change (FloatProofs.rsum prec largest (@nil (option (fin prec largest) * I))) with 0; cbn [app]; rewrite !Z.add_0_l, (rsum_round prec largest Hprec); auto|].
  destruct p2 as [|e2 p2]; [cbn in E2; injection E2 as <-; cbn [rev]; change (FloatProofs.rsum prec largest (@nil (option (fin prec largest) * I))) with 0; rewrite app_nil_r, !Z.add_0_r, (rsum_round prec largest Hprec); auto|].
  rewrite app_length. cbn [length pred] in *. replace (pred (S (length p1) + S (length p2)))%nat with (S (length p1 + length p2)) by lia. split.
  - apply up_round; [lia|]. apply up_sum; [now apply up_lift|rewrite Nat.add_comm; now apply up_lift].
  - apply down_round; [lia|]. apply down_sum; [now apply down_lift|rewrite Nat.add_comm; now apply down_lift].
Qed.

Lemma fold_right_rev (p : edges) : fold_right (fun e d => w_add FW (fst e) d) (w_zero FW) p = walk_weight FW (rev p).
Proof. unfold walk_weight. rewrite <- (rev_involutive p) at 1. rewrite fold_left_rev_right. reflexivity. Qed.

Lemma both_ends_csum (p : edges) c : length_from_both_ends FW p c -> exists p1 p2, p = p1 ++ p2 /\
  match c with Some f => value f = csum p1 p2 /\ exists x, esum p = Some x | None => forall x, esum p = Some x -> largest < csum p1 p2 end.
Proof.
  intros (p1 & p2 & -> & ->). change (w_t FW) with (option (fin prec largest)) in *. exists p1, p2. split; [reflexivity|]. rewrite fold_right_rev. change (fold_left _ p1 _) with (walk_weight FW p1).
  pose proof (walk_weight_rsum prec largest Hprec Hlarge p1) as W1. pose proof (walk_weight_rsum prec largest Hprec Hlarge (rev p2)) as W2. rewrite esum_rev in W2.
  pose proof (rsum_nonneg prec largest p1) as N1. pose proof (rsum_nonneg prec largest (rev p2)) as N2. rewrite esum_app.
  assert (M1 : rsum p1 <= csum p1 p2). { rewrite <- (rsum_round prec largest Hprec p1). apply round_mono; [exact Hprec|lia]. }
  assert (M2 : rsum (rev p2) <= csum p1 p2) by (rewrite <- (rsum_round prec largest Hprec (rev p2)); apply round_mono; [exact Hprec|lia]).
  destruct (walk_weight FW p1) as [f1|]; [destruct (walk_weight FW (rev p2)) as [f2|]|].
  - destruct W1 as (V1 & x1 & X1), W2 as (V2 & x2 & X2). change (w_add FW (Some f1) (Some f2)) with (float_of prec largest (value f1 + value f2)). rewrite V1, V2, X1, X2.
    pose proof (float_of_spec prec largest Hprec (rsum p1 + rsum (rev p2)) ltac:(lia)) as HS. destruct (float_of _ _ _) as [g|].
    + split; [unfold csum; tauto|now eexists].
    + intros x _. exact HS.
  - cbn. intros x Hx. destruct (esum p1); [|discriminate]. destruct (esum p2) as [x2|]; [|discriminate]. specialize (W2 x2 eq_refl). lia.
  - cbn. intros x Hx. destruct (esum p1) as [x1|]; [|discriminate]. specialize (W1 x1 eq_refl). lia.
Qed.

Lemma csum_exact j p1 p2 x : 0 <= j -> multiples prec largest j (p1 ++ p2) -> esum (p1 ++ p2) = Some x ->
  (x < 2 ^ (prec + j) -> csum p1 p2 = x) /\ (2 ^ (prec + j) <= x -> 2 ^ (prec + j) <= csum p1 p2).
Proof using Hprec.
  intros Hj Hm. rewrite esum_app. destruct (esum p1) as [x1|] eqn:E1; [|discriminate]. destruct (esum p2) as [x2|] eqn:E2; [|discriminate]. intros [= <-].
  destruct (rsum_exact prec largest Hprec j p1 Hj ltac:(intros a b Hab; apply (Hm a b), in_or_app; now left) x1 E1) as (D1 & A1 & B1).
  destruct (rsum_exact prec largest Hprec j (rev p2) Hj ltac:(intros a b Hab; apply (Hm a b), in_or_app; right; now apply in_rev) x2 ltac:(now rewrite esum_rev)) as (D2 & A2 & B2).
  pose proof (esum_nonneg prec largest p1 x1 E1) as M1. pose proof (esum_nonneg prec largest p2 x2 E2) as M2.
  pose proof (rsum_nonneg prec largest p1) as N1. pose proof (rsum_nonneg prec largest (rev p2)) as N2. pose proof (Z.pow_nonneg 2 (prec + j) ltac:(lia)) as N3.
  assert (HP : round prec (2 ^ (prec + j)) = 2 ^ (prec + j)).
  { rewrite Z.pow_add_r by lia. apply round_short; [exact Hprec|pose proof (B_pos prec Hprec); lia|lia]. }
  unfold csum. split.
  - intros Hl. rewrite A1, A2 by lia. destruct (Z.divide_add_r _ _ _ D1 D2) as (m & Dm). rewrite Dm. apply round_short; [exact Hprec| |exact Hj].
    pose proof (Z.pow_pos_nonneg 2 j ltac:(lia) Hj). rewrite Dm, Z.pow_add_r in Hl by lia. nia.
  - intros Hg. rewrite <- HP. apply round_mono; [exact Hprec|]. split; [exact N3|].
    destruct (Z_lt_ge_dec x1 (2 ^ (prec + j))) as [H1|H1]; [|specialize (B1 ltac:(lia)); lia]. destruct (Z_lt_ge_dec x2 (2 ^ (prec + j))) as [H2|H2]; [|specialize (B2 ltac:(lia)); lia].
    rewrite (A1 H1), (A2 H2). exact Hg.
Qed.

(** Twice a sum *)
Lemma double_csum f c p1 p2 : 0 <= csum p1 p2 -> match c with Some g => value g = csum p1 p2 | None => largest < csum p1 p2 end ->
  w_leb FW (Some f) (w_add FW c c) = true -> value f <= 2 * csum p1 p2.
Proof.
  intros Hn Hc H. pose proof (fin_spec prec largest f) as (F1 & F2). destruct c as [g|]; [|lia].
  change (w_add FW (Some g) (Some g)) with (float_of prec largest (value g + value g)) in H. rewrite Hc in H.
  pose proof (float_of_spec prec largest Hprec (csum p1 p2 + csum p1 p2) ltac:(lia)) as HS.
  assert (HD : round prec (csum p1 p2 + csum p1 p2) = 2 * csum p1 p2).
  { pose proof (fin_spec prec largest g) as (G1 & G2). rewrite <- Hc in *.
    clear - G1 G2 Hprec. replace (value g + value g) with (2 * value g) by lia. generalize dependent (value g). intros v [Hv _] Hr.
    destruct (Z.eq_dec v 0) as [->|Hz]; [apply round_0|].
    apply round_divides; [lia|]. unfold lost_bits. rewrite Z.log2_double by lia.
    destruct (Z_le_gt_dec (Z.log2 v + 1 - prec) 0) as [Hl|Hl].
    - destruct (Z.max_spec 0 (Z.succ (Z.log2 v) + 1 - prec)) as [[H1 ->]|[H1 ->]]; [|apply Z.divide_1_l].
      replace (Z.succ (Z.log2 v) + 1 - prec) with 1 by lia. exists v. lia.
    - rewrite Z.max_r by lia. replace (Z.succ (Z.log2 v) + 1 - prec) with (Z.succ (Z.log2 v + 1 - prec)) by lia. rewrite Z.pow_succ_r by lia. apply Z.mul_divide_mono_l.
      rewrite <- Hr at 2. unfold round, lost_bits. rewrite Z.max_r by lia. apply Z.divide_factor_r. }
  destruct (float_of _ _ _) as [h|]; [cbn in H; apply Z.leb_le in H; lia|lia].
Qed.
End Sums.

(** The whole search, for sums that are rounded *)
Section Run.
Context {V I L : Type}.
Variable V_dec : forall a b : V, {a = b} + {a <> b}.
Variable I_dec : forall a b : I, {a = b} + {a <> b}.
Variable vid : V -> I.
Variable WT : Weights.
Hypothesis Hra : rounded_addition WT.
Variable DM : DMap I (w_t WT) (w_inf WT).
Variable PM : PMap I V.
Variable LM : PMap I L.
Variable next_f next_b : V -> list (V * w_t WT * L).
Variables labeled build silent : bool.
Variable E : I -> w_t WT -> I -> Prop.
Notation B := (fun i w j => E j w i).
Hypothesis Hf : presents_weighted WT vid next_f E.
Hypothesis Hb : presents_weighted WT vid next_b B.
Hypothesis Hnn : nonnegative WT E.
Variables starts goals : list V.
Variable lim : option Z.
Notation run := (b2_run V_dec I_dec vid WT DM PM LM next_f next_b labeled build silent starts goals lim).

Lemma nn_conv : nonnegative WT B. Proof using Hnn. intros a w b H. exact (Hnn b w a H). Qed.
Lemma mu_conv : mutual WT E B. Proof. intros a w b. reflexivity. Qed.

Definition found_rounded (x : @b2_result V L WT) : Prop :=
  w_ltb WT (b2_length x) (w_inf WT) = true /\
  (exists s p g, is_start vid starts s /\ is_start vid goals g /\ wwalk WT E s p g /\ length_from_both_ends WT p (b2_length x)) /\
  (forall s p g, is_start vid starts s -> is_start vid goals g -> wwalk WT E s p g ->
     exists c, length_from_both_ends WT p c /\ w_leb WT (b2_length x) (w_add WT c c) = true).

Lemma rounded_says n os r : run n = (os, r) ->
  match r with
  | Running _ => os = []
  | Ended _ => exists x, os = [x] /\
      (found_rounded x \/
       (silent = true /\ b2_length x = w_inf WT /\ forall s p g, is_start vid starts s -> is_start vid goals g -> ~ wwalk WT E s p g))
  | Raised e _ => os = [] /\
      ((e = KeyErrorNotFound /\ silent = false /\ forall s p g, is_start vid starts s -> is_start vid goals g -> ~ wwalk WT E s p g) \/
       (e = RuntimeErrorLimit /\ lim <> None) \/
       (e = OverflowErrorDistance /\ too_long vid WT E starts goals))
  end.
Proof using I_dec Hra Hf Hb Hnn.
  intros HR. apply (rrun_cases V_dec I_dec vid WT Hra DM PM LM next_f next_b labeled build silent E B Hf Hb Hnn nn_conv mu_conv starts goals lim (fun _ => True)) in HR; auto.
  assert (Hno : no_way vid WT E starts goals -> forall s p g, is_start vid starts s -> is_start vid goals g -> ~ wwalk WT E s p g).
  { intros H s p g Hs Hg Hw. apply (H p). exists s, g. auto. }
  destruct r as [s|s|e s]; [exact HR| |].
  - destruct HR as (x & -> & HR). exists x. split; [reflexivity|]. destruct HR as [(Hs & Hl & Hn)|[(v & g & Hv & Hg & Hvg & ->)|(s1 & _ & _ & -> & Hgd)]].
    + right. auto.
    + left. split; [apply zero_lt_inf|]. split.
      * exists (vid v), [], (vid v). split; [now apply in_map|]. split; [rewrite <- Hvg; now apply in_map|]. split; [constructor|]. exists [], []. split; [reflexivity|]. symmetry. apply (ra_zero WT Hra).
      * intros s0 p g0 Hs0 Hg0 Hw. exists (w_add WT (fold_left (fun d e => w_add WT (fst e) d) p (w_zero WT)) (w_zero WT)).
        assert (Hbe : length_from_both_ends WT p (w_add WT (fold_left (fun d e => w_add WT (fst e) d) p (w_zero WT)) (w_zero WT))) by (exists p, []; split; [now rewrite app_nil_r|reflexivity]).
        split; [exact Hbe|]. cbn [b2_length]. pose proof (both_ends_nonneg vid WT Hra E Hnn starts goals p _ (ex_intro _ s0 (ex_intro _ g0 (conj Hs0 (conj Hg0 Hw)))) Hbe) as Hz. eapply w_leb_trans; [exact Hz|]. apply radd_le_l; [exact Hra|exact Hz].
    + left. destruct Hgd as (H1 & (p & (s0 & g0 & Hs0 & Hg0 & Hw) & Hbe) & H3 & _). split; [exact H1|]. split.
      * exists s0, p, g0. auto.
      * intros s2 q g2 Hs2 Hg2 Hq. apply H3. exists s2, g2. auto.
  - destruct HR as (-> & HR). split; [reflexivity|]. destruct HR as [(H1 & H2 & H3)|[H|(H1 & H2)]]; auto.
    right. right. split; [exact H1|]. exact (too_far_long vid WT E B starts goals mu_conv H2).
Qed.

Lemma rounded_ends :
  (exists l, forall i, wreachable WT E (is_start vid starts) i -> In i l) \/
  (exists l, forall i, wreachable WT B (is_start vid goals) i -> In i l) \/
  (exists s0 q g0 l, is_start vid starts s0 /\ is_start vid goals g0 /\ wwalk WT E s0 q g0 /\
     forall c s p i, length_from_both_ends WT q c -> is_start vid starts s -> wwalk WT E s p i -> w_leb WT (walk_weight WT p) c = true -> In i l) \/
  (exists s0 q g0 l, is_start vid starts s0 /\ is_start vid goals g0 /\ wwalk WT E s0 q g0 /\
     forall c g p i, length_from_both_ends WT q c -> is_start vid goals g -> wwalk WT B g p i -> w_leb WT (walk_weight WT p) c = true -> In i l) ->
  exists n os r, run n = (os, r) /\ forall s, r <> Running s.
Proof using I_dec Hra Hf Hb Hnn.
  intros H. apply (rrun_ends V_dec I_dec vid WT Hra DM PM LM next_f next_b labeled build silent E B Hf Hb Hnn nn_conv mu_conv starts goals lim).
  destruct H as [(l & H)|[(l & H)|[(s0 & q & g0 & l & Hs & Hg & Hw & H)|(s0 & q & g0 & l & Hs & Hg & Hw & H)]]].
  - exists true, l. left. intros s p i Hs Hw. apply H. exists s, p. auto.
  - exists false, l. left. intros s p i Hs Hw. apply H. exists s, p. auto.
  - exists true, l. right. exists q. split; [exists s0, g0; auto|exact H].
  - exists false, l. right. exists q. split; [exists s0, g0; auto|exact H].
Qed.
End Run.

Section Float.
Context {V I L : Type}.
Variable V_dec : forall a b : V, {a = b} + {a <> b}.
Variable I_dec : forall a b : I, {a = b} + {a <> b}.
Variable vid : V -> I.
Variables prec largest : Z.
Hypothesis Hprec : 1 <= prec.
Hypothesis Hlarge : 0 <= largest.
Notation FW := (FloatWeights prec largest Hprec Hlarge).
Notation value := (fin_value prec largest).
Notation esum := (exact_sum prec largest).
Variable DM : DMap I (w_t FW) (w_inf FW).
Variable PM : PMap I V.
Variable LM : PMap I L.
Variable next_f next_b : V -> list (V * w_t FW * L).
Variables labeled build silent : bool.
Variable E : I -> w_t FW -> I -> Prop.
Hypothesis Hf : presents_weighted FW vid next_f E.
Hypothesis Hb : presents_weighted FW vid next_b (fun i w j => E j w i).
Variables starts goals : list V.
Variable lim : option Z.
Notation run := (b2_run V_dec I_dec vid FW DM PM LM next_f next_b labeled build silent starts goals lim).
Notation no_walk := (forall s p g, is_start vid starts s -> is_start vid goals g -> ~ wwalk FW E s p g).

Lemma csum_nonneg {J} (p1 p2 : list (option (fin prec largest) * J)) : 0 <= csum prec largest p1 p2.
Proof. apply round_nonneg. pose proof (rsum_nonneg prec largest p1). pose proof (rsum_nonneg prec largest (rev p2)). lia. Qed.

Lemma both_ends_errors {J} (p : list (option (fin prec largest) * J)) f : length_from_both_ends FW p (Some f) ->
  exists y, esum p = Some y /\ at_most_up prec (pred (length p)) (value f) y /\ at_most_down prec (pred (length p)) y (value f).
Proof. intros H. apply both_ends_csum in H. destruct H as (p1 & p2 & -> & -> & y & Hy). exists y. split; [exact Hy|]. now apply csum_errors. Qed.

Lemma double_errors {J} (p : list (option (fin prec largest) * J)) f c y : length_from_both_ends FW p c -> w_leb FW (Some f) (w_add FW c c) = true ->
  esum p = Some y -> at_most_up prec (pred (length p)) (value f) (2 * y).
Proof.
  intros H Hl Hy. apply both_ends_csum in H. destruct H as (p1 & p2 & -> & Hc). pose proof (csum_errors prec largest Hprec p1 p2 y Hy) as (HU & _).
  assert (H2 : value f <= 2 * csum prec largest p1 p2).
  { apply (double_csum prec largest Hprec Hlarge f c); [apply csum_nonneg| |exact Hl]. destruct c; [tauto|exact (Hc y Hy)]. }
  eapply at_most_up_mono; [exact Hprec|exact H2|]. unfold at_most_up in *. nia.
Qed.

Lemma infinite_errors {J} (p : list (option (fin prec largest) * J)) : w_leb FW (w_inf FW) (walk_weight FW p) = true ->
  forall y, esum p = Some y -> at_most_up prec (pred (length p)) (largest + 1) y.
Proof.
  intros H y Hy. pose proof (walk_weight_rsum prec largest Hprec Hlarge p) as HW. destruct (walk_weight FW p) as [f|]; [discriminate H|].
  pose proof (rsum_errors prec largest Hprec p y Hy) as (HU & _). eapply at_most_up_mono; [exact Hprec| |exact HU]. specialize (HW y Hy). lia.
Qed.

Definition found_float (f : fin prec largest) : Prop :=
  (exists s p g y, is_start vid starts s /\ is_start vid goals g /\ wwalk FW E s p g /\ esum p = Some y /\
     at_most_up prec (pred (length p)) (value f) y /\ at_most_down prec (pred (length p)) y (value f)) /\
  (forall s p g y, is_start vid starts s -> is_start vid goals g -> wwalk FW E s p g -> esum p = Some y ->
     at_most_up prec (pred (length p)) (value f) (2 * y)).

Definition beyond_largest : Prop :=
  (exists s p i, is_start vid starts s /\ wwalk FW E s p i /\ forall y, esum p = Some y -> at_most_up prec (pred (length p)) (largest + 1) y) \/
  (exists g p i, is_start vid goals g /\ wwalk FW (fun a w b => E b w a) g p i /\ forall y, esum p = Some y -> at_most_up prec (pred (length p)) (largest + 1) y).

Lemma float_says n os r : run n = (os, r) ->
  match r with
  | Running _ => os = []
  | Ended _ => exists x, os = [x] /\
      ((exists f, b2_length x = Some f /\ found_float f) \/ (silent = true /\ b2_length x = None /\ no_walk))
  | Raised e _ => os = [] /\
      ((e = KeyErrorNotFound /\ silent = false /\ no_walk) \/ (e = RuntimeErrorLimit /\ lim <> None) \/ (e = OverflowErrorDistance /\ beyond_largest))
  end.
Proof using I_dec Hf Hb.
  intros HR. apply (rounded_says V_dec I_dec vid FW (float_rounded prec largest Hprec Hlarge) DM PM LM next_f next_b labeled build silent E Hf Hb (float_nonnegative prec largest Hprec Hlarge E) starts goals lim) in HR.
  destruct r as [s|s|e s]; [exact HR| |].
  - destruct HR as (x & -> & [(H1 & (s0 & p & g & Hs & Hg & Hw & Hbe) & H3)|H]); exists x; (split; [reflexivity|]); [left|right; exact H].
    destruct (b2_length x) as [f|] eqn:Hlen; [|discriminate H1]. exists f. split; [reflexivity|]. split.
    + destruct (both_ends_errors p f Hbe) as (y & Hy). exists s0, p, g, y. tauto.
    + intros s1 q g1 y Hs1 Hg1 Hq Hy. destruct (H3 s1 q g1 Hs1 Hg1 Hq) as (c & Hc & Hle). exact (double_errors q f c y Hc Hle Hy).
  - destruct HR as (-> & HR). split; [reflexivity|]. destruct HR as [H|[H|(H1 & H2)]]; [auto|auto|]. right. right. split; [exact H1|].
    destruct H2 as [(s0 & p & i & Hs & Hw & Hi)|(s0 & p & i & Hs & Hw & Hi)]; [left|right]; exists s0, p, i; (split; [exact Hs|]); (split; [exact Hw|]); now apply infinite_errors.
Qed.

Lemma float_exact_length j : 0 <= j -> (forall a w b, E a (Some w) b -> (2 ^ j | value w)) -> forall n x r f, run n = ([x], r) -> b2_length x = Some f -> value f < 2 ^ (prec + j) ->
  (exists s p g, is_start vid starts s /\ is_start vid goals g /\ wwalk FW E s p g /\ esum p = Some (value f)) /\
  (forall s p g y, is_start vid starts s -> is_start vid goals g -> wwalk FW E s p g -> esum p = Some y -> value f <= 2 * y).
Proof using I_dec Hf Hb.
  intros Hj Hm n x r f HR Hlen Hlt.
  apply (rounded_says V_dec I_dec vid FW (float_rounded prec largest Hprec Hlarge) DM PM LM next_f next_b labeled build silent E Hf Hb (float_nonnegative prec largest Hprec Hlarge E) starts goals lim) in HR.
  destruct r as [s|s|e s]; [discriminate| |destruct HR; discriminate]. destruct HR as (x' & Heq & HR). injection Heq as <-.
  destruct HR as [(H1 & (s0 & p & g & Hs & Hg & Hw & Hbe) & H3)|(_ & Hn & _)]; [|rewrite Hlen in Hn; discriminate Hn]. rewrite Hlen in *. split.
  - pose proof (wwalk_multiples prec largest Hprec Hlarge E j s0 p g Hm Hw) as Hmu. apply both_ends_csum in Hbe. destruct Hbe as (p1 & p2 & -> & Hv & y & Hy).
    destruct (csum_exact prec largest Hprec j p1 p2 y Hj Hmu Hy) as (HA & HB). exists s0, (p1 ++ p2), g. repeat (split; [assumption|]).
    destruct (Z_lt_ge_dec y (2 ^ (prec + j))) as [Hc|Hc]; [rewrite Hv, (HA Hc); exact Hy|specialize (HB ltac:(lia)); lia].
  - intros s1 q g1 y Hs1 Hg1 Hq Hy. destruct (H3 s1 q g1 Hs1 Hg1 Hq) as (c & Hc & Hle). pose proof (wwalk_multiples prec largest Hprec Hlarge E j s1 q g1 Hm Hq) as Hmu.
    apply both_ends_csum in Hc. destruct Hc as (p1 & p2 & -> & Hc). destruct (csum_exact prec largest Hprec j p1 p2 y Hj Hmu Hy) as (HA & HB).
    assert (H2 : value f <= 2 * csum prec largest p1 p2).
    { apply (double_csum prec largest Hprec Hlarge f c); [apply csum_nonneg| |exact Hle]. destruct c; [tauto|exact (Hc y Hy)]. }
    destruct (Z_lt_ge_dec y (2 ^ (prec + j))) as [Hd|Hd]; [rewrite (HA Hd) in H2; exact H2|].
    pose proof (Z.pow_nonneg 2 (prec + j) ltac:(lia)). lia.
Qed.
End Float.

Section FloatPath.
Context {V I L : Type}.
Variable V_dec : forall a b : V, {a = b} + {a <> b}.
Variable I_dec : forall a b : I, {a = b} + {a <> b}.
Variable vid : V -> I.
Variables prec largest : Z.
Hypothesis Hprec : 1 <= prec.
Hypothesis Hlarge : 0 <= largest.
Notation FW := (FloatWeights prec largest Hprec Hlarge).
Notation value := (fin_value prec largest).
Variable DM : DMap I (w_t FW) (w_inf FW).
Variable PM : PMap I V.
Variable LM : PMap I L.
Variable next_f next_b : V -> list (V * w_t FW * L).
Variables labeled silent : bool.
Variable E : I -> w_t FW -> I -> Prop.
Hypothesis Hf : presents_weighted FW vid next_f E.
Hypothesis Hb : presents_weighted FW vid next_b (fun i w j => E j w i).
Variables starts goals : list V.
Variable lim : option Z.
Hypothesis Hinj : forall u w, vid u = vid w -> u = w.

Lemma float_path n x r f : b2_run V_dec I_dec vid FW DM PM LM next_f next_b labeled true silent starts goals lim n = ([x], r) -> b2_length x = Some f ->
  exists s p g es y, In s starts /\ In g goals /\ wwalk FW (fun u w v => E (vid u) w (vid v)) s p g /\ exact_sum prec largest p = Some y /\
    at_most_up prec (pred (length p)) (value f) y /\ at_most_down prec (pred (length p)) y (value f) /\
    shows (b2_path x) (S (length p)) (s :: map snd p) es /\ po_labeled (b2_path x) = labeled /\
    (labeled = true -> Forall2 (fun a e => snd a = snd (fst e) /\
       (In (snd a, fst a, snd e) (next_f (fst (fst e))) \/ In (fst (fst e), fst a, snd e) (next_b (snd a)))) p es).
Proof using I_dec Hf Hb Hinj.
  intros HR Hlen.
  pose proof (rrun_path V_dec I_dec vid FW (float_rounded prec largest Hprec Hlarge) DM PM LM next_f next_b labeled silent Hinj E (fun i w j => E j w i) Hf Hb
    (float_nonnegative prec largest Hprec Hlarge E) (float_nonnegative prec largest Hprec Hlarge _) (mu_conv FW E) starts goals lim n x r HR) as HP.
  destruct HP as (s & p & g & es & Hs & Hg & Hw & Hbe & Hsh); [rewrite Hlen; discriminate|]. rewrite Hlen in Hbe. destruct (both_ends_errors prec largest Hprec Hlarge p f Hbe) as (y & Hy).
  exists s, p, g, es, y. tauto.
Qed.
End FloatPath.
