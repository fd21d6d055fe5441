(** Errors of sums of floats along walks. *)
From Coq Require Import List ZArith Bool Lia.
From Verif Require Import Weight WeightSpec FloatModel FloatSpec.
Import ListNotations.
Local Open Scope Z_scope.

Section FloatProofs.
Context {I : Type}.
Variables prec largest : Z.
Hypothesis Hprec : 1 <= prec.
Hypothesis Hlarge : 0 <= largest.
Notation FW := (FloatWeights prec largest Hprec Hlarge).
Notation value := (fin_value prec largest).
Notation esum := (exact_sum prec largest).
Notation B := (2 ^ prec).

(** Sum with rounding, but without largest float *)
Definition rsum_step (d : Z) (e : option (fin prec largest) * I) : Z := match fst e with Some w => round prec (value w + d) | None => d end.
Definition rsum (p : list (option (fin prec largest) * I)) : Z := fold_left rsum_step p 0.

Lemma B_pos : 2 <= B.
Proof using Hprec. assert (2 ^ 1 <= 2 ^ prec) by (apply Z.pow_le_mono_r; lia). lia. Qed.

Lemma esum_snoc p w (k : I) : esum (p ++ [(w, k)]) = match esum p, w with Some x, Some y => Some (x + value y) | _, _ => None end.
Proof.
  induction p as [|[[a|] j] p IH]; cbn [app exact_sum].
  - destruct w; cbn; [f_equal; lia|reflexivity].
  - rewrite IH. destruct (esum p), w; try reflexivity. f_equal. lia.
  - reflexivity.
Qed.

Lemma rsum_snoc p w (k : I) : rsum (p ++ [(w, k)]) = rsum_step (rsum p) (w, k).
Proof. unfold rsum. rewrite fold_left_app. reflexivity. Qed.

Lemma value_nonneg w : 0 <= value w.
Proof. pose proof (fin_spec prec largest w). lia. Qed.

Lemma esum_nonneg (p : list (option (fin prec largest) * I)) : forall x, esum p = Some x -> 0 <= x.
Proof.
  induction p as [|[[a|] j] p IH]; cbn [exact_sum]; intros x H; [injection H as <-; lia| |discriminate].
  destruct (esum p) as [y|]; [|discriminate]. injection H as <-. specialize (IH _ eq_refl). pose proof (value_nonneg a). lia.
Qed.

Lemma rsum_nonneg (p : list (option (fin prec largest) * I)) : 0 <= rsum p.
Proof.
  induction p as [|[w k] p IH] using rev_ind; [cbn; lia|]. rewrite rsum_snoc. unfold rsum_step. destruct w as [w|]; cbn [fst]; [|exact IH].
  apply round_nonneg. pose proof (value_nonneg w). lia.
Qed.

Lemma rsum_round (p : list (option (fin prec largest) * I)) : round prec (rsum p) = rsum p.
Proof using Hprec.
  induction p as [|[w k] p IH] using rev_ind; [apply round_0|]. rewrite rsum_snoc. unfold rsum_step. destruct w as [w|]; cbn [fst]; [|exact IH].
  apply round_round; [exact Hprec|]. pose proof (rsum_nonneg p). pose proof (value_nonneg w). lia.
Qed.

(** The sum computed with floats is the rounded sum, if it is not infinite; otherwise the rounded sum is larger than the largest float. *)
Lemma walk_weight_rsum (p : list (option (fin prec largest) * I)) :
  match walk_weight FW p with
  | Some f => value f = rsum p /\ exists x, esum p = Some x
  | None => forall x, esum p = Some x -> largest < rsum p
  end.
Proof.
  induction p as [|[w k] p IH] using rev_ind.
  - cbn. split; [reflexivity|]. now exists 0.
  - rewrite walk_weight_snoc, rsum_snoc, esum_snoc. unfold rsum_step. cbn [fst]. destruct (walk_weight FW p) as [f|] eqn:EW.
    + destruct IH as [IHf (x & IHx)]. rewrite IHx. destruct w as [w|]; [|cbn; discriminate].
      change (w_add FW (Some w) (Some f)) with (float_of prec largest (value w + value f)). rewrite IHf.
      pose proof (rsum_nonneg p). pose proof (value_nonneg w). pose proof (float_of_spec prec largest Hprec (value w + rsum p) ltac:(lia)) as HS.
      destruct (float_of _ _ _) as [g|]; [split; [tauto|now eexists]|]. intros _ _. exact HS.
    + destruct w as [w|]; cbn; [|destruct (esum p); discriminate]. destruct (esum p) as [x|]; [|discriminate]. intros _ _.
      specialize (IH _ eq_refl). pose proof (rsum_nonneg p). pose proof (value_nonneg w).
      destruct (Z_lt_ge_dec largest (round prec (value w + rsum p))) as [Hd|Hd]; [exact Hd|exfalso].
      assert (HM : round prec (rsum p) <= round prec (value w + rsum p)) by (apply round_mono; lia).
      pose proof (rsum_round p). lia.
Qed.

Lemma round_up x : 0 <= x -> B * round prec x <= (B + 1) * x.
Proof using Hprec. intros Hx. pose proof (round_error prec Hprec x Hx). pose proof B_pos. nia. Qed.
Lemma round_down x : 0 <= x -> (B - 1) * x <= B * round prec x.
Proof using Hprec. intros Hx. pose proof (round_error prec Hprec x Hx). pose proof B_pos. nia. Qed.

Lemma pow_S b (k : nat) : b ^ Z.of_nat (S k) = b * b ^ Z.of_nat k.
Proof. rewrite Nat2Z.inj_succ, Z.pow_succ_r by lia. reflexivity. Qed.
Lemma pow_mono_nat a b (k : nat) : 0 <= a <= b -> 0 <= a ^ Z.of_nat k <= b ^ Z.of_nat k.
Proof. intros H. split; [apply Z.pow_nonneg; lia|apply Z.pow_le_mono_l; lia]. Qed.

(** The first addition is exact. *)
Lemma rsum_errors (p : list (option (fin prec largest) * I)) : forall x, esum p = Some x ->
  at_most_up prec (pred (length p)) (rsum p) x /\ at_most_down prec (pred (length p)) x (rsum p).
Proof using Hprec.
  unfold at_most_up, at_most_down. induction p as [|[w k] p IH] using rev_ind; intros x Hx.
  - injection Hx as <-. cbn. lia.
  - rewrite esum_snoc in Hx. destruct (esum p) as [y|] eqn:Ey; [|discriminate]. destruct w as [w|]; [|discriminate]. injection Hx as <-.
    rewrite rsum_snoc, app_length, Nat.add_1_r. unfold rsum_step. cbn [fst pred]. specialize (IH y eq_refl).
    pose proof (value_nonneg w) as Hw. pose proof (rsum_nonneg p) as Hr. pose proof (esum_nonneg p y Ey) as Hy. pose proof B_pos as HB.
    destruct p as [|e p].
    { cbn in Ey |- *. injection Ey as <-. unfold rsum. cbn [fold_left]. rewrite !Z.add_0_r. rewrite (proj2 (fin_spec prec largest w)). cbn. lia. }
    cbn [length pred] in *. set (r := rsum (e :: p)) in *. set (n := length p) in *. rewrite !pow_S.
    pose proof (round_up (value w + r) ltac:(lia)) as HU. pose proof (round_down (value w + r) ltac:(lia)) as HD.
    pose proof (pow_mono_nat B (B + 1) n ltac:(lia)) as P1. pose proof (pow_mono_nat (B - 1) B n ltac:(lia)) as P2.
    set (bn := B ^ Z.of_nat n) in *. set (un := (B + 1) ^ Z.of_nat n) in *. set (dn := (B - 1) ^ Z.of_nat n) in *. destruct IH as [IU ID].
    split.
    + transitivity (bn * ((B + 1) * (value w + r))); [nia|]. transitivity ((B + 1) * (un * value w + un * y)); [|nia].
      transitivity ((B + 1) * (bn * value w + bn * r)); [nia|]. apply Z.mul_le_mono_nonneg_l; [lia|]. nia.
    + transitivity (bn * ((B - 1) * (value w + r))); [|nia]. transitivity ((B - 1) * (dn * value w + dn * y)); [nia|].
      transitivity ((B - 1) * (bn * value w + bn * r)); [|nia]. apply Z.mul_le_mono_nonneg_l; [lia|]. nia.
Qed.

(** Sums of multiples of 2^j are exact below 2^(prec+j). *)
Definition multiples (j : Z) (p : list (option (fin prec largest) * I)) : Prop := forall w k, In (Some w, k) p -> (2 ^ j | value w).

Lemma rsum_exact j (p : list (option (fin prec largest) * I)) : 0 <= j -> multiples j p -> forall x, esum p = Some x ->
  (2 ^ j | x) /\ (x < 2 ^ (prec + j) -> rsum p = x) /\ (2 ^ (prec + j) <= x -> 2 ^ (prec + j) <= rsum p).
Proof using Hprec.
  intros Hj. induction p as [|[w k] p IH] using rev_ind; intros Hm x Hx.
  - injection Hx as <-. split; [apply Z.divide_0_r|]. split; [reflexivity|]. pose proof (Z.pow_pos_nonneg 2 (prec + j)). lia.
  - rewrite esum_snoc in Hx. destruct (esum p) as [y|] eqn:Ey; [|discriminate]. destruct w as [w|]; [|discriminate]. injection Hx as <-.
    assert (Hm' : multiples j p) by (intros a b Hab; apply (Hm a b), in_or_app; now left).
    destruct (IH Hm' y eq_refl) as (I1 & I2 & I3). pose proof (Hm w k ltac:(apply in_or_app; right; now left)) as Dw.
    pose proof (value_nonneg w) as Hw. pose proof (rsum_nonneg p) as Hr. pose proof (esum_nonneg p y Ey) as Hy.
    pose proof (Z.divide_add_r _ _ _ I1 Dw) as Ds. split; [exact Ds|]. rewrite rsum_snoc. unfold rsum_step. cbn [fst].
    assert (HP : round prec (2 ^ (prec + j)) = 2 ^ (prec + j)).
    { rewrite Z.pow_add_r by lia. apply round_short; [exact Hprec|pose proof B_pos; lia|lia]. }
    split.
    + intros Hlt. rewrite (I2 ltac:(lia)), (Z.add_comm (value w)). destruct Ds as (m & Dm). rewrite Dm. apply round_short; [exact Hprec| |exact Hj].
      pose proof (Z.pow_pos_nonneg 2 j ltac:(lia) Hj). rewrite Dm, Z.pow_add_r in Hlt by lia. nia.
    + intros Hge. rewrite <- HP. destruct (Z_lt_ge_dec y (2 ^ (prec + j))) as [Hl|Hl].
      * rewrite (I2 Hl). apply round_mono; [exact Hprec|]. pose proof (Z.pow_nonneg 2 (prec + j)). lia.
      * specialize (I3 ltac:(lia)). apply round_mono; [exact Hprec|]. pose proof (Z.pow_nonneg 2 (prec + j)). lia.
Qed.

(** From the minimal float sum to the exact sums *)
Variable E : I -> option (fin prec largest) -> I -> Prop.
Variable Start : I -> Prop.

Lemma float_upper i f s p x : is_distance FW E Start i (Some f) -> Start s -> wwalk FW E s p i -> esum p = Some x ->
  value f <= rsum p.
Proof.
  intros [_ Hmin] Hs Hw Hx. specialize (Hmin s p Hs Hw). pose proof (walk_weight_rsum p) as HW. destruct (walk_weight FW p) as [g|].
  - cbn in Hmin. apply Z.leb_le in Hmin. lia.
  - specialize (HW x Hx). pose proof (fin_spec prec largest f). lia.
Qed.

Lemma at_most_up_mono k a b x : a <= b -> at_most_up prec k b x -> at_most_up prec k a x.
Proof using Hprec.
  unfold at_most_up. intros H HU. assert (0 <= B ^ Z.of_nat k) by (apply Z.pow_nonneg; pose proof B_pos; lia). nia.
Qed.

Lemma float_errors i f : is_distance FW E Start i (Some f) ->
  (exists s p x, Start s /\ wwalk FW E s p i /\ esum p = Some x /\ at_most_down prec (pred (length p)) x (value f)) /\
  (forall s p x, Start s -> wwalk FW E s p i -> esum p = Some x -> at_most_up prec (pred (length p)) (value f) x).
Proof.
  intros HD. split.
  - destruct HD as [(s & p & Hs & Hw & He) _]. pose proof (walk_weight_rsum p) as HW. rewrite He in HW. destruct HW as [HW (x & Hx)].
    exists s, p, x. repeat split; auto. rewrite HW. now apply rsum_errors.
  - intros s p x Hs Hw Hx. eapply at_most_up_mono; [eapply float_upper; eauto|]. now apply rsum_errors.
Qed.

Lemma wwalk_multiples j s p i : (forall a w b, E a (Some w) b -> (2 ^ j | value w)) -> wwalk FW E s p i -> multiples j p.
Proof.
  intros HE HW. induction HW as [i|i w j' p k HE' HW IH]; intros a b Hab; [destruct Hab|]. destruct Hab as [Hab|Hab]; [|now apply (IH a b)].
  injection Hab as -> ->. eapply HE. exact HE'.
Qed.

Lemma float_exact j i f : 0 <= j -> (forall a w b, E a (Some w) b -> (2 ^ j | value w)) -> is_distance FW E Start i (Some f) ->
  value f < 2 ^ (prec + j) ->
  (exists s p, Start s /\ wwalk FW E s p i /\ esum p = Some (value f)) /\
  (forall s p x, Start s -> wwalk FW E s p i -> esum p = Some x -> value f <= x).
Proof.
  intros Hj HE HD Hlt. split.
  - destruct HD as [(s & p & Hs & Hw & He) _]. pose proof (walk_weight_rsum p) as HW. rewrite He in HW. destruct HW as [HW (x & Hx)].
    exists s, p. repeat split; auto. destruct (rsum_exact j p Hj (wwalk_multiples j s p i HE Hw) x Hx) as (_ & X1 & X2).
    rewrite Hx. f_equal. destruct (Z_lt_ge_dec x (2 ^ (prec + j))) as [Hl|Hl]; [rewrite HW; symmetry; auto|]. specialize (X2 ltac:(lia)). lia.
  - intros s p x Hs Hw Hx. pose proof (float_upper i f s p x HD Hs Hw Hx) as HU.
    destruct (rsum_exact j p Hj (wwalk_multiples j s p i HE Hw) x Hx) as (_ & X1 & _).
    destruct (Z_lt_ge_dec x (2 ^ (prec + j))) as [Hl|Hl]; [rewrite <- (X1 Hl); exact HU|lia].
Qed.
End FloatProofs.

(** ** TraversalShortestPaths with floats *)
From Verif Require Import Machine GearSpec Spec TraversalSpec Common PathsModel PathsSpec PathsExact HeapModel DijkstraModel DijkstraPlain.

Section FloatDijkstra.
Context {V I L : Type}.
Variable I_dec : forall a b : I, {a = b} + {a <> b}.
Variable vid : V -> I.
Variables prec largest : Z.
Hypothesis Hprec : 1 <= prec.
Hypothesis Hlarge : 0 <= largest.
Notation FW := (FloatWeights prec largest Hprec Hlarge).
Variables (DM : DMap I (w_t FW) (w_inf FW)) (PM : PMap I V) (LM : PMap I L).
Variable next : V -> list (V * w_t FW * L).
Variable cfg : dij_cfg.
Hypothesis Ht : dc_is_tree cfg = false.
Variable E : I -> w_t FW -> I -> Prop.
Hypothesis HE : presents_weighted FW vid next E.
Notation St := (is_start vid).

Lemma float_nonnegative : nonnegative FW E.
Proof. intros i [w|] j _; [|reflexivity]. cbn. apply Z.leb_le. apply value_nonneg. Qed.

Variables (starts : list V) (lim : option Z) (n : nat).
Variables (os : list (@dij_report V I L FW DM PM LM)) (r : outcome (@dij_state V I L FW DM PM LM) exn).
Hypothesis HR : dij_run vid FW DM PM LM next cfg starts None lim n = (os, r).

Lemma fd_distance rep : In rep os -> exists f, dr_distance rep = Some f /\ is_distance FW E (St starts) (vid (dr_vertex rep)) (Some f).
Proof.
  intros Hr. pose proof (proj1 (dij_distances I_dec vid FW DM PM LM next cfg Ht E HE float_nonnegative starts lim n os r HR) rep Hr) as HD.
  destruct (proj1 (dij_overflow I_dec vid FW DM PM LM next cfg Ht E HE float_nonnegative starts lim n os r HR) rep Hr) as [HF _].
  destruct (dr_distance rep) as [f|]; [|discriminate]. exists f. auto.
Qed.

Lemma float_dijkstra_errors rep : In rep os -> exists f, dr_distance rep = Some f /\
  (exists s p x, St starts s /\ wwalk FW E s p (vid (dr_vertex rep)) /\ exact_sum prec largest p = Some x /\
     at_most_down prec (pred (length p)) x (fin_value prec largest f)) /\
  (forall s p x, St starts s -> wwalk FW E s p (vid (dr_vertex rep)) -> exact_sum prec largest p = Some x ->
     at_most_up prec (pred (length p)) (fin_value prec largest f) x).
Proof. intros Hr. destruct (fd_distance rep Hr) as (f & Hf & HD). exists f. split; [exact Hf|]. exact (float_errors prec largest Hprec Hlarge E (St starts) _ f HD). Qed.

Lemma float_dijkstra_exact j : 0 <= j -> (forall a w b, E a (Some w) b -> (2 ^ j | fin_value prec largest w)) ->
  forall rep, In rep os -> exists f, dr_distance rep = Some f /\
  (fin_value prec largest f < 2 ^ (prec + j) ->
   (exists s p, St starts s /\ wwalk FW E s p (vid (dr_vertex rep)) /\ exact_sum prec largest p = Some (fin_value prec largest f)) /\
   (forall s p x, St starts s -> wwalk FW E s p (vid (dr_vertex rep)) -> exact_sum prec largest p = Some x -> fin_value prec largest f <= x)).
Proof.
  intros Hj Hm rep Hr. destruct (fd_distance rep Hr) as (f & Hf & HD). exists f. split; [exact Hf|]. intros Hlt.
  exact (float_exact prec largest Hprec Hlarge E (St starts) j _ f Hj Hm HD Hlt).
Qed.

Lemma float_dijkstra_path (V_dec : forall a b : V, {a = b} + {a <> b}) : dc_build_paths cfg = true -> starts_distinct vid starts ->
  forall rep, In rep os -> exists s0 p x, In s0 starts /\ chain next s0 p (dr_vertex rep) /\ length p = dr_depth rep /\
     delivers_exactly V_dec vid PM LM (dr_pred rep) (dr_labels rep) (dc_labeled cfg) (dr_vertex rep) (chain_vertices s0 p) (chain_edges s0 p) /\
     exact_sum prec largest (map (fun e => (snd (fst e), fst (fst e))) p) = Some x /\
     forall s q y, St starts s -> wwalk FW E s q (vid (dr_vertex rep)) -> exact_sum prec largest q = Some y ->
     (2 ^ prec - 1) ^ Z.of_nat (pred (length p)) * (2 ^ prec) ^ Z.of_nat (pred (length q)) * x
     <= (2 ^ prec) ^ Z.of_nat (pred (length p)) * (2 ^ prec + 1) ^ Z.of_nat (pred (length q)) * y.
Proof.
  intros Hb Hd rep Hr. destruct (fd_distance rep Hr) as (f & Hf & HD).
  destruct (proj1 (dij_paths I_dec vid FW DM PM LM next cfg Ht E HE float_nonnegative starts lim n os r HR V_dec Hb Hd) rep Hr)
    as (s0 & p & P1 & P2 & P3 & P4 & P5 & _).
  rewrite Hf in P3. rewrite <- (chain_walk_weight FW vid p) in P3.
  set (p' := map (fun e => (snd (fst e), vid (fst (fst e)))) p) in P3.
  pose proof (walk_weight_rsum prec largest Hprec Hlarge p') as HW. rewrite P3 in HW. destruct HW as [HW (x & Hx)].
  destruct (rsum_errors prec largest Hprec p' x Hx) as [_ HDn].
  assert (Hsame : forall (l : list (V * w_t FW * L)), exact_sum prec largest (map (fun e => (snd (fst e), vid (fst (fst e)))) l)
                            = exact_sum prec largest (map (fun e => (snd (fst e), fst (fst e))) l)).
  { intros l. induction l as [|[[v [w|]] b] l IH]; [reflexivity| |reflexivity]. cbn [map exact_sum fst snd]. cbn [w_t FloatWeights] in IH |- *. rewrite IH. reflexivity. }
  exists s0, p, x. do 4 (split; [assumption|]). split; [exact (eq_trans (eq_sym (Hsame p)) Hx)|].
  intros s q y Hs Hq Hy. destruct (float_errors prec largest Hprec Hlarge E (St starts) _ f HD) as [_ HU]. specialize (HU s q y Hs Hq Hy).
  unfold at_most_up in HU. unfold at_most_down in HDn. assert (Hlen : length p' = length p) by (unfold p'; now rewrite map_length).
  change (@length (option (fin prec largest) * I) p') with (@length (w_t FW * I) p') in HDn. rewrite Hlen in HDn.
  rewrite <- HW in HDn. pose proof (B_pos prec Hprec) as HB.
  assert (0 <= (2 ^ prec) ^ Z.of_nat (pred (length p))) by (apply Z.pow_nonneg; lia).
  assert (0 <= (2 ^ prec) ^ Z.of_nat (pred (length q))) by (apply Z.pow_nonneg; lia).
  set (bn := (2 ^ prec) ^ Z.of_nat (pred (length p))) in *. set (bm := (2 ^ prec) ^ Z.of_nat (pred (length q))) in *.
  set (dn := (2 ^ prec - 1) ^ Z.of_nat (pred (length p))) in *. set (um := (2 ^ prec + 1) ^ Z.of_nat (pred (length q))) in *.
  transitivity (bm * (bn * fin_value prec largest f)).
  - rewrite (Z.mul_comm dn bm), <- Z.mul_assoc. apply Z.mul_le_mono_nonneg_l; [assumption|]. exact HDn.
  - rewrite (Z.mul_comm bm), <- !Z.mul_assoc, (Z.mul_comm _ bm). now apply Z.mul_le_mono_nonneg_l.
Qed.
End FloatDijkstra.
