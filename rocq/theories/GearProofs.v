(** Proofs about the collections of [GearModel.v]. *)
From Coq Require Import List ZArith NArith Bool Arith Lia Sorted Eqdep_dec.
From Verif Require Import GearSpec GearModel.
Import ListNotations.

Lemma seq_set_in {A} (s : list A) : forall k a, k < length s ->
  exists s', seq_set s k a = Some s' /\ length s' = length s /\
    forall j, nth_error s' j = if j =? k then Some a else nth_error s j.
Proof.
  induction s as [|x s IH]; simpl; intros k a Hk; [lia|]. destruct k as [|k].
  - exists (a :: s). split; [auto|split; [auto|]]. intros [|j]; reflexivity.
  - destruct (IH k a ltac:(lia)) as (s' & -> & Hl & Hn). exists (x :: s'). simpl.
    split; [auto|split; [auto|]]. intros [|j]; [reflexivity|apply Hn].
Qed.

Lemma seq_set_out {A} (s : list A) : forall k a, length s <= k -> seq_set s k a = None.
Proof.
  induction s as [|x s IH]; simpl; intros k a Hk; auto. destruct k; [lia|]. now rewrite IH by lia.
Qed.

Definition wcfg_ok (cfg : wcfg) : Prop := 0 < w_extend_size cfg.

Section Wrapper.
Context {A : Type}.
Variable cfg : wcfg.
Hypothesis Hcfg : wcfg_ok cfg.
Variable default : A.

Lemma repeat_plus n m : repeat default n ++ repeat default m = repeat default (n + m).
Proof. now rewrite repeat_app. Qed.

Lemma template_loop n fuel : forall s target, 0 < n -> target <= fuel + length s ->
  exists m, extend_by_template_loop fuel s (repeat default n) target = s ++ repeat default m /\
            target <= length s + m.
Proof.
  induction fuel as [|fuel IH]; simpl; intros s target Hn Hf.
  - exists 0. rewrite app_nil_r. split; auto. lia.
  - destruct (Nat.ltb_spec (length s) target).
    + destruct (IH (s ++ repeat default n) target Hn) as (m & Hm & Hl).
      { rewrite app_length, repeat_length. lia. }
      exists (n + m). rewrite Hm, <- app_assoc, repeat_plus. split; auto.
      rewrite app_length, repeat_length in Hl. lia.
    + exists 0. rewrite app_nil_r. split; auto. lia.
Qed.

Lemma extend_and_set_spec s k v :
  exists s', extend_and_set cfg default s k v = Some s' /\ k < length s' /\
    forall j, ma_direct default j s' = if j =? k then v else ma_direct default j s.
Proof using Hcfg.
  unfold extend_and_set.
  assert (Hex : exists m, match expansion_template cfg default with
      | Some tpl => extend_by_template_loop (k + 1 + w_extend_size cfg) s tpl (k + 1 + w_extend_size cfg)
      | None => s ++ repeat default (k + 1 + w_extend_size cfg - length s)
      end = s ++ repeat default m /\ k + 1 + w_extend_size cfg <= length s + m).
  { unfold expansion_template, factory. destruct (w_by_template cfg).
    - rewrite repeat_plus. apply template_loop; [unfold wcfg_ok in Hcfg|]; lia.
    - exists (k + 1 + w_extend_size cfg - length s). split; auto. lia. }
  destruct Hex as (m & -> & Hl).
  destruct (seq_set_in (s ++ repeat default m) k v) as (s' & Hs & Hl' & Hn).
  { rewrite app_length, repeat_length. lia. }
  exists s'. split; [auto|split].
  - rewrite Hl', app_length, repeat_length. lia.
  - intros j. unfold ma_direct, seq_get. rewrite Hn.
    destruct (j =? k); auto.
    destruct (lt_dec j (length s)) as [Hj|Hj].
    + now rewrite nth_error_app1 by auto.
    + rewrite nth_error_app2 by lia.
      replace (nth_error s j) with (@None A) by (symmetry; apply nth_error_None; lia).
      destruct (nth_error (repeat default m) (j - length s)) eqn:Hr; auto.
      apply nth_error_In in Hr. now apply repeat_spec in Hr.
Qed.

Lemma set_or_extend_direct s k v j :
  ma_direct default j (set_or_extend cfg default s k v) =
  if j =? k then v else ma_direct default j s.
Proof using Hcfg.
  unfold set_or_extend. destruct (lt_dec k (length s)) as [Hk|Hk].
  - destruct (seq_set_in s k v Hk) as (s' & -> & _ & Hn).
    unfold ma_direct, seq_get. rewrite Hn. now destruct (j =? k).
  - rewrite seq_set_out by lia. destruct (extend_and_set_spec s k v) as (s' & -> & _ & Hn). auto.
Qed.

(** Storing never fails: the assignment after the extension is inside the bounds. *)
Lemma set_or_extend_total s k v : exists s',
  (seq_set s k v = Some s' \/ (seq_set s k v = None /\ extend_and_set cfg default s k v = Some s')) /\
  set_or_extend cfg default s k v = s'.
Proof using Hcfg.
  unfold set_or_extend. destruct (seq_set s k v) as [s'|] eqn:Hs; eauto.
  destruct (extend_and_set_spec s k v) as (s' & -> & _). eauto.
Qed.

Lemma factory_direct j : ma_direct default j (factory cfg default) = default.
Proof.
  unfold ma_direct, seq_get, factory.
  destruct (nth_error (repeat default (w_pre_allocate cfg)) j) eqn:H; auto.
  apply nth_error_In in H. now apply repeat_spec in H.
Qed.

Lemma seq_set_direct s k v j : k < length s ->
  ma_direct default j (match seq_set s k v with Some s' => s' | None => s end) =
  if j =? k then v else ma_direct default j s.
Proof.
  intros Hk. destruct (seq_set_in s k v Hk) as (s' & -> & _ & Hn).
  unfold ma_direct, seq_get. rewrite Hn. now destruct (j =? k).
Qed.
End Wrapper.

(** * Byte sets *)
Section ByteSet.
Variable cfg : wcfg.
Hypothesis Hcfg : wcfg_ok cfg.

Lemma bs_contains_direct k s :
  bs_contains (Z.of_nat k) s = negb (ma_direct 0%N k s =? 0)%N.
Proof.
  unfold bs_contains. destruct (Z.ltb_spec (Z.of_nat k) 0); [lia|]. rewrite Nat2Z.id.
  unfold ma_direct. now destruct (seq_get s k).
Qed.

Lemma bs_contains_neg k s : (k < 0)%Z -> bs_contains k s = false.
Proof. intros H. unfold bs_contains. destruct (Z.ltb_spec k 0); auto; lia. Qed.

Lemma bs_new_contains k : bs_contains (Z.of_nat k) (bs_new cfg) = false.
Proof. rewrite bs_contains_direct. unfold bs_new. now rewrite factory_direct. Qed.

Lemma bs_add_contains k j s :
  bs_contains (Z.of_nat k) (bs_add cfg j s) = (k =? j) || bs_contains (Z.of_nat k) s.
Proof using Hcfg.
  rewrite !bs_contains_direct. unfold bs_add. rewrite set_or_extend_direct by auto.
  now destruct (k =? j).
Qed.

Lemma bs_discard_contains k j s :
  bs_contains (Z.of_nat k) (bs_discard j s) = negb (k =? j) && bs_contains (Z.of_nat k) s.
Proof.
  rewrite !bs_contains_direct. unfold bs_discard. destruct (lt_dec j (length s)) as [Hj|Hj].
  - rewrite seq_set_direct by auto. now destruct (k =? j).
  - rewrite seq_set_out by lia. destruct (Nat.eqb_spec k j); auto. subst.
    unfold ma_direct, seq_get. now replace (nth_error s j) with (@None N) by (symmetry; apply nth_error_None; lia).
Qed.

Lemma bs_update_contains ks : forall k s,
  bs_contains (Z.of_nat k) (bs_update cfg ks s) = true <->
  (In k ks \/ bs_contains (Z.of_nat k) s = true).
Proof using Hcfg.
  induction ks as [|a ks IH]; simpl; intros k s; [tauto|].
  unfold bs_update in *. simpl. rewrite IH.
  change (set_or_extend cfg 0%N s a 1%N) with (bs_add cfg a s). rewrite bs_add_contains.
  rewrite orb_true_iff, Nat.eqb_eq. intuition.
Qed.

Lemma bs_iter_from_spec s : forall b k,
  In k (bs_iter_from b s) <-> (b <= k /\ negb (ma_direct 0%N (k - b) s =? 0)%N = true).
Proof.
  induction s as [|v s IH]; simpl; intros b k.
  - unfold ma_direct, seq_get. split; [tauto|]. intros [_ H]. destruct (k - b); discriminate.
  - rewrite in_app_iff, IH. split.
    + intros [H|[H1 H2]].
      * destruct (v =? 0)%N eqn:Hv; [contradiction|]. destruct H as [<-|[]].
        rewrite Nat.sub_diag. unfold ma_direct. simpl. rewrite Hv. auto.
      * split; [lia|]. replace (k - b) with (S (k - S b)) by lia. exact H2.
    + intros [H1 H2]. destruct (Nat.eq_dec k b) as [->|Hne].
      * left. rewrite Nat.sub_diag in H2. unfold ma_direct in H2. simpl in H2.
        destruct (v =? 0)%N; [discriminate|now left].
      * right. split; [lia|]. replace (k - b) with (S (k - S b)) in H2 by lia. exact H2.
Qed.

Lemma bs_iter_spec k s : In k (bs_iter s) <-> bs_contains (Z.of_nat k) s = true.
Proof.
  unfold bs_iter. rewrite bs_iter_from_spec, bs_contains_direct, Nat.sub_0_r. intuition lia.
Qed.

Lemma bs_iter_from_sorted s : forall b, StronglySorted lt (bs_iter_from b s).
Proof.
  induction s as [|v s IH]; simpl; intros b; [constructor|].
  destruct (v =? 0)%N; simpl; auto. constructor; auto.
  apply Forall_forall. intros k Hk. apply bs_iter_from_spec in Hk. lia.
Qed.

Lemma bs_len_iter s : bs_len s = length (bs_iter s).
Proof.
  unfold bs_len, bs_iter. generalize 0. induction s as [|v s IH]; simpl; intros b; auto.
  destruct (v =? 0)%N; simpl; auto.
Qed.

(** The inlined code does what [in] and [add] do. *)
Lemma bs_visit_spec k s :
  bs_visit cfg k s = if bs_contains (Z.of_nat k) s then None else Some (bs_add cfg k s).
Proof.
  unfold bs_visit, bs_contains. destruct (Z.ltb_spec (Z.of_nat k) 0); [lia|]. rewrite Nat2Z.id.
  unfold seq_get. destruct (nth_error s k) as [v|] eqn:Hn.
  - destruct (v =? 0)%N; auto. simpl. unfold bs_add, set_or_extend.
    destruct (seq_set_in s k 1%N) as (s' & -> & _); auto. apply nth_error_Some. congruence.
  - unfold bs_add, set_or_extend. rewrite seq_set_out; auto. now apply nth_error_None.
Qed.

Definition ByteVSet : VSet nat.
Proof using cfg Hcfg.
  refine {| vs_t := list N; vs_empty := bs_new cfg; vs_mem := fun i s => bs_contains (Z.of_nat i) s;
            vs_add := bs_add cfg; vs_discard := bs_discard |}.
  - exact bs_new_contains.
  - intros i j s. rewrite bs_add_contains, orb_true_iff, Nat.eqb_eq. tauto.
  - intros i j s. rewrite bs_discard_contains, andb_true_iff, negb_true_iff, Nat.eqb_neq. tauto.
Defined.
End ByteSet.

(** * Bit sets *)
Section BitSet.
Variable cfg : wcfg.
Hypothesis Hcfg : wcfg_ok cfg.

Lemma land_mask_testbit v b :
  negb (N.land v (N.shiftl 1 b) =? 0)%N = N.testbit v b.
Proof.
  rewrite N.shiftl_1_l.
  destruct (N.testbit v b) eqn:Hb.
  - apply negb_true_iff, N.eqb_neq. intros H.
    assert (Ht : N.testbit (N.land v (2 ^ b)) b = true) by (rewrite N.land_spec, Hb, N.pow2_bits_true; auto).
    rewrite H, N.bits_0 in Ht. discriminate.
  - apply negb_false_iff, N.eqb_eq. apply N.bits_inj_0. intros n. rewrite N.land_spec.
    destruct (N.eq_dec b n) as [<-|Hne]; [now rewrite Hb|].
    rewrite N.pow2_bits_false by auto. apply andb_false_r.
Qed.

Lemma bits_contains_direct k s :
  bits_contains (Z.of_nat k) s = N.testbit (ma_direct 0%N (k / 8) s) (N.of_nat (k mod 8)).
Proof.
  unfold bits_contains. destruct (Z.ltb_spec (Z.of_nat k) 0); [lia|]. rewrite Nat2Z.id.
  unfold ma_direct. destruct (seq_get s (k / 8)) as [v|]; [|now rewrite N.bits_0].
  unfold bit_mask. rewrite land_mask_testbit.
  destruct (N.eqb_spec v 0); [subst; now rewrite N.bits_0|reflexivity].
Qed.

Lemma bits_contains_neg k s : (k < 0)%Z -> bits_contains k s = false.
Proof. intros H. unfold bits_contains. destruct (Z.ltb_spec k 0); auto; lia. Qed.

Lemma bits_new_contains k : bits_contains (Z.of_nat k) (bits_new cfg) = false.
Proof. rewrite bits_contains_direct. unfold bits_new. rewrite factory_direct. apply N.bits_0. Qed.

Lemma bits_or_direct k s j :
  ma_direct 0%N j (bits_or cfg k s) =
  if j =? k / 8 then N.lor (ma_direct 0%N (k / 8) s) (bit_mask k) else ma_direct 0%N j s.
Proof using Hcfg.
  unfold bits_or. destruct (seq_get s (k / 8)) as [v|] eqn:Hg.
  - rewrite seq_set_direct; [|apply nth_error_Some; unfold seq_get in Hg; congruence].
    destruct (j =? k / 8); auto. unfold ma_direct. now rewrite Hg.
  - destruct (extend_and_set_spec cfg Hcfg 0%N s (k / 8) (bit_mask k)) as (s' & -> & _ & Hn).
    rewrite Hn. destruct (j =? k / 8); auto. unfold ma_direct. rewrite Hg. now rewrite N.lor_0_l.
Qed.

Lemma mask_testbit k j : N.testbit (bit_mask k) (N.of_nat (j mod 8)) = (j mod 8 =? k mod 8).
Proof.
  unfold bit_mask. rewrite N.shiftl_1_l. destruct (Nat.eqb_spec (j mod 8) (k mod 8)) as [->|Hne].
  - apply N.pow2_bits_true.
  - apply N.pow2_bits_false. lia.
Qed.

Lemma div_mod_eqb k j : (k =? j) = (k / 8 =? j / 8) && (k mod 8 =? j mod 8).
Proof.
  destruct (Nat.eqb_spec k j) as [->|Hne].
  - now rewrite !Nat.eqb_refl.
  - symmetry. apply andb_false_iff. destruct (Nat.eq_dec (k / 8) (j / 8)) as [He|He].
    + right. apply Nat.eqb_neq. intros Hm. apply Hne.
      rewrite (Nat.div_mod k 8), (Nat.div_mod j 8) by lia. congruence.
    + left. now apply Nat.eqb_neq.
Qed.

Lemma bits_add_contains k j s :
  bits_contains (Z.of_nat k) (bits_add cfg j s) = (k =? j) || bits_contains (Z.of_nat k) s.
Proof using Hcfg.
  rewrite !bits_contains_direct. unfold bits_add. rewrite bits_or_direct, (div_mod_eqb k j).
  destruct (Nat.eqb_spec (k / 8) (j / 8)) as [He|He]; cbn [andb orb negb]; auto.
  rewrite N.lor_spec, mask_testbit, He. apply orb_comm.
Qed.

Lemma inv_mask_testbit (a b : nat) : a < 8 -> b < 8 ->
  N.testbit (255 - N.shiftl 1 (N.of_nat a)) (N.of_nat b) = negb (b =? a).
Proof.
  intros Ha Hb.
  do 8 (destruct a as [|a]; [do 8 (destruct b as [|b]; [reflexivity|]); lia|]). lia.
Qed.

Lemma bits_discard_contains k j s :
  bits_contains (Z.of_nat k) (bits_discard j s) = negb (k =? j) && bits_contains (Z.of_nat k) s.
Proof.
  rewrite !bits_contains_direct. unfold bits_discard.
  destruct (seq_get s (j / 8)) as [v|] eqn:Hg.
  - rewrite seq_set_direct; [|apply nth_error_Some; unfold seq_get in Hg; congruence].
    rewrite (div_mod_eqb k j). destruct (Nat.eqb_spec (k / 8) (j / 8)) as [He|He]; cbn [andb orb negb]; auto.
    unfold bit_mask. rewrite N.land_spec, inv_mask_testbit by (apply Nat.mod_upper_bound; lia).
    unfold ma_direct. rewrite He, Hg. apply andb_comm.
  - rewrite (div_mod_eqb k j). destruct (Nat.eqb_spec (k / 8) (j / 8)) as [He|He]; cbn [andb orb negb]; auto.
    unfold ma_direct. rewrite He, Hg, N.bits_0. now rewrite andb_false_r.
Qed.

Lemma bits_update_contains ks : forall k s,
  bits_contains (Z.of_nat k) (bits_update cfg ks s) = true <->
  (In k ks \/ bits_contains (Z.of_nat k) s = true).
Proof using Hcfg.
  induction ks as [|a ks IH]; simpl; intros k s; [tauto|].
  unfold bits_update in *. simpl. rewrite IH.
  change (bits_or cfg a s) with (bits_add cfg a s). rewrite bits_add_contains.
  rewrite orb_true_iff, Nat.eqb_eq. intuition.
Qed.

Lemma byte_iter_spec h v k :
  In k (byte_iter h v) <-> (h <= k < h + 8 /\ N.testbit v (N.of_nat (k - h)) = true).
Proof.
  unfold byte_iter. destruct (N.eqb_spec v 0) as [->|Hv].
  { rewrite N.bits_0. simpl. intuition discriminate. }
  assert (Hbit : forall i m, m = N.shiftl 1 i -> (if (N.land v m =? 0)%N then false else true) = N.testbit v i).
  { intros i m ->. rewrite <- land_mask_testbit. now destruct (N.land v (N.shiftl 1 i) =? 0)%N. }
  rewrite in_flat_map. simpl. split.
  - intros ((i & m) & Hin & Hk). simpl in Hk.
    assert (Hm : m = N.shiftl 1 (N.of_nat i) /\ i < 8).
    { destruct Hin as [H|[H|[H|[H|[H|[H|[H|[H|[]]]]]]]]]; injection H; intros; subst; split; try reflexivity; lia. }
    destruct Hm as [Hm Hi]. pose proof (Hbit _ _ Hm) as Hb.
    destruct (N.land v m =? 0)%N; [contradiction|]. destruct Hk as [<-|[]].
    split; [lia|]. replace (h + i - h) with i by lia. congruence.
  - intros [Hk Hb].
    exists (k - h, N.shiftl 1 (N.of_nat (k - h))). split.
    + assert (Hlt : k - h < 8) by lia. remember (k - h) as i. clear -Hlt.
      do 8 (destruct i as [|i]; [simpl; tauto|]). lia.
    + simpl fst. simpl snd. pose proof (Hbit (N.of_nat (k - h)) _ eq_refl) as Hc.
      destruct (N.land v _ =? 0)%N; [congruence|]. left. lia.
Qed.

Lemma bits_iter_from_spec s : forall b k,
  In k (bits_iter_from b s) <->
  (b <= k /\ N.testbit (ma_direct 0%N ((k - b) / 8) s) (N.of_nat ((k - b) mod 8)) = true).
Proof.
  induction s as [|v s IH]; cbn [bits_iter_from]; intros b k.
  - unfold ma_direct, seq_get. split; [intros []|]. intros [_ H].
    replace (nth_error [] ((k - b) / 8)) with (@None N) in H by now destruct ((k - b) / 8).
    rewrite N.bits_0 in H. discriminate.
  - rewrite in_app_iff, IH, byte_iter_spec. split.
    + intros [[H1 H2]|[H1 H2]].
      * split; [lia|]. rewrite Nat.div_small, Nat.mod_small by lia. exact H2.
      * split; [lia|]. replace (k - b) with (k - (b + 8) + 1 * 8) by lia.
        rewrite Nat.div_add, Nat.mod_add by lia. rewrite Nat.add_comm. exact H2.
    + intros [H1 H2]. destruct (lt_dec k (b + 8)) as [Hlt|Hge].
      * left. split; [lia|]. rewrite Nat.div_small, Nat.mod_small in H2 by lia. exact H2.
      * right. split; [lia|]. replace (k - b) with (k - (b + 8) + 1 * 8) in H2 by lia.
        rewrite Nat.div_add, Nat.mod_add in H2 by lia. rewrite Nat.add_comm in H2. exact H2.
Qed.

Lemma bits_iter_spec k s : In k (bits_iter s) <-> bits_contains (Z.of_nat k) s = true.
Proof.
  unfold bits_iter. rewrite bits_iter_from_spec, bits_contains_direct, Nat.sub_0_r. intuition lia.
Qed.

Lemma sorted_app (l1 l2 : list nat) : StronglySorted lt l1 -> StronglySorted lt l2 ->
  (forall a b, In a l1 -> In b l2 -> a < b) -> StronglySorted lt (l1 ++ l2).
Proof.
  induction 1 as [|a l1 HS IH HF]; simpl; intros H2 Hlt; auto. constructor.
  - apply IH; auto.
  - rewrite Forall_forall in *. intros x Hx. apply in_app_or in Hx. destruct Hx; auto.
Qed.

Lemma byte_iter_sorted h v : StronglySorted lt (byte_iter h v).
Proof.
  unfold byte_iter. destruct (v =? 0)%N; [constructor|]. simpl.
  repeat match goal with |- context [if ?c then _ else _] => destruct c end;
    simpl; repeat constructor; lia.
Qed.

Lemma bits_iter_from_sorted s : forall b, StronglySorted lt (bits_iter_from b s).
Proof.
  induction s as [|v s IH]; simpl; intros b; [constructor|].
  apply sorted_app; auto using byte_iter_sorted.
  intros x y Hx Hy. apply byte_iter_spec in Hx. apply bits_iter_from_spec in Hy. lia.
Qed.

(** [array("B")] can store the values of the bytes. *)
Definition bytes_ok (s : list N) : Prop := Forall (fun v => v < 256)%N s.

Lemma seq_set_ok s : forall k v, bytes_ok s -> (v < 256)%N ->
  bytes_ok (match seq_set s k v with Some s' => s' | None => s end).
Proof.
  induction s as [|x s IH]; simpl; intros k v Hs Hv; auto.
  inversion Hs; subst. destruct k; [constructor; auto|].
  specialize (IH k v H2 Hv). destruct (seq_set s k v); simpl; constructor; auto.
Qed.

Lemma lor_bound a b : (a < 256 -> b < 256 -> N.lor a b < 256)%N.
Proof.
  intros Ha Hb. destruct (N.eq_dec (N.lor a b) 0) as [->|Hn]; [lia|].
  change 256%N with (2 ^ 8)%N. apply N.log2_lt_pow2; [lia|].
  rewrite N.log2_lor. apply N.max_lub_lt.
  - destruct (N.eq_dec a 0) as [->|]; [reflexivity|]. apply N.log2_lt_pow2; lia.
  - destruct (N.eq_dec b 0) as [->|]; [reflexivity|]. apply N.log2_lt_pow2; lia.
Qed.

Lemma bit_mask_bound k : (bit_mask k < 256)%N.
Proof.
  unfold bit_mask. rewrite N.shiftl_1_l. change 256%N with (2 ^ 8)%N.
  apply N.pow_lt_mono_r; [lia|]. pose proof (Nat.mod_upper_bound k 8). lia.
Qed.

Lemma loop_ok tpl target fuel : forall s, bytes_ok s -> bytes_ok tpl ->
  bytes_ok (extend_by_template_loop fuel s tpl target).
Proof.
  induction fuel as [|fuel IH]; simpl; intros s Hs Ht; auto.
  destruct (_ <? _); auto. apply IH; auto. apply Forall_app. auto.
Qed.

Lemma extend_ok s k v : bytes_ok s -> (v < 256)%N ->
  bytes_ok (match extend_and_set cfg 0%N s k v with Some s' => s' | None => s end).
Proof.
  intros Hs Hv. unfold extend_and_set.
  assert (H : forall n, bytes_ok (repeat 0%N n)).
  { intros n. apply Forall_forall. intros x Hx. apply repeat_spec in Hx. subst. lia. }
  match goal with |- context [seq_set ?s1 k v] => set (t := s1) end.
  assert (Ht : bytes_ok t).
  { unfold t, expansion_template, factory. destruct (w_by_template cfg).
    - rewrite repeat_plus. apply loop_ok; auto.
    - apply Forall_app. split; auto. apply H. }
  pose proof (seq_set_ok t k v Ht Hv) as Hok. destruct (seq_set t k v); auto.
Qed.

Lemma get_ok s k v : bytes_ok s -> seq_get s k = Some v -> (v < 256)%N.
Proof. intros Hs Hg. apply nth_error_In in Hg. unfold bytes_ok in Hs. rewrite Forall_forall in Hs. auto. Qed.

Lemma bits_add_ok k s : bytes_ok s -> bytes_ok (bits_add cfg k s).
Proof.
  intros Hs. unfold bits_add, bits_or. destruct (seq_get s (k / 8)) as [v|] eqn:Hg.
  - apply seq_set_ok; auto. apply lor_bound; [eapply get_ok; eauto|apply bit_mask_bound].
  - apply extend_ok; auto. apply bit_mask_bound.
Qed.

Lemma bits_discard_ok k s : bytes_ok s -> bytes_ok (bits_discard k s).
Proof.
  intros Hs. unfold bits_discard. destruct (seq_get s (k / 8)) as [v|] eqn:Hg; auto.
  apply seq_set_ok; auto. pose proof (get_ok _ _ _ Hs Hg).
  assert (N.land v (255 - bit_mask k) <= v)%N; [|lia].
  apply N.ldiff_le. apply N.bits_inj_0. intros n. rewrite N.ldiff_spec, N.land_spec.
  destruct (N.testbit v n); simpl; auto using andb_false_r.
Qed.

Lemma bits_new_ok : bytes_ok (bits_new cfg).
Proof. apply Forall_forall. intros x Hx. apply repeat_spec in Hx. subst. lia. Qed.

(** Number of elements: [bit_count] counts the elements of the byte. *)
Lemma bit_count_iter_all :
  forallb (fun n => bit_count (N.of_nat n) =? length (byte_iter 0 (N.of_nat n))) (seq 0 256) = true.
Proof. vm_compute. reflexivity. Qed.

Lemma byte_iter_length h v : length (byte_iter h v) = length (byte_iter 0 v).
Proof.
  unfold byte_iter. destruct (v =? 0)%N; auto.
  generalize (combine (seq 0 8) [1; 2; 4; 8; 16; 32; 64; 128]%N).
  induction l as [|p l IH]; simpl; auto. rewrite !app_length, IH.
  now destruct (N.land v (snd p) =? 0)%N.
Qed.

Lemma bit_count_iter h v : (v < 256)%N -> bit_count v = length (byte_iter h v).
Proof.
  intros Hv. rewrite byte_iter_length. pose proof bit_count_iter_all as H.
  rewrite forallb_forall in H. specialize (H (N.to_nat v)). rewrite N2Nat.id in H.
  apply Nat.eqb_eq. apply H. apply in_seq. lia.
Qed.

Lemma bits_len_iter s : bytes_ok s -> bits_len s = length (bits_iter s).
Proof.
  unfold bits_len, bits_iter. generalize 0. intros b Hs. revert b.
  induction Hs as [|v s Hv Hs IH]; simpl; intros b; auto.
  rewrite app_length, <- (IH (b + 8)). now rewrite (bit_count_iter b).
Qed.

Lemma bits_visit_spec k s :
  bits_visit cfg k s = if bits_contains (Z.of_nat k) s then None else Some (bits_add cfg k s).
Proof.
  rewrite bits_contains_direct. unfold bits_visit, bits_add, bits_or, ma_direct.
  destruct (seq_get s (k / 8)) as [v|] eqn:Hg.
  - unfold bit_mask at 1. rewrite land_mask_testbit.
    destruct (N.testbit v (N.of_nat (k mod 8))); auto.
  - now rewrite N.bits_0.
Qed.

Definition BitVSet : VSet nat.
Proof using cfg Hcfg.
  refine {| vs_t := list N; vs_empty := bits_new cfg; vs_mem := fun i s => bits_contains (Z.of_nat i) s;
            vs_add := bits_add cfg; vs_discard := bits_discard |}.
  - exact bits_new_contains.
  - intros i j s. rewrite bits_add_contains, orb_true_iff, Nat.eqb_eq. tauto.
  - intros i j s. rewrite bits_discard_contains, andb_true_iff, negb_true_iff, Nat.eqb_neq. tauto.
Defined.
End BitSet.

(** * Mappings *)
Section Mapping.
Context {A : Type}.
Variable A_eqb : A -> A -> bool.
Hypothesis A_eqb_spec : forall a b, reflect (a = b) (A_eqb a b).
Variable cfg : wcfg.
Hypothesis Hcfg : wcfg_ok cfg.
Variable default : A.

Lemma ma_contains_direct k s :
  ma_contains A_eqb default (Z.of_nat k) s = negb (A_eqb (ma_direct default k s) default).
Proof using A_eqb_spec.
  unfold ma_contains. destruct (Z.ltb_spec (Z.of_nat k) 0); [lia|]. rewrite Nat2Z.id.
  unfold ma_direct, seq_get. destruct (Nat.ltb_spec k (length s)) as [Hk|Hk]; simpl.
  - destruct (nth_error s k) eqn:Hn; auto. apply nth_error_None in Hn. lia.
  - apply nth_error_None in Hk. rewrite Hk. destruct (A_eqb_spec default default); [reflexivity|congruence].
Qed.

Lemma ma_contains_neg k s : (k < 0)%Z -> ma_contains A_eqb default k s = false.
Proof. intros H. unfold ma_contains. destruct (Z.ltb_spec k 0); auto; lia. Qed.

Lemma ma_getitem_direct k s :
  ma_getitem A_eqb default k s =
  if A_eqb (ma_direct default k s) default then None else Some (ma_direct default k s).
Proof using A_eqb_spec.
  unfold ma_getitem. rewrite ma_contains_direct.
  destruct (A_eqb_spec (ma_direct default k s) default) as [He|Hne]; auto. simpl.
  unfold ma_direct in *. destruct (seq_get s k); congruence.
Qed.

Lemma ma_setitem_direct k v s j :
  ma_direct default j (ma_setitem cfg default k v s) = if j =? k then v else ma_direct default j s.
Proof using Hcfg. apply set_or_extend_direct. auto. Qed.

Lemma ma_delitem_direct k s j :
  ma_direct default j (ma_delitem A_eqb default k s) = if j =? k then default else ma_direct default j s.
Proof using A_eqb_spec.
  unfold ma_delitem. rewrite ma_contains_direct.
  destruct (A_eqb_spec (ma_direct default k s) default) as [He|Hne]; simpl.
  - destruct (Nat.eqb_spec j k); congruence.
  - apply seq_set_direct. unfold ma_direct, seq_get in Hne.
    apply nth_error_Some. intros Hn. rewrite Hn in Hne. congruence.
Qed.

Lemma ma_setdefault_direct k v s j :
  ma_direct default j (ma_setdefault A_eqb cfg default k v s) =
  if j =? k then (if A_eqb (ma_direct default k s) default then v else ma_direct default k s)
  else ma_direct default j s.
Proof using A_eqb_spec Hcfg.
  unfold ma_setdefault. destruct (seq_get s k) as [x|] eqn:Hg.
  - assert (Hd : ma_direct default k s = x) by (unfold ma_direct; now rewrite Hg).
    rewrite Hd. destruct (A_eqb_spec x default).
    + rewrite seq_set_direct; auto. apply nth_error_Some. unfold seq_get in Hg. congruence.
    + destruct (Nat.eqb_spec j k); congruence.
  - assert (Hd : ma_direct default k s = default) by (unfold ma_direct; now rewrite Hg).
    rewrite Hd. destruct (A_eqb_spec default default); [|congruence].
    destruct (extend_and_set_spec cfg Hcfg default s k v) as (s' & -> & _ & Hn). auto.
Qed.

Lemma ma_new_direct j : ma_direct default j (ma_new cfg default) = default.
Proof. apply factory_direct. Qed.

Lemma ma_iter_from_spec s : forall b k,
  In k (ma_iter_from A_eqb default b s) <-> (b <= k /\ ma_direct default (k - b) s <> default).
Proof using A_eqb_spec.
  induction s as [|v s IH]; simpl; intros b k.
  - unfold ma_direct, seq_get. split; [tauto|]. intros [_ H]. destruct (k - b); simpl in H; congruence.
  - rewrite in_app_iff, IH. split.
    + intros [H|[H1 H2]].
      * destruct (A_eqb_spec v default) as [|Hv]; [contradiction|]. destruct H as [<-|[]].
        rewrite Nat.sub_diag. unfold ma_direct. simpl. auto.
      * split; [lia|]. replace (k - b) with (S (k - S b)) by lia. exact H2.
    + intros [H1 H2]. destruct (Nat.eq_dec k b) as [->|Hne].
      * left. rewrite Nat.sub_diag in H2. unfold ma_direct in H2. simpl in H2.
        destruct (A_eqb_spec v default); [congruence|now left].
      * right. split; [lia|]. replace (k - b) with (S (k - S b)) in H2 by lia. exact H2.
Qed.

Lemma ma_iter_spec k s : In k (ma_iter A_eqb default s) <-> ma_contains A_eqb default (Z.of_nat k) s = true.
Proof using A_eqb_spec.
  unfold ma_iter. rewrite ma_iter_from_spec, ma_contains_direct, Nat.sub_0_r.
  destruct (A_eqb_spec (ma_direct default k s) default); intuition (try lia; try discriminate).
Qed.

Lemma ma_iter_from_sorted s : forall b, StronglySorted lt (ma_iter_from A_eqb default b s).
Proof using A_eqb_spec.
  induction s as [|v s IH]; simpl; intros b; [constructor|].
  destruct (A_eqb v default); simpl; auto. constructor; auto.
  apply Forall_forall. intros k Hk. apply ma_iter_from_spec in Hk. lia.
Qed.

Lemma ma_len_iter s : ma_len A_eqb default s = length (ma_iter A_eqb default s).
Proof.
  unfold ma_len, ma_iter. generalize 0. induction s as [|v s IH]; simpl; intros b; auto.
  destruct (A_eqb v default); simpl; auto.
Qed.

(** As a mapping with a default value (distances, numbers). *)
Definition SeqDMap : DMap nat A default.
Proof using cfg Hcfg.
  refine {| dm_t := list A; dm_empty := ma_new cfg default; dm_get := fun i s => ma_direct default i s;
            dm_set := fun i v s => ma_setitem cfg default i v s |}.
  - exact ma_new_direct.
  - intros i w m. rewrite ma_setitem_direct. now rewrite Nat.eqb_refl.
  - intros i j w m Hne. rewrite ma_setitem_direct. apply Nat.eqb_neq in Hne. now rewrite Hne.
Defined.
End Mapping.

(** As a partial mapping, with None as gap marker (predecessors, labels). *)
Section WithNone.
Context {B : Type}.
Variable cfg : wcfg.
Hypothesis Hcfg : wcfg_ok cfg.
Definition SeqPMapNone : PMap nat B.
Proof using cfg Hcfg.
  refine {| pm_t := list (option B); pm_empty := ma_new cfg None;
            pm_get := fun i s => ma_direct None i s;
            pm_set := fun i v s => ma_setitem cfg None i (Some v) s;
            pm_is_none := fun i s => match seq_get s i with Some (Some _) => false | _ => true end |}.
  - apply ma_new_direct.
  - intros i w m. rewrite ma_setitem_direct by auto. now rewrite Nat.eqb_refl.
  - intros i j w m Hne. rewrite ma_setitem_direct by auto. apply Nat.eqb_neq in Hne. now rewrite Hne.
Defined.

Lemma SeqPMapNone_gaps : marks_gaps SeqPMapNone.
Proof. intros i m. cbn. unfold ma_direct. destruct (seq_get m i) as [[b|]|]; intuition discriminate. Qed.
End WithNone.

(** As a partial mapping with a number as gap marker (_gears.py:812-829): the values are
    the numbers different from the marker. *)
Section Sentinel.
Variable sentinel : Z.
Variable cfg : wcfg.
Hypothesis Hcfg : wcfg_ok cfg.
Definition sval : Type := {z : Z | (z =? sentinel)%Z = false}.
Definition sval_get (z : Z) : option sval :=
  (if (z =? sentinel)%Z as b return ((z =? sentinel)%Z = b -> option sval)
   then fun _ => None else fun H => Some (exist _ z H)) eq_refl.

Lemma sval_get_some (v : sval) : sval_get (proj1_sig v) = Some v.
Proof.
  destruct v as [z H]. simpl. unfold sval_get.
  generalize (eq_refl (z =? sentinel)%Z).
  generalize (z =? sentinel)%Z at 2 3. intros b e. destruct b; [congruence|].
  assert (e = H) as -> by (apply UIP_dec; apply bool_dec). reflexivity.
Qed.

Lemma sval_get_none : sval_get sentinel = None.
Proof.
  unfold sval_get. generalize (eq_refl (sentinel =? sentinel)%Z).
  generalize (sentinel =? sentinel)%Z at 2 3. intros b e. destruct b; auto.
  exfalso. rewrite Z.eqb_refl in e. discriminate.
Qed.

Definition SeqPMapSentinel : PMap nat sval.
Proof using cfg Hcfg.
  refine {| pm_t := list Z; pm_empty := ma_new cfg sentinel;
            pm_get := fun i s => sval_get (ma_direct sentinel i s);
            pm_set := fun i v s => ma_setitem cfg sentinel i (proj1_sig v) s;
            pm_is_none := fun i s => match seq_get s i with Some _ => false | None => true end |}.
  - intros i. rewrite ma_new_direct. apply sval_get_none.
  - intros i w m. rewrite ma_setitem_direct by auto. rewrite Nat.eqb_refl. apply sval_get_some.
  - intros i j w m Hne. rewrite ma_setitem_direct by auto. apply Nat.eqb_neq in Hne. now rewrite Hne.
Defined.
End Sentinel.

(** Hash based collections. *)
Section Hashed.
Context {I : Type}.
Variable I_dec : forall a b : I, {a = b} + {a <> b}.

Definition HashVSet : VSet I.
Proof using I_dec.
  refine {| vs_t := I -> bool; vs_empty := fun _ => false; vs_mem := fun i s => s i;
            vs_add := hset_add I_dec; vs_discard := hset_discard I_dec |}.
  - auto.
  - intros i j s. unfold hset_add. destruct (I_dec i j); intuition congruence.
  - intros i j s. unfold hset_discard. destruct (I_dec i j); intuition congruence.
Defined.

Definition HashPMap {A} : PMap I A.
Proof using I_dec.
  refine {| pm_t := I -> option A; pm_empty := fun _ => None; pm_get := fun i m => m i;
            pm_set := fun i a m => hmap_set I_dec i (Some a) m;
            pm_is_none := fun i m => match m i with None => true | Some _ => false end |}.
  - auto.
  - intros. unfold hmap_set. destruct (I_dec i i); congruence.
  - intros. unfold hmap_set. destruct (I_dec i j); congruence.
Defined.

Lemma HashPMap_gaps {A} : marks_gaps (@HashPMap A).
Proof. intros i m. cbn. destruct (m i); intuition discriminate. Qed.

Definition HashDMap {W} (dflt : W) : DMap I W dflt.
Proof using I_dec.
  refine {| dm_t := I -> W; dm_empty := fun _ => dflt; dm_get := fun i m => m i;
            dm_set := fun i a m => hmap_set I_dec i a m |}.
  - auto.
  - intros. unfold hmap_set. destruct (I_dec i i); congruence.
  - intros. unfold hmap_set. destruct (I_dec i j); congruence.
Defined.
End Hashed.
