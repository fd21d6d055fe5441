(** Sets of vertices as bits of integers. *)
From Coq Require Import List ZArith Bool Lia Permutation.
From Verif Require Import TspModel.
Import ListNotations.
Local Open Scope Z_scope.

Lemma pow2_bit u k : 0 <= u -> 0 <= k -> Z.testbit (2 ^ u) k = (k =? u).
Proof. intros Hu Hk. rewrite Z.pow2_bits_eqb by lia. apply Z.eqb_sym. Qed.

Lemma remove_bit S u k : 0 <= u -> 0 <= k -> Z.testbit S u = true -> Z.testbit (S - 2 ^ u) k = Z.testbit S k && negb (k =? u).
Proof.
  intros Hu Hk HS. rewrite Z.sub_nocarry_ldiff.
  - rewrite Z.ldiff_spec, pow2_bit by lia. reflexivity.
  - apply Z.bits_inj'. intros j Hj. rewrite Z.ldiff_spec, Z.bits_0, pow2_bit by lia. destruct (Z.eqb_spec j u); simpl; auto. subst. now rewrite HS.
Qed.

Lemma add_bit S u k : 0 <= u -> 0 <= k -> Z.testbit S u = false -> Z.testbit (S + 2 ^ u) k = Z.testbit S k || (k =? u).
Proof.
  intros Hu Hk HS. rewrite Z.add_nocarry_lxor.
  - rewrite Z.lxor_spec, pow2_bit by lia. destruct (Z.eqb_spec k u) as [->|]; [rewrite HS; reflexivity|destruct (Z.testbit S k); reflexivity].
  - apply Z.bits_inj'. intros j Hj. rewrite Z.land_spec, Z.bits_0, pow2_bit by lia. destruct (Z.eqb_spec j u); [subst; now rewrite HS|apply andb_false_r].
Qed.

Lemma below_bit n S k : 0 <= n -> 0 <= S < 2 ^ n -> n <= k -> Z.testbit S k = false.
Proof.
  intros Hn HS Hk. destruct (Z.eq_dec S 0) as [->|Hne]; [apply Z.bits_0|].
  apply Z.bits_above_log2; [lia|]. apply Z.log2_lt_pow2; [lia|]. apply Z.lt_le_trans with (2 ^ n); [lia|]. apply Z.pow_le_mono_r; lia.
Qed.

Lemma bits_below n S : 0 <= n -> 0 <= S -> (forall k, n <= k -> Z.testbit S k = false) -> S < 2 ^ n.
Proof.
  intros Hn HS Hk. destruct (Z.eq_dec S 0) as [->|Hne]; [apply Z.pow_pos_nonneg; lia|].
  apply Z.log2_lt_pow2; [lia|]. destruct (Z_lt_le_dec (Z.log2 S) n) as [|Hge]; auto. exfalso. specialize (Hk _ Hge). rewrite Z.bit_log2 in Hk by lia. discriminate.
Qed.

Lemma all_bit n k : 0 <= n -> 0 <= k -> Z.testbit (2 ^ n - 1) k = (k <? n).
Proof.
  intros Hn Hk. replace (2 ^ n - 1) with (Z.ones n) by (rewrite Z.ones_equiv; lia). destruct (Z.ltb_spec k n); [apply Z.ones_spec_low|apply Z.ones_spec_high]; lia.
Qed.

Lemma complement_bit n S k : 0 <= n -> 0 <= S < 2 ^ n -> 0 <= k -> Z.testbit (2 ^ n - 1 - S) k = (k <? n) && negb (Z.testbit S k).
Proof.
  intros Hn HS Hk. rewrite Z.sub_nocarry_ldiff.
  - rewrite Z.ldiff_spec, all_bit by lia. reflexivity.
  - apply Z.bits_inj'. intros j Hj. rewrite Z.ldiff_spec, Z.bits_0, all_bit by lia. destruct (Z.ltb_spec j n); simpl; [apply andb_false_r|].
    rewrite (below_bit n) by lia. reflexivity.
Qed.

Lemma bit_positive S u : 0 <= S -> 0 <= u -> Z.testbit S u = true -> 2 ^ u <= S.
Proof.
  intros HS Hu Hb. destruct (Z_lt_le_dec S (2 ^ u)) as [Hlt|]; auto. rewrite (below_bit u S u) in Hb by lia. discriminate.
Qed.

Lemma log2_remove S : 0 < S -> 0 <= S - 2 ^ Z.log2 S < 2 ^ Z.log2 S.
Proof. intros HS. pose proof (Z.log2_spec S HS) as [H1 H2]. rewrite Z.pow_succ_r in H2 by (apply Z.log2_nonneg). lia. Qed.

(** The loop over a set. *)
Lemma edges_to_in graph v (new_state : Z -> Z) : forall fuel m s w l, 0 <= m < 2 ^ Z.of_nat fuel ->
  (In (s, w, l) (edges_to graph fuel m v new_state) <-> exists u, 0 <= u /\ Z.testbit m u = true /\ s = new_state u /\ w = cell graph v u).
Proof.
  induction fuel as [|fuel IH]; intros m s w l Hm.
  - assert (m = 0) as -> by (simpl in Hm; lia). simpl. split; [contradiction|]. intros (u & _ & Hb & _). rewrite Z.bits_0 in Hb. discriminate.
  - cbn [edges_to]. destruct (Z.eqb_spec m 0) as [->|Hne].
    { split; [contradiction|]. intros (u & _ & Hb & _). rewrite Z.bits_0 in Hb. discriminate. }
    assert (Hpos : 0 < m) by lia. pose proof (log2_remove m Hpos) as Hr. pose proof (Z.log2_nonneg m) as Hl0.
    assert (Hlog : Z.log2 m <= Z.of_nat fuel). { assert (Z.log2 m < Z.of_nat (S fuel)) by (apply Z.log2_lt_pow2; lia). lia. }
    rewrite Z.shiftl_1_l. cbn [In]. rewrite IH.
    2:{ split; [lia|]. apply Z.lt_le_trans with (2 ^ Z.log2 m); [lia|]. apply Z.pow_le_mono_r; lia. }
    assert (Hbit : forall u, 0 <= u -> Z.testbit (m - 2 ^ Z.log2 m) u = Z.testbit m u && negb (u =? Z.log2 m)).
    { intros u Hu. apply remove_bit; auto. apply Z.bit_log2. lia. }
    split.
    + intros [Heq|(u & Hu & Hb & Hs & Hw)].
      * injection Heq as <- <- _. exists (Z.log2 m). split; auto. split; auto. apply Z.bit_log2. lia.
      * exists u. split; auto. rewrite Hbit in Hb by auto. apply andb_true_iff in Hb. tauto.
    + intros (u & Hu & Hb & Hs & Hw). destruct (Z.eqb_spec u (Z.log2 m)) as [->|Hn]; [left; subst; destruct l; reflexivity|].
      right. exists u. split; auto. rewrite Hbit, Hb by auto. split; auto. destruct (Z.eqb_spec u (Z.log2 m)); [contradiction|reflexivity].
Qed.

Lemma edges_to_weight graph v (new_state : Z -> Z) : forall fuel m s w l, In (s, w, l) (edges_to graph fuel m v new_state) -> exists u, w = cell graph v u.
Proof.
  induction fuel as [|fuel IH]; cbn [edges_to]; intros m s w l; [contradiction|]. destruct (m =? 0); [contradiction|].
  intros [Heq|Hin]; [|eauto]. injection Heq as _ <- _. eauto.
Qed.

Lemma range_in n x : In x (range n) <-> 0 <= x < Z.of_nat n.
Proof.
  unfold range. rewrite in_map_iff. split.
  - intros (k & <- & Hk). apply in_seq in Hk. lia.
  - intros H. exists (Z.to_nat x). split; [lia|]. apply in_seq. lia.
Qed.

Lemma range_nodup n : NoDup (range n).
Proof. apply FinFun.Injective_map_NoDup; [|apply seq_NoDup]. intros a b. apply Nat2Z.inj. Qed.

(** The adjacency masks. *)
Lemma fold_lor_bit l k : 0 <= k -> forall a, Z.testbit (fold_left Z.lor l a) k = Z.testbit a k || existsb (fun x => Z.testbit x k) l.
Proof.
  intros Hk. induction l as [|x l IH]; intros a; simpl; [now rewrite orb_false_r|]. rewrite IH, Z.lor_spec. now rewrite orb_assoc.
Qed.

Lemma fold_lor_nonneg l : (forall x, In x l -> 0 <= x) -> forall a, 0 <= a -> 0 <= fold_left Z.lor l a.
Proof.
  induction l as [|x l IH]; intros Hl a Ha; simpl; auto. apply IH; [intros; apply Hl; now right|]. apply Z.lor_nonneg. split; auto. apply Hl. now left.
Qed.

Lemma adjacent_bit graph n v k : 0 <= k ->
  Z.testbit (adjacent graph n v) k = true <-> k < Z.of_nat n /\ v <> k /\ cell graph v k <> None.
Proof.
  intros Hk. unfold adjacent. rewrite fold_lor_bit by auto. rewrite Z.bits_0. simpl. rewrite existsb_exists. split.
  - intros (x & Hx & Hb). apply in_map_iff in Hx. destruct Hx as (t & <- & Ht). apply range_in in Ht.
    destruct (Z.eqb_spec v t) as [->|Hne]; simpl in Hb; [rewrite Z.bits_0 in Hb; discriminate|].
    destruct (cell graph v t) eqn:Ec; [|rewrite Z.bits_0 in Hb; discriminate]. rewrite Z.shiftl_1_l, pow2_bit in Hb by lia.
    apply Z.eqb_eq in Hb. subst t. split; [lia|]. split; [auto|congruence].
  - intros (H1 & H2 & H3). eexists. split; [apply in_map; apply range_in; split; [exact Hk|exact H1]|].
    destruct (Z.eqb_spec v k); [contradiction|]. destruct (cell graph v k); [|contradiction]. simpl. rewrite Z.shiftl_1_l, pow2_bit by lia. apply Z.eqb_refl.
Qed.

Lemma adjacent_range graph n v : 0 <= adjacent graph n v < 2 ^ Z.of_nat n.
Proof.
  assert (H0 : 0 <= adjacent graph n v).
  { unfold adjacent. apply fold_lor_nonneg; [|lia]. intros x Hx. apply in_map_iff in Hx. destruct Hx as (t & <- & Ht). apply range_in in Ht.
    destruct (negb _ && _); [rewrite Z.shiftl_1_l; apply Z.pow_nonneg; lia|lia]. }
  split; auto. apply bits_below; [lia|auto|]. intros k Hk. destruct (Z.testbit (adjacent graph n v) k) eqn:Hb; auto.
  apply adjacent_bit in Hb; lia.
Qed.

Lemma land_range n a b : 0 <= n -> 0 <= a -> 0 <= b < 2 ^ n -> 0 <= Z.land a b < 2 ^ n.
Proof.
  intros Hn Ha Hb. assert (H0 : 0 <= Z.land a b) by (apply Z.land_nonneg; auto). split; auto. apply bits_below; auto.
  intros k Hk. rewrite Z.land_spec, (below_bit n b) by lia. apply andb_false_r.
Qed.

(** The vertices in a set. *)
Definition elements (n : nat) (S : Z) : list Z := filter (Z.testbit S) (range n).

Lemma elements_in n S u : In u (elements n S) <-> 0 <= u < Z.of_nat n /\ Z.testbit S u = true.
Proof. unfold elements. rewrite filter_In, range_in. reflexivity. Qed.

Lemma elements_nodup n S : NoDup (elements n S).
Proof. apply NoDup_filter, range_nodup. Qed.

Lemma elements_remove n S u : 0 <= u < Z.of_nat n -> Z.testbit S u = true -> Permutation (u :: elements n (S - 2 ^ u)) (elements n S).
Proof.
  intros Hu Hb. apply NoDup_Permutation.
  - constructor; [|apply elements_nodup]. rewrite elements_in, remove_bit by (assumption || lia). rewrite Z.eqb_refl. simpl. rewrite andb_false_r. intros [_ ?]. discriminate.
  - apply elements_nodup.
  - intros x. simpl. rewrite !elements_in. split.
    + intros [<-|[H1 H2]]; auto. rewrite remove_bit in H2 by (assumption || lia). apply andb_true_iff in H2. tauto.
    + intros [H1 H2]. destruct (Z.eq_dec u x) as [|Hn]; auto. right. split; auto. rewrite remove_bit, H2 by (assumption || lia). simpl.
      apply negb_true_iff, Z.eqb_neq. auto.
Qed.

Lemma elements_empty n : elements n 0 = [].
Proof. unfold elements. induction (range n) as [|x l IH]; simpl; auto. rewrite Z.bits_0. exact IH. Qed.
