(** The code of InlineModel.v has the same results and effects as the methods of the collections. *)
From Coq Require Import List ZArith NArith Bool Arith Lia.
From Verif Require Import GearSpec GearModel GearProofs InlineSpec InlineModel.
Import ListNotations.

Section Bytes.
Variable cfg : wcfg.

Lemma byte_read_spec k s : byte_read k s = if k <? length s then Some (bs_contains (Z.of_nat k) s) else None.
Proof.
  unfold byte_read, bs_contains. destruct (Z.ltb_spec (Z.of_nat k) 0); [lia|]. rewrite Nat2Z.id. unfold seq_get.
  destruct (Nat.ltb_spec k (length s)) as [H1|H1].
  - destruct (nth_error s k) eqn:E; auto. apply nth_error_None in E. lia.
  - apply nth_error_None in H1. now rewrite H1.
Qed.
Lemma byte_test_spec k s : byte_test k s = bs_contains (Z.of_nat k) s.
Proof.
  unfold byte_test. rewrite byte_read_spec. destruct (Nat.ltb_spec k (length s)); auto. rewrite bs_contains_direct.
  unfold ma_direct, seq_get. rewrite (proj2 (nth_error_None s k)) by lia. reflexivity.
Qed.
Lemma byte_visit_spec k s : byte_visit cfg k s = if bs_contains (Z.of_nat k) s then None else Some (bs_add cfg k s).
Proof. apply bs_visit_spec. Qed.
Lemma byte_mark_spec k s : byte_mark cfg k s = bs_add cfg k s.
Proof. reflexivity. Qed.
Lemma byte_clear_spec k s : byte_clear k s = if k <? length s then Some (bs_discard k s) else None.
Proof.
  unfold byte_clear, bs_discard. destruct (Nat.ltb_spec k (length s)).
  - destruct (seq_set_in s k 0%N) as (s' & -> & _); auto.
  - apply seq_set_out. lia.
Qed.
Lemma byte_leave_spec k s : byte_leave k s = if bs_contains (Z.of_nat k) s then Some (bs_discard k s) else None.
Proof.
  rewrite bs_contains_direct. unfold byte_leave, ma_direct, bs_discard, seq_get. destruct (nth_error s k) as [v|] eqn:E; auto.
  destruct (negb (v =? 0)%N); auto. destruct (seq_set_in s k 0%N) as (s' & -> & _); auto. apply nth_error_Some. congruence.
Qed.
End Bytes.

Section Bits.
Variable cfg : wcfg.

Lemma bit_read_spec k s : bit_read k s = if k / 8 <? length s then Some (bits_contains (Z.of_nat k) s) else None.
Proof.
  rewrite bits_contains_direct. unfold bit_read, ma_direct, seq_get, bit_mask. destruct (Nat.ltb_spec (k / 8) (length s)) as [H1|H1].
  - destruct (nth_error s (k / 8)) eqn:E; [|apply nth_error_None in E; lia]. cbn [option_map]. now rewrite land_mask_testbit.
  - apply nth_error_None in H1. now rewrite H1.
Qed.
Lemma bit_test_spec k s : bit_test k s = bits_contains (Z.of_nat k) s.
Proof.
  unfold bit_test. rewrite bit_read_spec. destruct (Nat.ltb_spec (k / 8) (length s)); auto. rewrite bits_contains_direct.
  unfold ma_direct, seq_get. rewrite (proj2 (nth_error_None s (k / 8))) by lia. now rewrite N.bits_0.
Qed.
Lemma bit_visit_spec k s : bit_visit cfg k s = if bits_contains (Z.of_nat k) s then None else Some (bits_add cfg k s).
Proof. apply bits_visit_spec. Qed.
Lemma bit_mark_spec k s : bit_mark cfg k s = bits_add cfg k s.
Proof. reflexivity. Qed.

Lemma sub_mask_all :
  forallb (fun v => forallb (fun b => let m := N.shiftl 1 (N.of_nat b) in
     if N.testbit (N.of_nat v) (N.of_nat b) then negb (N.of_nat v <? m)%N && (N.of_nat v - m =? N.land (N.of_nat v) (255 - m))%N else true) (seq 0 8)) (seq 0 256) = true.
Proof. vm_compute. reflexivity. Qed.

Lemma sub_mask v k : (v < 256)%N -> N.testbit v (N.of_nat (k mod 8)) = true ->
  (v <? bit_mask k)%N = false /\ (v - bit_mask k = N.land v (255 - bit_mask k))%N.
Proof.
  intros Hv Ht. pose proof sub_mask_all as H. rewrite forallb_forall in H.
  specialize (H (N.to_nat v)). assert (Hin : In (N.to_nat v) (seq 0 256)) by (apply in_seq; lia). specialize (H Hin).
  rewrite forallb_forall in H. specialize (H (k mod 8)). assert (Hin2 : In (k mod 8) (seq 0 8)).
  { apply in_seq. pose proof (Nat.mod_upper_bound k 8). lia. }
  specialize (H Hin2). cbv zeta in H. rewrite N2Nat.id, Ht in H. apply andb_true_iff in H. destruct H as (H1 & H2). unfold bit_mask.
  apply negb_true_iff in H1. apply N.eqb_eq in H2. auto.
Qed.

Lemma bit_clear_spec k s : bytes_ok s -> bits_contains (Z.of_nat k) s = true -> bit_clear k s = Some (bits_discard k s).
Proof.
  rewrite bits_contains_direct. unfold bit_clear, bits_discard, ma_direct. intros Hs Hc. destruct (seq_get s (k / 8)) as [v|] eqn:E; [|now rewrite N.bits_0 in Hc].
  destruct (sub_mask v k (get_ok _ _ _ Hs E) Hc) as (-> & ->).
  destruct (seq_set_in s (k / 8) (N.land v (255 - bit_mask k))) as (s' & -> & _); auto. apply nth_error_Some. unfold seq_get in E. congruence.
Qed.
Lemma bit_leave_spec k s : bytes_ok s -> bit_leave k s = if bits_contains (Z.of_nat k) s then Some (bits_discard k s) else None.
Proof.
  intros Hs. destruct (bits_contains (Z.of_nat k) s) eqn:Hc.
  - rewrite <- (bit_clear_spec k s Hs Hc). unfold bit_leave, bit_clear. rewrite bits_contains_direct in Hc. unfold ma_direct in Hc.
    destruct (seq_get s (k / 8)) as [v|] eqn:E; auto. unfold bit_mask at 1. rewrite land_mask_testbit, Hc. reflexivity.
  - unfold bit_leave. rewrite bits_contains_direct in Hc. unfold ma_direct in Hc. destruct (seq_get s (k / 8)) as [v|] eqn:E; auto.
    unfold bit_mask at 1. rewrite land_mask_testbit, Hc. reflexivity.
Qed.
End Bits.

Section Maps.
Context {A : Type}.
Variable cfg : wcfg.
Variable default : A.

Lemma map_read_spec k s : map_read k s = if k <? length s then Some (ma_direct default k s) else None.
Proof.
  unfold map_read, ma_direct, seq_get. destruct (Nat.ltb_spec k (length s)) as [H1|H1].
  - destruct (nth_error s k) eqn:E; auto. apply nth_error_None in E. lia.
  - now apply nth_error_None.
Qed.
Lemma map_write_spec k v s : map_write k v s = if k <? length s then Some (ma_setitem cfg default k v s) else None.
Proof.
  unfold map_write, ma_setitem, set_or_extend. destruct (Nat.ltb_spec k (length s)).
  - destruct (seq_set_in s k v) as (s' & -> & _); auto.
  - apply seq_set_out. lia.
Qed.
Lemma map_store_spec k v s : map_store cfg default k v s = ma_setitem cfg default k v s.
Proof. reflexivity. Qed.
Lemma map_improve_spec le k v s : le default v = false ->
  map_improve cfg default le k v s = if le (ma_direct default k s) v then None else Some (ma_setitem cfg default k v s).
Proof.
  intros Hd. unfold map_improve, ma_direct, ma_setitem, set_or_extend, seq_get. destruct (nth_error s k) as [d|] eqn:E.
  - destruct (le d v); auto. destruct (seq_set_in s k v) as (s' & -> & _); auto. apply nth_error_Some. congruence.
  - rewrite Hd. rewrite seq_set_out; auto. now apply nth_error_None.
Qed.
End Maps.

Lemma map_store_if_none_spec {B} cfg (B_eqb : option B -> option B -> bool) k (v : B) s : (forall a b, reflect (a = b) (B_eqb a b)) ->
  map_store_if_none cfg k v s = if ma_contains B_eqb None (Z.of_nat k) s then s else ma_setitem cfg None k (Some v) s.
Proof.
  intros Hr. rewrite (ma_contains_direct B_eqb Hr None k s). unfold map_store_if_none, ma_direct, ma_setitem, set_or_extend, seq_get.
  destruct (nth_error s k) as [[b|]|] eqn:E; cbn.
  - destruct (Hr (Some b) None); [discriminate|reflexivity].
  - destruct (Hr (@None B) None); [|congruence]. cbn. destruct (seq_set_in s k (Some v)) as (s' & -> & _); auto. apply nth_error_Some. congruence.
  - destruct (Hr (@None B) None); [|congruence]. cbn. rewrite seq_set_out; auto. now apply nth_error_None.
Qed.

(** * The specification is met *)
Lemma byte_code cfg : wcfg_ok cfg ->
  correct_set_code (fun _ => True) (fun k s => bs_contains (Z.of_nat k) s) (bs_new cfg) byte_read byte_test (byte_visit cfg) (byte_mark cfg) byte_clear byte_leave.
Proof.
  intros Hc.
  assert (Hadd : forall k s j, bs_contains (Z.of_nat j) (bs_add cfg k s) = true <-> j = k \/ bs_contains (Z.of_nat j) s = true).
  { intros k s j. rewrite bs_add_contains by auto. now rewrite orb_true_iff, Nat.eqb_eq. }
  assert (Hdis : forall k s j, bs_contains (Z.of_nat j) (bs_discard k s) = true <-> j <> k /\ bs_contains (Z.of_nat j) s = true).
  { intros k s j. rewrite bs_discard_contains. now rewrite andb_true_iff, negb_true_iff, Nat.eqb_neq. }
  assert (Hlen : forall k s, bs_contains (Z.of_nat k) s = true -> (k <? length s) = true).
  { intros k s H. rewrite bs_contains_direct in H. unfold ma_direct, seq_get in H. destruct (nth_error s k) eqn:E; [|discriminate].
    apply Nat.ltb_lt, nth_error_Some. congruence. }
  constructor.
  - split; auto. intros k. now apply bs_new_contains.
  - intros k s _. rewrite byte_read_spec. destruct (k <? length s); auto.
  - intros k s _ H. rewrite byte_read_spec, (Hlen k s H), H. reflexivity.
  - intros k s _. apply byte_test_spec.
  - intros k s _ H. now rewrite byte_visit_spec, H.
  - intros k s _ H. rewrite byte_visit_spec, H. eauto.
  - intros k s _. rewrite byte_mark_spec. auto.
  - intros k s _ H. rewrite byte_clear_spec, (Hlen k s H). eauto.
  - intros k s _ H. now rewrite byte_leave_spec, H.
  - intros k s _ H. rewrite byte_leave_spec, H. eauto.
Qed.

Lemma bit_code cfg : wcfg_ok cfg ->
  correct_set_code bytes_ok (fun k s => bits_contains (Z.of_nat k) s) (bits_new cfg) bit_read bit_test (bit_visit cfg) (bit_mark cfg) bit_clear bit_leave.
Proof.
  intros Hc.
  assert (Hadd : forall k s j, bits_contains (Z.of_nat j) (bits_add cfg k s) = true <-> j = k \/ bits_contains (Z.of_nat j) s = true).
  { intros k s j. rewrite bits_add_contains by auto. now rewrite orb_true_iff, Nat.eqb_eq. }
  assert (Hdis : forall k s j, bits_contains (Z.of_nat j) (bits_discard k s) = true <-> j <> k /\ bits_contains (Z.of_nat j) s = true).
  { intros k s j. rewrite bits_discard_contains. now rewrite andb_true_iff, negb_true_iff, Nat.eqb_neq. }
  assert (Hlen : forall k s, bits_contains (Z.of_nat k) s = true -> (k / 8 <? length s) = true).
  { intros k s H. rewrite bits_contains_direct in H. unfold ma_direct, seq_get in H. destruct (nth_error s (k / 8)) eqn:E.
    - apply Nat.ltb_lt, nth_error_Some. congruence.
    - rewrite N.bits_0 in H. discriminate. }
  constructor.
  - split; [apply bits_new_ok|]. intros k. now apply bits_new_contains.
  - intros k s _. rewrite bit_read_spec. destruct (k / 8 <? length s); auto.
  - intros k s _ H. rewrite bit_read_spec, (Hlen k s H), H. reflexivity.
  - intros k s _. apply bit_test_spec.
  - intros k s _ H. now rewrite bit_visit_spec, H.
  - intros k s Hs H. rewrite bit_visit_spec, H. eexists. split; [reflexivity|]. split; [now apply bits_add_ok|auto].
  - intros k s Hs. rewrite bit_mark_spec. split; [now apply bits_add_ok|auto].
  - intros k s Hs H. rewrite bit_clear_spec by auto. eexists. split; [reflexivity|]. split; [now apply bits_discard_ok|auto].
  - intros k s Hs H. now rewrite bit_leave_spec, H.
  - intros k s Hs H. rewrite bit_leave_spec, H by auto. eexists. split; [reflexivity|]. split; [now apply bits_discard_ok|auto].
Qed.

Lemma map_code {A} cfg (dflt : A) : wcfg_ok cfg ->
  correct_map_code dflt (ma_direct dflt) (ma_new cfg dflt) map_read map_write (map_store cfg dflt) (map_improve cfg dflt).
Proof.
  intros Hc.
  assert (Hlen : forall k v s, (k <? length (ma_setitem cfg dflt k v s)) = true).
  { intros k v s. apply Nat.ltb_lt. unfold ma_setitem, set_or_extend. destruct (seq_set s k v) as [t|] eqn:E.
    - destruct (lt_dec k (length s)) as [Hk|Hk].
      + destruct (seq_set_in s k v Hk) as (t' & Ht & Hl & _). rewrite Ht in E. injection E as <-. lia.
      + rewrite seq_set_out in E by lia. discriminate.
    - destruct (extend_and_set_spec cfg Hc dflt s k v) as (t & Ht & Hl & _). now rewrite Ht. }
  constructor.
  - intros k. now apply ma_new_direct.
  - intros k s. rewrite (map_read_spec dflt). destruct (Nat.ltb_spec k (length s)); auto. right. split; auto.
    unfold ma_direct, seq_get. now replace (nth_error s k) with (@None A) by (symmetry; apply nth_error_None; lia).
  - intros k v s. rewrite (map_read_spec dflt), map_store_spec, Hlen, ma_setitem_direct by auto. now rewrite Nat.eqb_refl.
  - intros k v w s. rewrite (map_write_spec cfg dflt), map_store_spec, Hlen. eexists. split; [reflexivity|]. intros j.
    rewrite !ma_setitem_direct by auto. now destruct (j =? k).
  - intros k v s j. rewrite map_store_spec. now apply ma_setitem_direct.
  - intros le k v s Hd. rewrite map_improve_spec by auto. split; intros H; rewrite H; auto. eexists. split; [reflexivity|]. intros j. now apply ma_setitem_direct.
Qed.
