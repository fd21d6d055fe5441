(** Proofs about positions. *)
From Coq Require Import List ZArith Bool Lia Sorting.Sorted.
From Verif Require Import Common PositionModel PositionSpec.
Import ListNotations.
Local Open Scope Z_scope.

Lemma forall2_length {A B} (R : A -> B -> Prop) l1 l2 : Forall2 R l1 l2 -> length l1 = length l2.
Proof. induction 1; simpl; congruence. Qed.

Lemma wrap_coordinate_ok c low high : low < high ->
  exists d, wrap_coordinate c (low, high) = Some d /\ low <= d < high /\ (exists k, d = c + k * (high - low)) /\ (low <= c < high -> d = c).
Proof.
  intros H. unfold wrap_coordinate. destruct (Z.eqb_spec (high - low) 0); [lia|]. rewrite andb_false_r. eexists. split; [reflexivity|].
  assert (Hs : 0 < high - low) by lia.
  destruct (Z.ltb_spec c low).
  - pose proof (Z.mod_pos_bound (high - c) (high - low) Hs). pose proof (Z.div_mod (high - c) (high - low)).
    set (d := high - (high - c) mod (high - low)) in *.
    assert (Hd : d = c + ((high - c) / (high - low)) * (high - low)) by lia.
    destruct (Z.leb_spec high d).
    + assert (Heq : d = high) by lia. rewrite Heq. rewrite Z.mod_same by lia. rewrite Heq in Hd.
      split; [lia|]. split; [|lia]. exists ((high - c) / (high - low) - 1). lia.
    + split; [lia|]. split; [|lia]. eexists. exact Hd.
  - destruct (Z.leb_spec high c).
    + pose proof (Z.mod_pos_bound (c - low) (high - low) Hs). pose proof (Z.div_mod (c - low) (high - low)).
      split; [lia|]. split; [|lia]. exists (- ((c - low) / (high - low))). lia.
    + split; [lia|]. split; [|auto]. exists 0. lia.
Qed.

Lemma wrap_ok p : forall limits, length p = length limits -> proper_limits limits ->
  exists q, wrap_to_cuboid p limits = Some q /\ inside q limits /\ congruent limits p q /\ (inside p limits -> q = p).
Proof.
  unfold wrap_to_cuboid. induction p as [|c p IH]; intros [|[low high] limits] Hl Hp; try discriminate.
  - exists []. split; [reflexivity|]. split; [constructor|]. split; [|auto]. repeat split; auto. intros [|i]; discriminate.
  - destruct (IH limits) as (q & Hq & Hin & (Hc1 & Hc2 & Hc3) & Hsame); [now injection Hl|intros a b Hab; apply Hp; right; auto|].
    destruct (wrap_coordinate_ok c low high) as (d & Hd & Hdr & Hdk & Hds); [apply Hp; left; reflexivity|].
    exists (d :: q). cbn [combine wrap_coordinates]. rewrite Hd, Hq. split; [reflexivity|]. split; [constructor; auto|]. split.
    + split; [exact Hl|]. split; [simpl; congruence|]. intros [|i] c' d' l; cbn [nth_error].
      * intros H1 H2 H3. injection H1 as <-. injection H2 as <-. injection H3 as <-. exact Hdk.
      * apply Hc3.
    + intros H. inversion H; subst. rewrite Hds by auto. now rewrite Hsame.
Qed.

Lemma congruent_unique limits : forall p q r, congruent limits p q -> congruent limits p r -> inside q limits -> inside r limits -> q = r.
Proof.
  induction limits as [|[low high] limits IH]; intros p q r Hq Hr Iq Ir; inversion Iq; inversion Ir; subst; auto.
  destruct Hq as (Hp & _ & Hq), Hr as (_ & _ & Hr). destruct p as [|c p]; [discriminate|]. f_equal.
  - destruct (Hq 0%nat c x (low, high)) as [k1 E1]; auto. destruct (Hr 0%nat c x0 (low, high)) as [k2 E2]; auto. simpl in *.
    assert ((k1 - k2) * (high - low) = x - x0) by lia.
    assert (k1 - k2 = 0) by nia. nia.
  - apply (IH p); auto.
    + split; [injection Hp; auto|]. split; [eapply forall2_length; eauto|]. intros i c' d' l' A B C. exact (Hq (S i) c' d' l' A B C).
    + split; [injection Hp; auto|]. split; [eapply forall2_length; eauto|]. intros i c' d' l' A B C. exact (Hr (S i) c' d' l' A B C).
Qed.

Lemma in_cuboid_inside p limits : length p = length limits -> (is_in_cuboid p limits = true <-> inside p limits).
Proof.
  unfold is_in_cuboid. revert limits. induction p as [|c p IH]; intros [|[low high] limits] Hl; try discriminate.
  - split; [constructor|reflexivity].
  - cbn [combine forallb fst snd]. rewrite !andb_true_iff, Z.leb_le, Z.ltb_lt, IH by (now injection Hl). split.
    + intros [H1 H2]. constructor; auto.
    + intros H. inversion H; subst. auto.
Qed.

(** ** Sums *)
Lemma pos_add_length p m : length p = length m -> length (pos_add p m) = length p.
Proof. intros H. unfold pos_add. rewrite map_length, combine_length. lia. Qed.

Lemma pos_add_nth p m i c d : nth_error p i = Some c -> nth_error m i = Some d -> nth_error (pos_add p m) i = Some (c + d).
Proof.
  unfold pos_add. revert m i. induction p as [|x p IH]; intros [|y m] [|i]; simpl; try discriminate.
  - intros H1 H2. injection H1 as <-. injection H2 as <-. reflexivity.
  - apply IH.
Qed.

Lemma pos_add_opp p : forall m, length p = length m -> pos_add (pos_add p m) (map Z.opp m) = p.
Proof.
  induction p as [|x p IH]; intros [|y m] H; try discriminate; auto. unfold pos_add in *. cbn [combine map fst snd]. f_equal; [lia|]. apply IH. now injection H.
Qed.

Lemma congruent_add limits p q m : congruent limits p q -> length m = length limits -> congruent limits (pos_add p m) (pos_add q m).
Proof.
  intros (H1 & H2 & H3) Hm. split; [rewrite pos_add_length; lia|]. split; [rewrite pos_add_length; lia|].
  intros i c d l Hc Hd Hl.
  assert (Hi : (i < length limits)%nat) by (apply nth_error_Some; congruence).
  destruct (nth_error p i) as [x|] eqn:Ex; [|apply nth_error_None in Ex; lia].
  destruct (nth_error q i) as [y|] eqn:Ey; [|apply nth_error_None in Ey; lia].
  destruct (nth_error m i) as [z|] eqn:Ez; [|apply nth_error_None in Ez; lia].
  rewrite (pos_add_nth _ _ _ _ _ Ex Ez) in Hc. rewrite (pos_add_nth _ _ _ _ _ Ey Ez) in Hd. injection Hc as <-. injection Hd as <-.
  destruct (H3 i x y l Ex Ey Hl) as [k ->]. exists k. lia.
Qed.

Lemma congruent_sym limits p q : congruent limits p q -> congruent limits q p.
Proof. intros (H1 & H2 & H3). split; auto. split; auto. intros i c d l Hc Hd Hl. destruct (H3 i d c l Hd Hc Hl) as [k ->]. exists (- k). lia. Qed.

Lemma congruent_trans limits p q r : congruent limits p q -> congruent limits q r -> congruent limits p r.
Proof.
  intros (H1 & H2 & H3) (_ & H5 & H6). split; auto. split; auto. intros i c d l Hc Hd Hl.
  assert (Hi : (i < length limits)%nat) by (apply nth_error_Some; congruence).
  destruct (nth_error q i) as [y|] eqn:Ey; [|apply nth_error_None in Ey; lia].
  destruct (H3 i c y l Hc Ey Hl) as [k1 ->]. destruct (H6 i _ d l Ey Hd Hl) as [k2 ->]. exists (k1 + k2). lia.
Qed.

Lemma congruent_refl limits p : length p = length limits -> congruent limits p p.
Proof. intros H. split; auto. split; auto. intros i c d l Hc Hd _. exists 0. rewrite Hc in Hd. injection Hd as <-. lia. Qed.

(** Moving around on a torus: it does not matter whether one wraps at each step or at the end. *)
Lemma wrap_add p m limits q r : length p = length limits -> length m = length limits -> proper_limits limits ->
  wrap_to_cuboid p limits = Some q -> wrap_to_cuboid (pos_add p m) limits = Some r -> wrap_to_cuboid (pos_add q m) limits = Some r.
Proof.
  intros Hp Hm Hl Hq Hr.
  destruct (wrap_ok p limits Hp Hl) as (q' & Eq & Iq & Cq & _). rewrite Hq in Eq. injection Eq as <-.
  destruct (wrap_ok (pos_add p m) limits) as (r' & Er & Ir & Cr & _); auto; [rewrite pos_add_length; lia|]. rewrite Hr in Er. injection Er as <-.
  destruct Cq as (A & B & C).
  destruct (wrap_ok (pos_add q m) limits) as (s & Es & Is & Cs & _); auto; [rewrite pos_add_length; lia|].
  rewrite Es. f_equal. apply (congruent_unique limits (pos_add q m)); auto.
  apply congruent_trans with (pos_add p m); auto. apply congruent_add; auto. apply congruent_sym. split; auto.
Qed.

(** ** Moves *)
Lemma product_in d : forall m, In m (product_moves d) <-> unit_vector d m.
Proof.
  unfold unit_vector. induction d as [|d IH]; intros m.
  - simpl. split; [intros [<-|[]]; split; auto; intros ? []|intros [H _]; destruct m; [auto|discriminate]].
  - cbn [product_moves]. rewrite in_flat_map. split.
    + intros (x & Hx & H). apply in_map_iff in H. destruct H as (m' & <- & H). apply IH in H. destruct H as [H1 H2]. split; [simpl; congruence|].
      intros y [<-|Hy]; auto. simpl in Hx. intuition.
    + intros [H1 H2]. destruct m as [|x m]; [discriminate|]. exists x. split; [destruct (H2 x) as [->|[->| ->]]; simpl; auto|].
      apply in_map, IH. split; [now injection H1|]. intros y Hy. apply H2. right; auto.
Qed.

Lemma sorted_map_cons x l : StronglySorted lex_lt l -> StronglySorted lex_lt (map (cons x) l).
Proof. induction 1 as [|m l Hs IH Hf]; simpl; constructor; auto. rewrite Forall_forall in *. intros y Hy. apply in_map_iff in Hy. destruct Hy as (z & <- & Hz). now constructor; apply Hf. Qed.

Lemma sorted_app l1 l2 : StronglySorted lex_lt l1 -> StronglySorted lex_lt l2 -> (forall a b, In a l1 -> In b l2 -> lex_lt a b) -> StronglySorted lex_lt (l1 ++ l2).
Proof.
  induction 1 as [|m l Hs IH Hf]; intros H2 H; simpl; auto. constructor.
  - apply IH; auto. intros a b Ha Hb. apply H; auto. now right.
  - apply Forall_app. split; auto. apply Forall_forall. intros b Hb. apply H; auto. now left.
Qed.

Lemma product_sorted d : StronglySorted lex_lt (product_moves d).
Proof.
  induction d as [|d IH]; [repeat constructor|]. cbn [product_moves flat_map]. rewrite app_nil_r.
  assert (Hlt : forall x y a b, x < y -> In a (map (cons x) (product_moves d)) -> In b (map (cons y) (product_moves d)) -> lex_lt a b).
  { intros x y a b Hxy Ha Hb. apply in_map_iff in Ha, Hb. destruct Ha as (a' & <- & _), Hb as (b' & <- & _). now constructor. }
  apply sorted_app; [now apply sorted_map_cons| |].
  - apply sorted_app; try now apply sorted_map_cons. intros a b. apply Hlt. lia.
  - intros a b Ha Hb. apply in_app_or in Hb. destruct Hb; eapply Hlt; eauto; lia.
Qed.

Lemma sorted_filter f l : StronglySorted lex_lt l -> StronglySorted lex_lt (filter f l).
Proof.
  induction 1 as [|m l Hs IH Hf]; simpl; [constructor|]. destruct (f m); auto. constructor; auto.
  rewrite Forall_forall in *. intros x Hx. apply filter_In in Hx. now apply Hf.
Qed.

Lemma lex_irrefl m : ~ lex_lt m m.
Proof. induction m as [|x m IH]; intros H; inversion H; subst; [lia|auto]. Qed.

Lemma sorted_nodup l : StronglySorted lex_lt l -> NoDup l.
Proof. induction 1 as [|m l Hs IH Hf]; constructor; auto. intros Hin. rewrite Forall_forall in Hf. exact (lex_irrefl m (Hf m Hin)). Qed.

Lemma non_zeros_count m : non_zeros m = count_non_zero m.
Proof. unfold non_zeros. induction m as [|x m IH]; [reflexivity|]. cbn [filter count_non_zero]. destruct (Z.eq_dec x 0) as [->|Hne]; [exact IH|]. apply Z.eqb_neq in Hne. rewrite Hne. simpl. congruence. Qed.

Lemma count_le m : (count_non_zero m <= length m)%nat.
Proof. induction m as [|x m IH]; simpl; [lia|]. destruct (Z.eq_dec x 0); lia. Qed.

Lemma moves_exact d diagonals zero_move counts :
  match moves d diagonals zero_move counts with
  | inr e => e = RuntimeErrorConfig /\ counts <> None /\ (zero_move = true \/ diagonals = true)
  | inl l => (counts = None \/ (zero_move = false /\ diagonals = false)) /\ StronglySorted lex_lt l /\ NoDup l /\
             forall m, In m l <-> unit_vector d m /\ allowed_count diagonals zero_move counts (count_non_zero m)
  end.
Proof.
  unfold moves. destruct counts as [f|].
  - destruct zero_move, diagonals; simpl; try (split; [reflexivity|]; split; [discriminate|auto]; fail).
    split; auto. split; [apply sorted_filter, product_sorted|]. split; [apply sorted_nodup, sorted_filter, product_sorted|].
    intros m. rewrite filter_In, product_in, non_zeros_count. tauto.
  - cbv zeta. split; auto. split; [apply sorted_filter, product_sorted|]. split; [apply sorted_nodup, sorted_filter, product_sorted|].
    intros m. rewrite filter_In, product_in, non_zeros_count, andb_true_iff, Nat.leb_le, Nat.ltb_lt. unfold allowed_count. split.
    + intros [H1 H2]. split; auto. destruct zero_move, diagonals; lia.
    + intros [H1 H2]. split; auto. pose proof (count_le m). destruct H1 as [H1 _]. destruct zero_move, diagonals; intuition; try discriminate; try lia.
Qed.

Lemma unit_vector_opp d m : unit_vector d m -> unit_vector d (map Z.opp m).
Proof. intros [H1 H2]. split; [now rewrite map_length|]. intros x Hx. apply in_map_iff in Hx. destruct Hx as (y & <- & Hy). destruct (H2 y Hy) as [->|[->| ->]]; auto. Qed.

Lemma count_opp m : count_non_zero (map Z.opp m) = count_non_zero m.
Proof. induction m as [|x m IH]; simpl; auto. destruct (Z.eq_dec x 0), (Z.eq_dec (- x) 0); try lia; auto. Qed.

Lemma moves_opp d diagonals zero_move counts l m : moves d diagonals zero_move counts = inl l -> In m l -> In (map Z.opp m) l.
Proof.
  intros HM Hin. pose proof (moves_exact d diagonals zero_move counts) as H. rewrite HM in H. destruct H as (_ & _ & _ & H).
  apply H in Hin. apply H. rewrite count_opp. destruct Hin. split; auto. now apply unit_vector_opp.
Qed.

Lemma moves_length d diagonals zero_move counts l m : moves d diagonals zero_move counts = inl l -> In m l -> length m = d.
Proof.
  intros HM Hin. pose proof (moves_exact d diagonals zero_move counts) as H. rewrite HM in H. destruct H as (_ & _ & _ & H). apply H in Hin. apply Hin.
Qed.

(** ** Neighbors *)
Lemma neighbors_free p ms : neighbors p ms None false = (map (pos_add p) ms, PosDone).
Proof. induction ms as [|m ms IH]; [reflexivity|]. cbn [neighbors]. rewrite IH. reflexivity. Qed.

Lemma neighbors_limits p ms limits : (forall m, In m ms -> length m = length p) -> length p = length limits ->
  neighbors p ms (Some limits) false = (filter (fun q => is_in_cuboid q limits) (map (pos_add p) ms), PosDone).
Proof.
  intros Hm Hp. induction ms as [|m ms IH]; [reflexivity|]. cbn [neighbors map filter]. rewrite IH by (intros; apply Hm; right; auto).
  destruct (is_in_cuboid (pos_add p m) limits); reflexivity.
Qed.

Lemma neighbors_wrap p ms limits : (forall m, In m ms -> length m = length p) -> length p = length limits -> proper_limits limits ->
  exists l, neighbors p ms (Some limits) true = (l, PosDone) /\ Forall2 (fun m q => wrap_to_cuboid (pos_add p m) limits = Some q) ms l.
Proof.
  intros Hm Hp Hl. induction ms as [|m ms IH]; [exists []; split; [reflexivity|constructor]|].
  destruct IH as (l & HN & HF); [intros; apply Hm; right; auto|]. cbn [neighbors]. rewrite HN.
  destruct (wrap_ok (pos_add p m) limits) as (q & Hq & _); auto.
  { rewrite pos_add_length; auto. symmetry. apply Hm. now left. }
  rewrite Hq.
  exists (q :: l). split; [reflexivity|]. constructor; auto.
Qed.

Lemma inside_length p limits : inside p limits -> length p = length limits.
Proof. apply forall2_length. Qed.

Lemma forall2_in_r {A B} (R : A -> B -> Prop) l1 l2 : Forall2 R l1 l2 -> forall y, In y l2 -> exists x, In x l1 /\ R x y.
Proof. induction 1 as [|a b l1 l2 H _ IH]; intros y []; [subst; exists a; split; [left|]; auto|]. destruct (IH y) as (x & ? & ?); auto. exists x. split; [right|]; auto. Qed.

Lemma forall2_in_l {A B} (R : A -> B -> Prop) l1 l2 : Forall2 R l1 l2 -> forall x, In x l1 -> exists y, In y l2 /\ R x y.
Proof. induction 1 as [|a b l1 l2 H _ IH]; intros y []; [subst; exists b; split; [left|]; auto|]. destruct (IH y) as (x & ? & ?); auto. exists x. split; [right|]; auto. Qed.

(** The relation between neighbors. *)
Lemma neighbors_ok d diagonals zero_move counts ms p : moves d diagonals zero_move counts = inl ms -> length p = d ->
  (exists l, neighbors p ms None false = (l, PosDone) /\ forall q, In q l <-> exists m, In m ms /\ q = pos_add p m) /\
  (forall limits, length limits = d ->
     exists l, neighbors p ms (Some limits) false = (l, PosDone) /\ forall q, In q l <-> inside q limits /\ exists m, In m ms /\ q = pos_add p m) /\
  (forall limits, length limits = d -> proper_limits limits ->
     exists l, neighbors p ms (Some limits) true = (l, PosDone) /\ forall q, In q l <-> inside q limits /\ exists m, In m ms /\ congruent limits (pos_add p m) q).
Proof.
  intros HM Hp. assert (Hm : forall m, In m ms -> length m = length p) by (intros m Hin; rewrite Hp; eapply moves_length; eauto).
  assert (Hlen : forall m, In m ms -> length (pos_add p m) = d) by (intros m Hin; rewrite pos_add_length; auto; symmetry; auto).
  split; [|split].
  - eexists. split; [apply neighbors_free|]. intros q. rewrite in_map_iff. split; intros (m & A & B); exists m; auto.
  - intros limits Hl. eexists. split; [apply neighbors_limits; auto; congruence|]. intros q. rewrite filter_In, in_map_iff. split.
    + intros [(m & <- & Hin) Hc]. apply in_cuboid_inside in Hc; [|rewrite Hlen; auto]. eauto.
    + intros [Hi (m & Hin & ->)]. split; [eauto|]. apply in_cuboid_inside; auto. rewrite Hlen; auto.
  - intros limits Hl Hpr. destruct (neighbors_wrap p ms limits) as (l & HN & HF); auto; [congruence|]. exists l. split; auto. intros q.
    assert (Hw : forall m q, In m ms -> (wrap_to_cuboid (pos_add p m) limits = Some q <-> inside q limits /\ congruent limits (pos_add p m) q)).
    { intros m q' Hin. destruct (wrap_ok (pos_add p m) limits) as (q0 & E0 & I0 & C0 & _); auto; [rewrite Hlen; auto|]. rewrite E0. split.
      - intros H. injection H as <-. auto.
      - intros [A B]. f_equal. eapply congruent_unique; eauto. }
    split.
    + intros Hq. destruct (forall2_in_r _ _ _ HF q Hq) as (m & Hin & Hx). apply Hw in Hx; auto. destruct Hx. eauto.
    + intros [Hi (m & Hin & Hc)]. destruct (forall2_in_l _ _ _ HF m Hin) as (q' & Hq' & Hx). rewrite (proj2 (Hw m q Hin)) in Hx by auto. injection Hx as <-. exact Hq'.
Qed.

(** Being neighbors is symmetric. *)
Lemma neighbors_symmetric d diagonals zero_move counts ms p q : moves d diagonals zero_move counts = inl ms -> length p = d -> length q = d ->
  (In q (fst (neighbors p ms None false)) -> In p (fst (neighbors q ms None false))) /\
  (forall limits wrap, length limits = d -> proper_limits limits -> inside p limits ->
     In q (fst (neighbors p ms (Some limits) wrap)) -> In p (fst (neighbors q ms (Some limits) wrap))).
Proof.
  intros HM Hp Hq. destruct (neighbors_ok _ _ _ _ _ p HM Hp) as ((l1 & E1 & N1) & L1 & W1). destruct (neighbors_ok _ _ _ _ _ q HM Hq) as ((l2 & E2 & N2) & L2 & W2).
  assert (Hopp : forall m, In m ms -> pos_add (pos_add p m) (map Z.opp m) = p) by (intros m Hin; apply pos_add_opp; rewrite Hp; symmetry; eapply moves_length; eauto).
  split.
  - rewrite E1, E2. simpl. rewrite N1, N2. intros (m & Hin & ->). exists (map Z.opp m). split; [eapply moves_opp; eauto|]. symmetry; auto.
  - intros limits wrap Hl Hpr Hi. destruct wrap.
    + destruct (W1 limits Hl Hpr) as (k1 & -> & K1). destruct (W2 limits Hl Hpr) as (k2 & -> & K2). simpl. rewrite K1, K2.
      intros [Hiq (m & Hin & Hc)]. split; auto. exists (map Z.opp m). split; [eapply moves_opp; eauto|].
      rewrite <- (Hopp m Hin). apply congruent_add; [now apply congruent_sym|]. rewrite map_length. rewrite Hl. eapply moves_length; eauto.
    + destruct (L1 limits Hl) as (k1 & -> & K1). destruct (L2 limits Hl) as (k2 & -> & K2). simpl. rewrite K1, K2.
      intros [Hiq (m & Hin & ->)]. split; auto. exists (map Z.opp m). split; [eapply moves_opp; eauto|]. symmetry; auto.
Qed.

Lemma pos_add_translated : forall p m, pos_add p m = translated p m.
Proof. induction p as [|x p IH]; intros [|y m]; auto. change (x + y :: pos_add p m = x + y :: translated p m). now rewrite IH. Qed.

Lemma translated_lex p : forall a b, length a = length p -> length b = length p -> lex_lt a b -> lex_lt (pos_add p a) (pos_add p b).
Proof.
  induction p as [|x p IH]; intros [|y a] [|z b] Ha Hb H; try discriminate; [inversion H|]. change (lex_lt (x + y :: pos_add p a) (x + z :: pos_add p b)).
  inversion H; subst; [apply lex_head; lia|apply lex_tail, IH; simpl in *; auto; lia].
Qed.

Lemma neighbors_sorted d diagonals zero_move counts ms p limits : moves d diagonals zero_move counts = inl ms -> length p = d -> length limits = d ->
  StronglySorted lex_lt (fst (neighbors p ms (Some limits) false)).
Proof.
  intros HM Hp Hl. rewrite neighbors_limits; [|intros m Hin; rewrite Hp; eapply moves_length; eauto|congruence]. apply sorted_filter.
  assert (HS : StronglySorted lex_lt ms). { pose proof (moves_exact d diagonals zero_move counts) as H. rewrite HM in H. apply H. }
  assert (HL : forall m, In m ms -> length m = length p) by (intros m Hin; rewrite Hp; eapply moves_length; eauto). clear HM.
  induction HS as [|m ms HS IH HF]; simpl; constructor.
  - apply IH. intros; apply HL; right; auto.
  - rewrite Forall_forall in *. intros q Hq. apply in_map_iff in Hq. destruct Hq as (m' & <- & Hm'). apply translated_lex; auto; apply HL; simpl; auto.
Qed.

Lemma neighbors_without_limits p ms : neighbors p ms None true = ([], match ms with [] => PosDone | _ => PosLimitsMissing end).
Proof. destruct ms; reflexivity. Qed.

(** ** Arithmetic *)
Lemma fold_add l : forall a, fold_left Z.add l a = a + fold_left Z.add l 0.
Proof. induction l as [|x l IH]; intros a; simpl; [lia|]. rewrite (IH (a + x)), (IH x). lia. Qed.

Lemma manhattan_cons x y p q : manhattan_distance (x :: p) (y :: q) = Z.abs (x - y) + manhattan_distance p q.
Proof. unfold manhattan_distance, pos_sub. cbn [combine map fst snd fold_left]. rewrite fold_add. lia. Qed.

Lemma manhattan_metric : forall p q r, length p = length q -> length q = length r ->
  0 <= manhattan_distance p q /\ (manhattan_distance p q = 0 <-> p = q) /\ manhattan_distance p q = manhattan_distance q p /\
  manhattan_distance p r <= manhattan_distance p q + manhattan_distance q r.
Proof.
  induction p as [|x p IH]; intros [|y q] [|z r] H1 H2; try discriminate.
  - repeat split; auto; unfold manhattan_distance; simpl; lia.
  - injection H1 as H1. injection H2 as H2. destruct (IH q r H1 H2) as (A & B & C & D). rewrite !manhattan_cons.
    split; [lia|]. split; [split; [intros H; assert (x = y) by lia; assert (p = q) by (apply B; lia); congruence|intros H; injection H as -> ->; assert (manhattan_distance q q = 0) by (now apply B); lia]|].
    split; lia.
Qed.

Lemma translated_length : forall p m, length p = length m -> length (translated p m) = length p.
Proof. intros p m H. rewrite <- pos_add_translated. now apply pos_add_length. Qed.

Lemma manhattan_translated : forall q m, length q = length m -> (forall x, In x m -> x = -1 \/ x = 0 \/ x = 1) -> manhattan_distance q (translated q m) = Z.of_nat (count_non_zero m).
Proof.
  induction q as [|x q IH]; intros [|y m] Hl Hm; try discriminate; [reflexivity|]. injection Hl as Hl. cbn [translated count_non_zero]. rewrite manhattan_cons, IH; auto; [|intros; apply Hm; right; auto].
  destruct (Hm y (or_introl eq_refl)) as [->|[->| ->]]; destruct (Z.eq_dec _ _); lia.
Qed.

Lemma zeros_translated q : translated q (map (fun _ => 0) q) = q.
Proof. induction q as [|x q IH]; simpl; auto. rewrite IH. f_equal. lia. Qed.

Lemma zeros_count (q : list Z) : count_non_zero (map (fun _ => 0) q) = O.
Proof. induction q; auto. Qed.

Lemma nearer : forall p q, length p = length q -> p <> q -> exists m q', unit_vector (length p) m /\ count_non_zero m = 1%nat /\ q = translated q' m /\ length q' = length p /\
  manhattan_distance p q = manhattan_distance p q' + 1.
Proof.
  induction p as [|x p IH]; intros [|y q] Hl Hne; try discriminate; [congruence|]. injection Hl as Hl. destruct (Z.eq_dec x y) as [->|Hxy].
  - destruct (IH q Hl) as (m & q' & [U1 U2] & Hc & -> & Hq' & Hd); [congruence|]. exists (0 :: m), (y :: q'). split; [split; [simpl; lia|intros z [<-|Hz]; auto]|].
    split; [exact Hc|]. split; [cbn [translated]; f_equal; lia|]. split; [simpl; lia|]. rewrite !manhattan_cons. lia.
  - exists (Z.sgn (y - x) :: map (fun _ => 0) q), (y - Z.sgn (y - x) :: q). split; [split|].
    + simpl. rewrite map_length. auto.
    + intros z [<-|Hz]; [lia|]. apply in_map_iff in Hz. destruct Hz as (? & <- & _). auto.
    + split; [simpl; rewrite zeros_count; destruct (Z.eq_dec _ _); auto; lia|]. split; [cbn [translated]; rewrite zeros_translated; f_equal; lia|]. split; [simpl; lia|].
      rewrite !manhattan_cons. lia.
Qed.

Lemma in_moves_length p n q : in_moves p n q -> length q = length p.
Proof. induction 1 as [|n q m H IH [U1 U2] Hc]; auto. rewrite translated_length; congruence. Qed.

Lemma manhattan_moves p q : length p = length q -> in_moves p (Z.to_nat (manhattan_distance p q)) q /\ forall n, in_moves p n q -> manhattan_distance p q <= Z.of_nat n.
Proof.
  intros Hl. split.
  - remember (Z.to_nat (manhattan_distance p q)) as n eqn:En. revert q Hl En. induction n as [|n IH]; intros q Hl En.
    + destruct (manhattan_metric p q q Hl eq_refl) as (M0 & M1 & _). assert (E : manhattan_distance p q = 0) by lia. apply M1 in E. subst q. constructor.
    + assert (Hne : p <> q). { intros ->. destruct (manhattan_metric q q q eq_refl eq_refl) as (_ & M1 & _). rewrite (proj2 M1 eq_refl) in En. discriminate. }
      destruct (nearer p q Hl Hne) as (m & q' & Hu & Hc & -> & Hq' & Hd). constructor; auto. apply IH; auto. lia.
  - intros n H. clear Hl. induction H as [|n q m H IH [U1 U2] Hc].
    + destruct (manhattan_metric p p p eq_refl eq_refl) as (_ & M1 & _). rewrite (proj2 M1 eq_refl). lia.
    + pose proof (in_moves_length p n q H) as Hq. assert (Hlq : length (translated q m) = length q) by (apply translated_length; congruence).
      destruct (manhattan_metric p q (translated q m)) as (_ & _ & _ & M3); [auto|congruence|]. rewrite manhattan_translated in M3; [|congruence|exact U2]. rewrite Hc in M3. lia.
Qed.

Lemma neighbors_exact d diagonals zero_move counts ms p : moves d diagonals zero_move counts = inl ms -> length p = d ->
  (exists l, neighbors p ms None false = (l, PosDone) /\ forall q, In q l <-> exists m, In m ms /\ q = translated p m) /\
  (forall limits, length limits = d ->
     exists l, neighbors p ms (Some limits) false = (l, PosDone) /\ StronglySorted lex_lt l /\ forall q, In q l <-> inside q limits /\ exists m, In m ms /\ q = translated p m) /\
  (forall limits, length limits = d -> proper_limits limits ->
     exists l, neighbors p ms (Some limits) true = (l, PosDone) /\ forall q, In q l <-> inside q limits /\ exists m, In m ms /\ congruent limits (translated p m) q).
Proof.
  intros HM Hp. destruct (neighbors_ok d diagonals zero_move counts ms p HM Hp) as ((l & E & H) & HL & HW). split; [|split].
  - exists l. split; auto. intros q. rewrite H. split; intros (m & A & B); exists m; (split; [auto|]); now rewrite B, ?pos_add_translated.
  - intros limits Hl. destruct (HL limits Hl) as (l1 & E1 & H1). exists l1. split; auto. split.
    + pose proof (neighbors_sorted d diagonals zero_move counts ms p limits HM Hp Hl) as HS. rewrite E1 in HS. exact HS.
    + intros q. rewrite H1. split; intros (Hi & m & A & B); split; auto; exists m; (split; [auto|]); now rewrite B, ?pos_add_translated.
  - intros limits Hl Hpr. destruct (HW limits Hl Hpr) as (l1 & E1 & H1). exists l1. split; auto.
    intros q. rewrite H1. split; intros (Hi & m & A & B); split; auto; exists m; (split; [auto|]); rewrite ?pos_add_translated in *; auto.
Qed.

Lemma arithmetic_ok p o k : length p = length o ->
  pos_add p o = translated p o /\ pos_sub (pos_add p o) o = p /\ pos_add (pos_sub p o) o = p /\
  (forall i, nth_error (pos_mul p k) i = match nth_error p i with Some c => Some (c * k) | None => None end).
Proof.
  intros Hl. split; [apply pos_add_translated|]. split; [|split].
  - revert o Hl. induction p as [|x p IH]; intros [|y o] Hl; try discriminate; [reflexivity|]. change (x + y - y :: pos_sub (pos_add p o) o = x :: p). rewrite IH by (simpl in Hl; lia). f_equal. lia.
  - revert o Hl. induction p as [|x p IH]; intros [|y o] Hl; try discriminate; [reflexivity|]. change (x - y + y :: pos_add (pos_sub p o) o = x :: p). rewrite IH by (simpl in Hl; lia). f_equal. lia.
  - intros i. unfold pos_mul. clear Hl. revert i. induction p as [|x p IH]; intros [|i]; simpl; auto.
Qed.
