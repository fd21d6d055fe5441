(** Proofs about arrays. *)
From Coq Require Import List ZArith Bool Lia Sorting.Sorted.
From Verif Require Import PositionModel PositionSpec PositionProofs ArrayModel ArraySpec.
Import ListNotations.

(** ** Lists *)
Lemma list_set_length {A} (l : list A) j x : length (list_set l j x) = length l.
Proof. revert j. induction l as [|y l IH]; intros [|j]; simpl; auto. Qed.

Lemma list_set_same {A} (l : list A) j x : j < length l -> nth_error (list_set l j x) j = Some x.
Proof. revert j. induction l as [|y l IH]; intros [|j] H; simpl in *; try lia; auto. apply IH. lia. Qed.

Lemma list_set_other {A} (l : list A) j k x : k <> j -> nth_error (list_set l j x) k = nth_error l k.
Proof. revert j k. induction l as [|y l IH]; intros [|j] [|k] H; simpl in *; try congruence; auto. Qed.

Lemma py_position_some {A} (l : list A) i j : py_position l i = Some j -> j < length l.
Proof.
  unfold py_position. cbv zeta. destruct (_ || _) eqn:E; [discriminate|]. intros H. injection H as <-. apply orb_false_iff in E. destruct E as [E1 E2].
  apply Z.ltb_ge in E1. apply Z.leb_gt in E2. lia.
Qed.

Lemma py_position_begin {A} (l : list A) i j : (0 <= i)%Z -> (py_position l i = Some j <-> i = Z.of_nat j /\ j < length l).
Proof.
  intros Hi. unfold py_position. cbv zeta. destruct (Z.ltb_spec i 0); [lia|]. destruct (Z.ltb_spec i 0); [lia|]. simpl.
  destruct (Z.leb_spec (Z.of_nat (length l)) i); split; try discriminate; try lia.
  - intros H2. injection H2 as <-. lia.
  - intros [-> H2]. now rewrite Nat2Z.id.
Qed.

Lemma py_position_map {A B} (l : list A) (l' : list B) i : length l = length l' -> py_position l i = py_position l' i.
Proof. intros H. unfold py_position. now rewrite H. Qed.

Lemma py_index_inl {A} (l : list A) i x : py_index l i = inl x <-> exists j, py_position l i = Some j /\ nth_error l j = Some x.
Proof.
  unfold py_index. destruct (py_position l i) as [j|] eqn:E; split; try discriminate.
  - destruct (nth_error l j) eqn:En; [|discriminate]. intros H. injection H as <-. eauto.
  - intros (k & Hk & Hn). injection Hk as <-. now rewrite Hn.
  - intros (k & Hk & _). discriminate.
Qed.

Lemma py_index_in {A} (l : list A) i x : py_index l i = inl x -> In x l.
Proof. intros H. apply py_index_inl in H. destruct H as (j & _ & H). eapply nth_error_In; eauto. Qed.

Lemma nodup_app_inv {A} (a b : list A) : NoDup (a ++ b) -> NoDup a /\ NoDup b /\ forall x, In x a -> ~ In x b.
Proof.
  induction a as [|y a IH]; simpl; intros H; [repeat split; auto; constructor|]. inversion H as [|? ? Hy Hn]; subst. destruct (IH Hn) as (A1 & A2 & A3).
  split; [constructor; auto; intros Hi; apply Hy, in_or_app; auto|]. split; auto. intros x [->|Hx]; auto. intros Hb. apply Hy, in_or_app. auto.
Qed.

Lemma nodup_app {A} (a b : list A) : NoDup a -> NoDup b -> (forall x, In x a -> ~ In x b) -> NoDup (a ++ b).
Proof.
  induction 1 as [|y a Hy Ha IH]; simpl; intros Hb H; auto. constructor.
  - intros Hi. apply in_app_or in Hi. destruct Hi; [auto|]. eapply H; eauto.
  - apply IH; auto.
Qed.

Lemma flat_map_nodup_nth {A B} (f : A -> list B) l i j x y b :
  NoDup (flat_map f l) -> nth_error l i = Some x -> nth_error l j = Some y -> i <> j -> In b (f x) -> ~ In b (f y).
Proof.
  revert i j. induction l as [|z l IH]; intros [|i] [|j] HN Hx Hy Hij Hb; try discriminate; try congruence; simpl in *; apply nodup_app_inv in HN; destruct HN as (N1 & N2 & N3).
  - injection Hx as ->. intros C. apply (N3 b Hb). apply in_flat_map. exists y. split; auto. eapply nth_error_In; eauto.
  - injection Hy as ->. intros C. apply (N3 b C). apply in_flat_map. exists x. split; auto. eapply nth_error_In; eauto.
  - eapply IH; eauto.
Qed.

Lemma flat_map_nodup_in {A B} (f : A -> list B) l x : NoDup (flat_map f l) -> In x l -> NoDup (f x).
Proof. induction l as [|z l IH]; intros HN H; [destruct H|]. simpl in HN. apply nodup_app_inv in HN. destruct H as [->|H]; [apply HN|apply IH; auto; apply HN]. Qed.

Section Array.
Context {C : Type}.
Notation st_t := (store C).
Notation val := (val C).

(** ** Stores that agree on the objects of an array *)
Definition agree (st1 st2 : st_t) (d : nat) (v : val) : Prop := forall r, In r (objects st1 d v) -> nth_error st2 r = nth_error st1 r.

Lemma agree_sub (st1 st2 : st_t) d r m l y : agree st1 st2 (S d) (VSeq r) -> nth_error st1 r = Some (m, l) -> In y l -> agree st1 st2 d y.
Proof. intros H Hr Hy r' Hr'. apply H. simpl. right. rewrite Hr. apply in_flat_map. eauto. Qed.

Lemma get_agree (st1 st2 : st_t) : forall p d v, length p <= d -> agree st1 st2 d v -> array_get st2 v p = array_get st1 v p.
Proof.
  induction p as [|i p IH]; intros [|d] v Hp H; simpl in *; try lia; auto. destruct v as [c|r]; [reflexivity|].
  unfold sequence. rewrite (H r) by (left; reflexivity). destruct (nth_error st1 r) as [[m l]|] eqn:Er; [|reflexivity].
  destruct (py_index l i) as [y|e] eqn:Ei; [|reflexivity]. apply (IH d); [lia|]. eapply agree_sub; eauto. eapply py_index_in; eauto.
Qed.

Lemma flat_map_ext_in' {A B} (f g : A -> list B) l : (forall x, In x l -> f x = g x) -> flat_map f l = flat_map g l.
Proof. induction l as [|x l IH]; intros H; simpl; auto. rewrite H by (left; auto). f_equal. apply IH. intros; apply H; right; auto. Qed.

Lemma objects_agree (st1 st2 : st_t) : forall d v, agree st1 st2 d v -> objects st2 d v = objects st1 d v.
Proof.
  induction d as [|d IH]; intros v H; [reflexivity|]. destruct v as [c|r]; [reflexivity|]. simpl. rewrite (H r) by (left; reflexivity).
  destruct (nth_error st1 r) as [[m l]|] eqn:Er; [|reflexivity]. f_equal. apply flat_map_ext_in'. intros y Hy. apply IH. eapply agree_sub; eauto.
Qed.

Lemma nested_agree (st1 st2 : st_t) : forall d v, agree st1 st2 d v -> nested st1 d v -> nested st2 d v.
Proof.
  induction d as [|d IH]; intros v H Hn; [exact Logic.I|]. destruct Hn as (r & m & l & -> & Hr & Hf). exists r, m, l. split; auto.
  split; [rewrite (H r); auto; left; reflexivity|]. rewrite Forall_forall in *. intros y Hy. apply IH; auto. eapply agree_sub; eauto.
Qed.

Lemma changeable_agree (st1 st2 : st_t) : forall d v, agree st1 st2 d v -> changeable st1 d v -> changeable st2 d v.
Proof.
  induction d as [|d IH]; intros v H Hn; [destruct Hn|]. destruct v as [c|r]; [destruct d; destruct Hn|]. destruct d as [|d].
  - destruct Hn as (l & Hl). exists l. rewrite (H r); auto. left; reflexivity.
  - destruct Hn as (m & l & Hr & Hf). exists m, l. split; [rewrite (H r); auto; left; reflexivity|].
    rewrite Forall_forall in *. intros y Hy. apply IH; auto. eapply agree_sub; eauto.
Qed.

Lemma objects_in_store (st : st_t) : forall d v r, nested st d v -> In r (objects st d v) -> r < length st.
Proof.
  induction d as [|d IH]; intros v r Hn Hin; [destruct Hin|]. destruct Hn as (r0 & m & l & -> & Hr & Hf). simpl in Hin. rewrite Hr in Hin.
  destruct Hin as [<-|Hin]; [apply nth_error_Some; congruence|]. apply in_flat_map in Hin. destruct Hin as (y & Hy & Hin). rewrite Forall_forall in Hf. eauto.
Qed.

Lemma agree_extend (st ext : st_t) d v : nested st d v -> agree st (st ++ ext) d v.
Proof. intros Hn r Hr. apply nth_error_app1. eapply objects_in_store; eauto. Qed.

(** ** Writing *)
Lemma set_row (x : val) : forall p d v (st st' : st_t), length p = d -> array_set st v p x = inl st' ->
  exists row m l j, In row (objects st d v) /\ nth_error st row = Some (m, l) /\ j < length l /\ st' = list_set st row (m, list_set l j x).
Proof.
  induction p as [|i p IH]; intros d v st st' Hd Hs; [discriminate|]. destruct d as [|d]; [discriminate|]. injection Hd as Hd.
  destruct p as [|i' p].
  - cbn [array_set] in Hs. destruct v as [c|row]; [discriminate|]. destruct (nth_error st row) as [[m l]|] eqn:Er; [|discriminate].
    destruct (negb m); [discriminate|]. destruct (py_position l i) as [j|] eqn:Ej; [|discriminate]. injection Hs as <-.
    exists row, m, l, j. split; [left; reflexivity|]. split; auto. split; [eapply py_position_some; eauto|reflexivity].
  - change (array_set st v (i :: i' :: p) x) with (match sequence st v with inr e => inr e | inl (_, l) => match py_index l i with inr e => inr e | inl y => array_set st y (i' :: p) x end end) in Hs.
    destruct v as [c|r]; [discriminate|]. unfold sequence in Hs. destruct (nth_error st r) as [[m l]|] eqn:Er; [|discriminate].
    destruct (py_index l i) as [y|e] eqn:Ei; [|discriminate].
    destruct (IH d y st st' Hd Hs) as (row & m' & l' & j & Hrow & H). exists row, m', l', j. split; [|exact H].
    simpl. right. rewrite Er. apply in_flat_map. exists y. split; auto. eapply py_index_in; eauto.
Qed.

Lemma set_agree (st : st_t) row o d v : ~ In row (objects st d v) -> agree st (list_set st row o) d v.
Proof. intros H r Hr. apply list_set_other. intros ->. contradiction. Qed.

(** What a write to an array without sharing does. *)
Lemma set_ok (x : val) : forall p d v (st st' : st_t), length p = d -> NoDup (objects st d v) -> array_set st v p x = inl st' ->
  objects st' d v = objects st d v /\ array_get st' v p = inl x /\
  (from_begin p -> forall q, from_begin q -> length q = d -> q <> p -> array_get st' v q = array_get st v q) /\
  (nested st d v -> nested st' d v) /\ (changeable st d v -> changeable st' d v).
Proof.
  induction p as [|i p IH]; intros d v st st' Hd HN Hs; [discriminate|]. destruct d as [|d]; [discriminate|]. injection Hd as Hd.
  destruct p as [|i' p].
  - simpl in Hd. subst d. cbn [array_set] in Hs. destruct v as [c|row]; [discriminate|]. destruct (nth_error st row) as [[m l]|] eqn:Er; [|discriminate].
    destruct m; [|discriminate]. cbn [negb] in Hs. destruct (py_position l i) as [j|] eqn:Ej; [|discriminate]. injection Hs as <-.
    assert (Hrow : nth_error (list_set st row (true, list_set l j x)) row = Some (true, list_set l j x)) by (apply list_set_same, nth_error_Some; congruence).
    assert (Hj := py_position_some _ _ _ Ej).
    assert (Hz : forall l', flat_map (objects st 0) l' = [] /\ flat_map (objects (list_set st row (true, list_set l j x)) 0) l' = []).
    { intros l'. induction l' as [|z l' IHl]; auto. }
    split; [simpl; rewrite Hrow, Er; f_equal; etransitivity; [apply Hz|symmetry; apply Hz]|]. split; [|split; [|split]].
    + cbn [array_get]. unfold sequence. rewrite Hrow. unfold py_index. rewrite (py_position_map _ l) by apply list_set_length. rewrite Ej, list_set_same by auto. reflexivity.
    + intros Hp q Hq Hlq Hne. destruct q as [|k [|? ?]]; try discriminate. cbn [array_get]. unfold sequence. rewrite Hrow, Er. unfold py_index.
      rewrite (py_position_map (list_set l j x) l) by apply list_set_length. destruct (py_position l k) as [j'|] eqn:Ek; [|reflexivity].
      rewrite list_set_other; [reflexivity|]. intros ->. apply Hne. f_equal. inversion Hp; subst. inversion Hq; subst.
      apply py_position_begin in Ej; auto. apply py_position_begin in Ek; auto. lia.
    + intros _. exists row, true, (list_set l j x). split; auto. split; auto. apply Forall_forall. intros; exact Logic.I.
    + intros _. simpl. eauto.
  - change (array_set st v (i :: i' :: p) x) with (match sequence st v with inr e => inr e | inl (_, l) => match py_index l i with inr e => inr e | inl y => array_set st y (i' :: p) x end end) in Hs.
    destruct v as [c|r]; [discriminate|]. unfold sequence in Hs. destruct (nth_error st r) as [[m l]|] eqn:Er; [|discriminate].
    destruct (py_index l i) as [y|e] eqn:Ei; [|discriminate]. apply py_index_inl in Ei. destruct Ei as (j & Ej & Ey).
    simpl in HN. rewrite Er in HN. apply NoDup_cons_iff in HN. destruct HN as [Hr HN].
    assert (Hy : In y l) by (eapply nth_error_In; eauto).
    assert (HNy : NoDup (objects st d y)) by (eapply flat_map_nodup_in; eauto).
    destruct (IH d y st st' Hd HNy Hs) as (I1 & I2 & I3 & I4 & I5).
    destruct (set_row x _ d y st st' Hd Hs) as (row & m' & l' & j' & Hrow & Hml & Hj' & Hst').
    assert (Hrr : row <> r). { intros ->. apply Hr. apply in_flat_map. eauto. }
    assert (Er' : nth_error st' r = Some (m, l)) by (rewrite Hst', list_set_other; auto).
    assert (Hoth : forall k z, nth_error l k = Some z -> k <> j -> agree st st' d z).
    { intros k z Hk Hkj. rewrite Hst'. apply set_agree. eapply flat_map_nodup_nth with (i := j) (j := k); eauto. }
    assert (Hall : forall z, In z l -> agree st st' d z \/ z = y).
    { intros z Hz. apply In_nth_error in Hz. destruct Hz as (k & Hk). destruct (Nat.eq_dec k j) as [->|Hkj]; [right; congruence|left; eauto]. }
    split; [|split; [|split; [|split]]].
    + simpl. rewrite Er', Er. f_equal. apply flat_map_ext_in'. intros z Hz. destruct (Hall z Hz) as [Ha| ->]; auto. now apply objects_agree.
    + cbn [array_get]. unfold sequence. rewrite Er'. unfold py_index. rewrite Ej, Ey. exact I2.
    + intros Hp q Hq Hlq Hne. destruct q as [|k q]; [discriminate|]. injection Hlq as Hlq. cbn [array_get]. unfold sequence. rewrite Er', Er.
      destruct (py_index l k) as [z|e] eqn:Ez; [|reflexivity]. apply py_index_inl in Ez. destruct Ez as (j2 & Ek & En).
      inversion Hp as [|? ? Hi0 Hp']; subst. inversion Hq as [|? ? Hk0 Hq']; subst.
      destruct (Nat.eq_dec j2 j) as [->|Hjj].
      * assert (z = y) by congruence. subst z. apply I3; auto. intros ->. apply Hne. f_equal.
        apply py_position_begin in Ej; auto. apply py_position_begin in Ek; auto. lia.
      * apply (get_agree _ _ _ (length (i' :: p))); [lia|]. eapply Hoth; eauto.
    + intros (r1 & m1 & l1 & Heq & Hr1 & Hf). injection Heq as <-. rewrite Er in Hr1. injection Hr1 as <- <-. exists r, m, l. split; auto. split; auto.
      rewrite Forall_forall in *. intros z Hz. destruct (Hall z Hz) as [Ha| ->]; auto. eapply nested_agree; eauto.
    + intros Hc. destruct d as [|d]; [discriminate|]. destruct Hc as (m1 & l1 & Hr1 & Hf). rewrite Er in Hr1. injection Hr1 as <- <-. exists m, l. split; auto.
      rewrite Forall_forall in *. intros z Hz. destruct (Hall z Hz) as [Ha| ->]; auto. eapply changeable_agree; eauto.
Qed.

(** A write to another array. *)
Lemma set_other (x : val) p d v d' u (st st' : st_t) : length p = d -> array_set st v p x = inl st' ->
  (forall r, In r (objects st d v) -> ~ In r (objects st d' u)) -> agree st st' d' u.
Proof. intros Hd Hs H. destruct (set_row x p d v st st' Hd Hs) as (row & m & l & j & Hrow & _ & _ & ->). apply set_agree. auto. Qed.

(** When a write is possible. *)
Lemma set_possible (x : val) : forall p d v (st : st_t), length p = d -> changeable st d v ->
  forall y, array_get st v p = inl y -> exists st', array_set st v p x = inl st'.
Proof.
  induction p as [|i p IH]; intros d v st Hd Hc y Hg; destruct d as [|d]; try discriminate; [destruct Hc|]. injection Hd as Hd.
  destruct v as [c|r]; [destruct d; destruct Hc|]. destruct p as [|i' p].
  - simpl in Hd. subst d. destruct Hc as (l & Hl). cbn [array_get array_set] in *. unfold sequence in Hg. rewrite Hl in *.
    destruct (py_index l i) as [z|e] eqn:Ei; [|discriminate]. apply py_index_inl in Ei. destruct Ei as (j & Ej & _). rewrite Ej. cbn [negb]. eauto.
  - destruct d as [|d]; [discriminate|]. destruct Hc as (m & l & Hl & Hf).
    change (array_set st (VSeq r) (i :: i' :: p) x) with (match sequence st (VSeq r) with inr e => inr e | inl (_, l) => match py_index l i with inr e => inr e | inl y => array_set st y (i' :: p) x end end).
    cbn [array_get] in Hg. unfold sequence in *. rewrite Hl in *. destruct (py_index l i) as [z|e] eqn:Ei; [|discriminate].
    rewrite Forall_forall in Hf. eapply IH; [exact Hd| |exact Hg]. apply Hf. eapply py_index_in; eauto.
Qed.

Lemma set_out_of_range (x : val) : forall p d v (st : st_t), length p = d -> changeable st d v ->
  array_get st v p = inr AIndexError -> array_set st v p x = inr AIndexError.
Proof.
  induction p as [|i p IH]; intros d v st Hd Hc Hg; destruct d as [|d]; try discriminate. injection Hd as Hd.
  destruct v as [c|r]; [destruct d; destruct Hc|]. destruct p as [|i' p].
  - simpl in Hd. subst d. destruct Hc as (l & Hl). cbn [array_get array_set] in *. unfold sequence in Hg. rewrite Hl in *. cbn [negb].
    unfold py_index in Hg. destruct (py_position l i) as [j|] eqn:Ej; [|reflexivity]. apply py_position_some in Ej. apply nth_error_Some in Ej.
    destruct (nth_error l j); [discriminate|congruence].
  - destruct d as [|d]; [discriminate|]. destruct Hc as (m & l & Hl & Hf).
    change (array_set st (VSeq r) (i :: i' :: p) x) with (match sequence st (VSeq r) with inr e => inr e | inl (_, l) => match py_index l i with inr e => inr e | inl y => array_set st y (i' :: p) x end end).
    change (array_get st (VSeq r) (i :: i' :: p)) with (match sequence st (VSeq r) with inr e => inr e | inl (_, l) => match py_index l i with inr e => inr e | inl y => array_get st y (i' :: p) end end) in Hg.
    unfold sequence in *. rewrite Hl in *. destruct (py_index l i) as [z|e] eqn:Ei; [|congruence].
    rewrite Forall_forall in Hf. eapply IH; [exact Hd| |exact Hg]. apply Hf. eapply py_index_in; eauto.
Qed.

(** ** Reading *)
Lemma get_app (st : st_t) : forall p q v, array_get st v (p ++ q) = match array_get st v p with inl y => array_get st y q | inr e => inr e end.
Proof.
  induction p as [|i p IH]; intros q v; [reflexivity|]. cbn [app array_get]. destruct (sequence st v) as [[m l]|e]; [|reflexivity].
  destruct (py_index l i); auto.
Qed.

Lemma py_index_end {A} (l : list A) i : (- Z.of_nat (length l) <= i < 0)%Z -> py_index l i = py_index l (Z.of_nat (length l) + i).
Proof.
  intros H. unfold py_index, py_position. cbv zeta. destruct (Z.ltb_spec i 0); [|lia]. destruct (Z.of_nat (length l) + i <? 0)%Z eqn:E; [apply Z.ltb_lt in E; lia|]. rewrite E. reflexivity.
Qed.

Lemma get_from_end (st : st_t) v p q i r m l : array_get st v p = inl (VSeq r) -> nth_error st r = Some (m, l) -> (- Z.of_nat (length l) <= i < 0)%Z ->
  array_get st v (p ++ i :: q) = array_get st v (p ++ (Z.of_nat (length l) + i)%Z :: q).
Proof. intros Hp Hr Hi. rewrite !get_app, Hp. cbn [array_get sequence]. rewrite Hr. now rewrite py_index_end. Qed.

(** In a nested sequence, the only problem of an access can be an index. *)
Lemma get_nested (st : st_t) : forall p d v, length p = d -> nested st d v -> forall e, array_get st v p = inr e -> e = AIndexError.
Proof.
  induction p as [|i p IH]; intros d v Hd Hn e Hg; [discriminate|]. destruct d as [|d]; [discriminate|]. injection Hd as Hd.
  destruct Hn as (r & m & l & -> & Hr & Hf). cbn [array_get] in Hg. unfold sequence in Hg. rewrite Hr in Hg. destruct (py_index l i) as [y|e'] eqn:Ei.
  - rewrite Forall_forall in Hf. eapply IH; eauto. apply Hf. eapply py_index_in; eauto.
  - injection Hg as <-. unfold py_index in Ei. destruct (py_position l i); [|congruence]. destruct (nth_error l n); congruence.
Qed.

(** ** Histories of writes *)
Lemma disjoint_kept (x : val) p d v d' v' (st st' : st_t) : length p = d -> NoDup (objects st d v) -> array_set st v p x = inl st' ->
  (forall r, In r (objects st d v) -> ~ In r (objects st d' v')) ->
  objects st' d v = objects st d v /\ objects st' d' v' = objects st d' v' /\ agree st st' d' v'.
Proof.
  intros Hd HN Hs HD. pose proof (set_other x p d v d' v' st st' Hd Hs HD) as Ha. split; [eapply set_ok; eauto|]. split; auto. now apply objects_agree.
Qed.

Lemma history (d : nat) v v' : forall ws (st st' : st_t), NoDup (objects st d v) -> NoDup (objects st d v') ->
  (forall r, In r (objects st d v) -> ~ In r (objects st d v')) ->
  (forall b p x, In (b, p, x) ws -> from_begin p /\ length p = d) ->
  write_all st v v' ws = Some st' ->
  forall b q, from_begin q -> length q = d ->
    array_get st' (if b : bool then v' else v) q = match latest ws b q with Some x => inl x | None => array_get st (if b then v' else v) q end.
Proof.
  induction ws as [|[[b0 p] x] ws IH]; intros st st' HN HN' HD Hws HW b q Hq Hlq; [injection HW as <-; reflexivity|].
  cbn [write_all latest] in *. destruct (array_set st (if b0 then v' else v) p x) as [st1|e] eqn:Es; [|discriminate].
  destruct (Hws b0 p x (or_introl eq_refl)) as [Hp Hlp].
  assert (HD' : forall r, In r (objects st d v') -> ~ In r (objects st d v)) by (intros r H1 H2; eapply HD; eauto).
  assert (HH : objects st1 d v = objects st d v /\ objects st1 d v' = objects st d v' /\
    (forall q, from_begin q -> length q = d -> array_get st1 (if b0 then v' else v) q = if list_eq_dec Z.eq_dec p q then inl x else array_get st (if b0 then v' else v) q) /\
    (forall q, length q = d -> array_get st1 (if b0 then v else v') q = array_get st (if b0 then v else v') q)).
  { destruct b0.
    - destruct (disjoint_kept x p d v' d v st st1 Hlp HN' Es HD') as (A1 & A2 & A3). destruct (set_ok x p d v' st st1 Hlp HN' Es) as (_ & B2 & B3 & _).
      repeat split; auto.
      + intros q0 Hq0 Hl0. destruct (list_eq_dec Z.eq_dec p q0) as [->|Hne]; auto.
      + intros q0 Hl0. apply (get_agree _ _ _ d); [lia|auto].
    - destruct (disjoint_kept x p d v d v' st st1 Hlp HN Es HD) as (A1 & A2 & A3). destruct (set_ok x p d v st st1 Hlp HN Es) as (_ & B2 & B3 & _).
      repeat split; auto.
      + intros q0 Hq0 Hl0. destruct (list_eq_dec Z.eq_dec p q0) as [->|Hne]; auto.
      + intros q0 Hl0. apply (get_agree _ _ _ d); [lia|auto]. }
  destruct HH as (O1 & O2 & G1 & G2).
  rewrite (IH st1 st') with (b := b) (q := q); auto; try (rewrite ?O1, ?O2; auto).
  2: { intros b1 p1 x1 Hin. apply (Hws b1 p1 x1). right; auto. }
  destruct (latest ws b q) as [y|]; [reflexivity|]. destruct (Bool.eqb b0 b) eqn:Eb.
  - apply Bool.eqb_prop in Eb. subst b0. rewrite G1 by auto. destruct (list_eq_dec Z.eq_dec p q); reflexivity.
  - destruct b0, b; try discriminate; apply G2; auto.
Qed.

(** ** Copies *)
Definition copy_of (n : nat) (st st' : st_t) (d : nat) (v v' : val) : Prop :=
  nested st' d v' /\ NoDup (objects st' d v') /\
  (forall r, In r (objects st' d v') -> n <= r /\ exists l, nth_error st' r = Some (true, l)) /\
  (forall p, length p = d -> array_get st' v' p = array_get st v p).

Lemma copy_of_extend n st st' d v v' ext : copy_of n st st' d v v' -> copy_of n st (st' ++ ext) d v v' /\ objects (st' ++ ext) d v' = objects st' d v'.
Proof.
  intros (N & D & R & G). pose proof (agree_extend st' ext d v' N) as A. pose proof (objects_agree _ _ _ _ A) as O. split; auto. split; [eapply nested_agree; eauto|]. rewrite O. split; auto. split.
  - intros r Hr. destruct (R r Hr) as (H1 & l & Hl). split; auto. exists l. rewrite nth_error_app1; auto. apply nth_error_Some. congruence.
  - intros p Hp. rewrite (get_agree st' _ p d); auto. lia.
Qed.

Lemma collect_ok d : (forall st v, nested st d v -> exists ext v', writable d st v = inl (st ++ ext, v') /\ copy_of (length st) st (st ++ ext) d v v') ->
  forall l st, Forall (nested st d) l -> exists ext l', collect (writable d) st l = inl (st ++ ext, l') /\
    Forall2 (copy_of (length st) st (st ++ ext) d) l l' /\ NoDup (flat_map (objects (st ++ ext) d) l').
Proof.
  intros HW. induction l as [|v l IH]; intros st Hf.
  - exists [], []. rewrite app_nil_r. repeat split; constructor.
  - inversion Hf as [|? ? Hv Hl]; subst. destruct (HW st v Hv) as (e1 & v' & E1 & C1). 
    assert (Hl1 : Forall (nested (st ++ e1) d) l). { rewrite Forall_forall in *. intros y Hy. eapply nested_agree; [apply agree_extend|]; auto. }
    destruct (IH (st ++ e1) Hl1) as (e2 & l' & E2 & C2 & N2). exists (e1 ++ e2), (v' :: l'). cbn [collect]. rewrite E1, E2, app_assoc. split; [reflexivity|].
    destruct (copy_of_extend _ _ _ _ _ _ e2 C1) as (C1' & O1). split.
    + constructor; auto. clear - C2 Hl. induction C2 as [|y y' l l' Cy C2 IH]; constructor; inversion Hl; subst; auto.
      destruct Cy as (A1 & A2 & A3 & A4). split; auto. split; auto. split.
      * intros r Hr. destruct (A3 r Hr) as [Hle He]. rewrite app_length in Hle. split; [lia|auto].
      * intros p Hp. rewrite A4 by auto. apply (get_agree _ _ _ d); [lia|]. now apply agree_extend.
    + simpl. apply nodup_app; auto; [apply C1'|]. rewrite O1. intros r Hr Hr2. destruct C1 as (N1 & _ & _ & _). pose proof (objects_in_store _ _ _ _ N1 Hr) as Hlt.
      apply in_flat_map in Hr2. destruct Hr2 as (y' & Hy' & Hr2). destruct (forall2_in_r _ _ _ C2 y' Hy') as (y & _ & (_ & _ & A3 & _)). destruct (A3 r Hr2) as [Hle _]. lia.
Qed.

Lemma forall2_impl {A B} (R R' : A -> B -> Prop) l l' : (forall a b, R a b -> R' a b) -> Forall2 R l l' -> Forall2 R' l l'.
Proof. intros H. induction 1; constructor; auto. Qed.

Lemma flat_objects_0 (st : st_t) l : flat_map (objects st 0) l = [].
Proof. induction l; auto. Qed.

Lemma nth_app_last {A} (l : list A) x : nth_error (l ++ [x]) (length l) = Some x.
Proof. rewrite nth_error_app2 by lia. now rewrite Nat.sub_diag. Qed.

Lemma objects_row (st : st_t) m l r : nth_error st r = Some (m, l) -> objects st 1 (VSeq r) = [r].
Proof. intros H. cbn [objects]. rewrite H. f_equal. apply (flat_objects_0 st). Qed.

Lemma copy_ok : forall d st v, nested st (S d) v -> exists ext v', writable (S d) st v = inl (st ++ ext, v') /\ copy_of (length st) st (st ++ ext) (S d) v v'.
Proof.
  induction d as [|d IH]; intros st v (r & m & l & -> & Hr & Hf).
  - exists [(true, l)], (VSeq (length st)). split; [simpl; rewrite Hr; reflexivity|]. split; [|split; [|split]].
    + exists (length st), true, l. split; auto. split; [apply nth_app_last|]. apply Forall_forall. intros; exact Logic.I.
    + rewrite (objects_row _ _ _ _ (nth_app_last st (true, l))). repeat constructor. auto.
    + rewrite (objects_row _ _ _ _ (nth_app_last st (true, l))). intros r0 [<-|[]]. split; [lia|]. exists l. apply nth_app_last.
    + intros p Hp. destruct p as [|i [|? ?]]; try discriminate. cbn [array_get]. unfold sequence. rewrite nth_app_last, Hr. reflexivity.
  - destruct (collect_ok (S d) IH l st Hf) as (ext & l' & E & HF & HN). exists (ext ++ [(true, l')]), (VSeq (length (st ++ ext))). rewrite app_assoc.
    split. { change (writable (S (S d)) st (VSeq r)) with (match sequence st (VSeq r) with inr e => inr e | inl (_, l) => match collect (writable (S d)) st l with inr e => inr e | inl (st', l') => inl (allocate st' l') end end).
      cbn [sequence]. rewrite Hr, E. reflexivity. }
    assert (HF' : Forall2 (copy_of (length st) st ((st ++ ext) ++ [(true, l')]) (S d)) l l').
    { eapply forall2_impl; [|exact HF]. intros a b H. now apply copy_of_extend. }
    assert (HO : flat_map (objects ((st ++ ext) ++ [(true, l')]) (S d)) l' = flat_map (objects (st ++ ext) (S d)) l').
    { apply flat_map_ext_in'. intros y' Hy'. destruct (forall2_in_r _ _ _ HF y' Hy') as (y & _ & Hc). now apply copy_of_extend with (ext := [(true, l')]) in Hc. }
    assert (HL : forall r, In r (flat_map (objects (st ++ ext) (S d)) l') -> r < length (st ++ ext)).
    { intros r0 Hr0. apply in_flat_map in Hr0. destruct Hr0 as (y' & Hy' & Hr0). destruct (forall2_in_r _ _ _ HF y' Hy') as (y & _ & Hc). eapply objects_in_store; [apply Hc|eauto]. }
    assert (HOb : objects ((st ++ ext) ++ [(true, l')]) (S (S d)) (VSeq (length (st ++ ext))) = length (st ++ ext) :: flat_map (objects (st ++ ext) (S d)) l').
    { change (objects ((st ++ ext) ++ [(true, l')]) (S (S d)) (VSeq (length (st ++ ext)))) with (length (st ++ ext) :: match nth_error ((st ++ ext) ++ [(true, l')]) (length (st ++ ext)) with Some (_, l) => flat_map (objects ((st ++ ext) ++ [(true, l')]) (S d)) l | None => [] end).
      rewrite nth_app_last, HO. reflexivity. }
    split; [|split; [|split]].
    + exists (length (st ++ ext)), true, l'. split; auto. split; [apply nth_app_last|]. apply Forall_forall. intros y' Hy'. destruct (forall2_in_r _ _ _ HF' y' Hy') as (y & _ & Hc). apply Hc.
    + rewrite HOb. constructor; auto. intros Hin. apply HL in Hin. lia.
    + rewrite HOb. intros r0 [<-|Hr0].
      * rewrite app_length. split; [lia|]. exists l'. rewrite <- app_length. apply nth_app_last.
      * apply in_flat_map in Hr0. destruct Hr0 as (y' & Hy' & Hr0). destruct (forall2_in_r _ _ _ HF y' Hy') as (y & _ & (_ & _ & A3 & _)). destruct (A3 r0 Hr0) as (Hle & l0 & Hl0).
        split; auto. exists l0. rewrite nth_error_app1; auto. apply nth_error_Some. congruence.
    + intros p Hp. destruct p as [|i p]; [discriminate|]. injection Hp as Hp. cbn [array_get]. unfold sequence. rewrite nth_app_last, Hr.
      unfold py_index. rewrite (py_position_map l' l) by (symmetry; eapply forall2_length; eauto). destruct (py_position l i) as [j|] eqn:Ej; [|reflexivity].
      assert (Hnth : forall j, match nth_error l j, nth_error l' j with Some y, Some y' => copy_of (length st) st ((st ++ ext) ++ [(true, l')]) (S d) y y' | None, None => True | _, _ => False end).
      { clear - HF'. revert HF'. generalize (copy_of (length st) st ((st ++ ext) ++ [(true, l')]) (S d)). intros R HF'. induction HF' as [|a b k k' Hab HF' IHF]; intros [|j]; simpl; auto. apply IHF. }
      specialize (Hnth j). destruct (nth_error l j) as [y|], (nth_error l' j) as [y'|]; try contradiction; [|reflexivity]. apply Hnth. auto.
Qed.

Lemma mutable_changeable (st : st_t) : forall d v, nested st (S d) v -> (forall r, In r (objects st (S d) v) -> exists l, nth_error st r = Some (true, l)) -> changeable st (S d) v.
Proof.
  induction d as [|d IH]; intros v (r & m & l & -> & Hr & Hf) HM.
  - simpl. apply HM. simpl. auto.
  - change (exists m l, nth_error st r = Some (m, l) /\ Forall (changeable st (S d)) l). exists m, l. split; auto. rewrite Forall_forall in *. intros y Hy. apply IH; auto.
    intros r0 Hr0. apply HM. right. rewrite Hr. apply in_flat_map. eauto.
Qed.

(** ** Iteration *)
Lemma enumerate_in {A} (l : list A) : forall n i x, In (i, x) (enumerate n l) <-> exists j, i = (n + Z.of_nat j)%Z /\ nth_error l j = Some x.
Proof.
  induction l as [|y l IH]; intros n i x; simpl.
  - split; [contradiction|]. intros ([|j] & _ & H); discriminate.
  - rewrite IH. split.
    + intros [H|(j & -> & Hj)]; [injection H as <- <-; exists 0; split; [lia|reflexivity]|]. exists (S j). split; [lia|auto].
    + intros ([|j] & -> & Hj); [left; injection Hj as ->; f_equal; lia|]. right. exists j. split; [lia|auto].
Qed.

Lemma enumerate_index {A} (l : list A) i x : In (i, x) (enumerate 0 l) <-> (0 <= i)%Z /\ py_index l i = inl x.
Proof.
  rewrite enumerate_in, py_index_inl. split.
  - intros (j & -> & Hj). split; [lia|]. exists j. split; auto. apply py_position_begin; [lia|]. split; [lia|]. apply nth_error_Some. congruence.
  - intros (Hi & j & Hp & Hj). apply py_position_begin in Hp; auto. exists j. split; [lia|auto].
Qed.

Lemma enumerate_ge {A} (l : list A) : forall n i x, In (i, x) (enumerate n l) -> (n <= i)%Z.
Proof. intros n i x H. apply enumerate_in in H. destruct H as (j & -> & _). lia. Qed.

Lemma concat_ok {A B} (f : A -> list B + aexn) l : (forall x, In x l -> exists r, f x = inl r) ->
  concat_results f l = inl (flat_map (fun x => match f x with inl r => r | inr _ => [] end) l).
Proof.
  induction l as [|x l IH]; intros H; [reflexivity|]. cbn [concat_results flat_map]. destruct (H x (or_introl eq_refl)) as (r & ->). rewrite IH; [reflexivity|]. intros; apply H; right; auto.
Qed.

Lemma flat_sorted {A} (f : Z * A -> list (list Z)) (l : list A) : forall n, (forall i x, In (i, x) (enumerate n l) -> exists ps, f (i, x) = map (cons i) ps /\ StronglySorted lex_lt ps) ->
  StronglySorted lex_lt (flat_map f (enumerate n l)).
Proof.
  induction l as [|x l IH]; intros n H; simpl; [constructor|]. destruct (H n x (or_introl eq_refl)) as (ps & E & HS). rewrite E. apply sorted_app.
  - now apply sorted_map_cons.
  - apply IH. intros i y Hin. apply H. right; auto.
  - intros a b Ha Hb. apply in_map_iff in Ha. destruct Ha as (a' & <- & _). apply in_flat_map in Hb. destruct Hb as ([i y] & Hin & Hb).
    destruct (H i y (or_intror Hin)) as (ps2 & E2 & _). rewrite E2 in Hb. apply in_map_iff in Hb. destruct Hb as (b' & <- & _). apply lex_head. apply enumerate_ge in Hin. lia.
Qed.

Lemma map_flat_map {A B D} (g : B -> D) (f : A -> list B) l : map g (flat_map f l) = flat_map (fun x => map g (f x)) l.
Proof. induction l as [|x l IH]; simpl; auto. now rewrite map_app, IH. Qed.

Lemma items_ok (st : st_t) : forall d v, nested st (S d) v -> exists l, array_items st v (S d) = inl l /\ StronglySorted lex_lt (map fst l) /\
  forall p x, In (p, x) l <-> from_begin p /\ length p = S d /\ array_get st v p = inl x.
Proof.
  induction d as [|d IH]; intros v (r & m & l & -> & Hr & Hf).
  - eexists. split; [cbn [array_items sequence]; rewrite Hr; reflexivity|]. split.
    + rewrite map_map. simpl. replace (map (fun x => [fst x]) (enumerate 0 l)) with (flat_map (fun x : Z * val => map (cons (fst x)) [[]]) (enumerate 0 l)).
      * apply flat_sorted. intros i x _. exists [[]]. split; [reflexivity|]. repeat constructor.
      * generalize (enumerate 0 l). intros k. induction k as [|a k IHk]; simpl; [reflexivity|now rewrite <- IHk].
    + intros p x. rewrite in_map_iff. split.
      * intros ([i y] & H & Hin). injection H as <- <-. apply enumerate_index in Hin. destruct Hin as [Hi Hx]. split; [repeat constructor; auto|]. split; auto.
        cbn [array_get sequence fst]. rewrite Hr, Hx. reflexivity.
      * intros (Hp & Hl & Hg). destruct p as [|i [|? ?]]; try discriminate. cbn [array_get sequence] in Hg. rewrite Hr in Hg. exists (i, x). split; auto. apply enumerate_index.
        inversion Hp; subst. split; auto. destruct (py_index l i); congruence.
  - set (g := fun ix : Z * val => match array_items st (snd ix) (S d) with inr e => inr e | inl sub => inl (map (fun pc => (fst ix :: fst pc, snd pc)) sub) end : list (position * val) + aexn).
    assert (Hsub : forall i y, In (i, y) (enumerate 0 l) -> nested st (S d) y). { intros i y Hin. apply enumerate_index in Hin. destruct Hin as [_ Hin]. rewrite Forall_forall in Hf. apply Hf. eapply py_index_in; eauto. }
    eexists. split; [change (array_items st (VSeq r) (S (S d))) with (match sequence st (VSeq r) with inr e => inr e | inl (_, l) => concat_results g (enumerate 0 l) end); cbn [sequence]; rewrite Hr; apply concat_ok|split].
    + intros [i y] Hin. destruct (IH y (Hsub i y Hin)) as (sub & E & _). unfold g. cbn [snd]. rewrite E. eauto.
    + rewrite map_flat_map. apply flat_sorted. intros i y Hin. destruct (IH y (Hsub i y Hin)) as (sub & E & HS & _). unfold g. cbn [snd fst]. rewrite E. exists (map fst sub). split; auto. rewrite !map_map. reflexivity.
    + intros p x. rewrite in_flat_map. split.
      * intros ([i y] & Hin & Hx). destruct (IH y (Hsub i y Hin)) as (sub & E & _ & HI). unfold g in Hx. cbn [snd fst] in Hx. rewrite E in Hx. apply in_map_iff in Hx.
        destruct Hx as ([p' x'] & H & Hx). injection H as <- <-. apply HI in Hx. destruct Hx as (Hp & Hlp & Hg). apply enumerate_index in Hin. destruct Hin as [Hi Hy].
        split; [constructor; auto|]. split; [simpl in *; lia|]. cbn [array_get sequence fst snd]. rewrite Hr, Hy. exact Hg.
      * intros (Hp & Hlp & Hg). destruct p as [|i p]; [discriminate|]. cbn [array_get sequence] in Hg. rewrite Hr in Hg. destruct (py_index l i) as [y|e] eqn:Ey; [|discriminate].
        inversion Hp; subst. assert (Hin : In (i, y) (enumerate 0 l)) by (apply enumerate_index; auto). exists (i, y). split; auto.
        destruct (IH y (Hsub i y Hin)) as (sub & E & _ & HI). unfold g. cbn [snd fst]. rewrite E. apply in_map_iff. exists (p, x). split; auto. apply HI. injection Hlp as Hlp. auto.
Qed.

Lemma findall_items (st : st_t) found : forall d v l, array_items st v (S d) = inl l ->
  array_findall st found v (S d) = inl (map fst (filter (fun pc => found (snd pc)) l)).
Proof.
  induction d as [|d IH]; intros v l HI.
  - cbn [array_items array_findall] in *. destruct (sequence st v) as [[m k]|e]; [|discriminate]. injection HI as <-. f_equal. generalize (enumerate 0 k). intros k'.
    induction k' as [|[i y] k' IHk]; [reflexivity|]. simpl. destruct (found y); simpl; now rewrite IHk.
  - change (array_items st v (S (S d))) with (match sequence st v with inr e => inr e | inl (_, l) => concat_results (fun ix => match array_items st (snd ix) (S d) with inr e => inr e | inl sub => inl (map (fun pc => (fst ix :: fst pc, snd pc)) sub) end) (enumerate 0 l) end) in HI.
    change (array_findall st found v (S (S d))) with (match sequence st v with inr e => inr e | inl (_, l) => concat_results (fun ix => match array_findall st found (snd ix) (S d) with inr e => inr e | inl sub => inl (map (cons (fst ix)) sub) end) (enumerate 0 l) end).
    destruct (sequence st v) as [[m k]|e]; [|discriminate]. revert l HI. generalize (enumerate 0 k). intros k'. induction k' as [|[i y] k' IHk]; intros l HI; [injection HI as <-; reflexivity|].
    cbn [concat_results snd fst] in *. destruct (array_items st y (S d)) as [sub|e] eqn:E; [|discriminate]. rewrite (IH y sub E).
    match type of HI with match ?c with inl _ => _ | inr _ => _ end = _ => destruct c as [rest|e] eqn:Er; [|discriminate] end. injection HI as <-. rewrite (IHk rest eq_refl). f_equal.
    rewrite filter_app, map_app. f_equal. clear. induction sub as [|[p x] sub IHs]; [reflexivity|]. simpl. destruct (found x); simpl; now rewrite IHs.
Qed.

(** ** Size *)
Lemma size_ok (st : st_t) : forall sizes v, rectangular st sizes v -> (forall n, In n sizes -> n <> 0) -> array_size st v (length sizes) = inl (map Z.of_nat sizes).
Proof.
  induction sizes as [|n sizes IH]; intros v HR Hn; [reflexivity|]. destruct HR as (r & m & l & -> & Hr & Hl & Hf). cbn [length array_size sequence]. rewrite Hr.
  assert (n <> 0) by (apply Hn; left; auto). destruct l as [|y l]; [simpl in Hl; congruence|]. change (py_index (y :: l) 0) with (@inl val aexn y).
  inversion Hf; subst. rewrite IH; auto. intros; apply Hn; right; auto.
Qed.

Lemma size_empty (st : st_t) : forall sizes v, rectangular st sizes v -> In 0 sizes -> array_size st v (length sizes) = inr AIndexError.
Proof.
  induction sizes as [|n sizes IH]; intros v HR Hn; [destruct Hn|]. destruct HR as (r & m & l & -> & Hr & Hl & Hf). cbn [length array_size sequence]. rewrite Hr.
  destruct l as [|y l]; [reflexivity|]. change (py_index (y :: l) 0) with (@inl val aexn y). inversion Hf; subst. rewrite IH; auto. destruct Hn as [Hn|Hn]; [discriminate|auto].
Qed.

Lemma get_inside (st : st_t) : forall sizes v p, rectangular st sizes v ->
  (inside p (whole_array sizes) <-> from_begin p /\ length p = length sizes /\ exists x, array_get st v p = inl x).
Proof.
  induction sizes as [|n sizes IH]; intros v p HR.
  - split; [intros H; inversion H; subst; split; [constructor|split; [reflexivity|simpl; eauto]]|]. intros (_ & Hl & _). destruct p; [constructor|discriminate].
  - destruct HR as (r & m & l & -> & Hr & Hl & Hf). split.
    + intros H. inversion H as [|i ? p' ? Hi Hp']; subst. simpl in Hi.
      assert (Hex : exists y, py_index l i = inl y). { destruct (nth_error l (Z.to_nat i)) as [y|] eqn:Ey; [|apply nth_error_None in Ey; lia]. exists y. apply py_index_inl. exists (Z.to_nat i). split; auto. apply py_position_begin; lia. }
      destruct Hex as (y & Hy). rewrite Forall_forall in Hf. assert (HRy : rectangular st sizes y) by (apply Hf; eapply py_index_in; eauto). apply (IH y p' HRy) in Hp'.
      destruct Hp' as (P1 & P2 & x & P3). split; [constructor; auto; lia|]. split; [simpl; lia|]. exists x. cbn [array_get sequence]. rewrite Hr, Hy. exact P3.
    + intros (Hp & Hlp & x & Hg). destruct p as [|i p]; [discriminate|]. cbn [array_get sequence] in Hg. rewrite Hr in Hg. destruct (py_index l i) as [y|e] eqn:Ey; [|discriminate].
      inversion Hp; subst. rewrite Forall_forall in Hf. assert (HRy : rectangular st sizes y) by (apply Hf; eapply py_index_in; eauto). simpl. constructor.
      * apply py_index_inl in Ey. destruct Ey as (j & Ej & _). apply py_position_begin in Ej; auto. simpl. lia.
      * apply (IH y p HRy). split; auto. split; [simpl in Hlp; lia|eauto].
Qed.

Lemma rectangular_nested (st : st_t) : forall sizes v, rectangular st sizes v -> nested st (length sizes) v.
Proof.
  induction sizes as [|n sizes IH]; intros v HR; [exact Logic.I|]. destruct HR as (r & m & l & -> & Hr & Hl & Hf). exists r, m, l. split; auto. split; auto.
  rewrite Forall_forall in *. auto.
Qed.

(** ** Neighbors *)
Lemma choose_ok {B} (st : st_t) v (choose : position -> val -> option B) qs : (forall q, In q qs -> exists c, array_get st v q = inl c) ->
  exists l, choose_neighbors st v choose qs PosDone = (l, ArrayDone) /\ forall b, In b l <-> exists q c, In q qs /\ array_get st v q = inl c /\ choose q c = Some b.
Proof.
  induction qs as [|q qs IH]; intros H; [exists []; split; [reflexivity|]; intros b; split; [contradiction|intros (q & c & [] & _)]|].
  destruct IH as (l & E & HI); [intros; apply H; right; auto|]. destruct (H q (or_introl eq_refl)) as (c & Hc). cbn [choose_neighbors]. rewrite Hc, E. eexists. split; [reflexivity|].
  intros b. split.
  - intros Hb. destruct (choose q c) as [b'|] eqn:Ec; [destruct Hb as [<-|Hb]; [exists q, c; split; [left|]; auto|]|]; apply HI in Hb; destruct Hb as (q' & c' & A & A'); exists q', c'; split; auto; right; auto.
  - intros (q' & c' & [->|Hq] & Hc' & Hch).
    + rewrite Hc in Hc'. injection Hc' as <-. rewrite Hch. left; auto.
    + assert (In b l) by (apply HI; eauto). destruct (choose q c); [right|]; auto.
Qed.

Lemma neighbor_data_ok (st : st_t) sizes v diagonals : rectangular st sizes v -> (forall n, In n sizes -> n <> 0) ->
  exists ms, neighbor_data st v (length sizes) diagonals = inl (whole_array sizes, ms) /\ moves (length sizes) diagonals false None = inl ms.
Proof.
  intros HR Hn. unfold neighbor_data, array_limits. rewrite (size_ok st sizes v HR Hn). eexists. rewrite map_map. split; [|unfold moves; reflexivity]. reflexivity.
Qed.

Lemma neighbor_positions (st : st_t) sizes v diagonals ms wrap p : rectangular st sizes v -> (forall n, In n sizes -> n <> 0) ->
  moves (length sizes) diagonals false None = inl ms -> length p = length sizes ->
  let limits := whole_array sizes in
  exists qs, neighbors p ms (Some limits) wrap = (qs, PosDone) /\ (forall q, In q qs -> exists c, array_get st v q = inl c) /\
    forall q, In q qs <-> array_neighbor sizes diagonals wrap p q.
Proof.
  intros HR Hn HM Hp limits. destruct (neighbors_ok _ _ _ _ _ p HM Hp) as (_ & NL & NW).
  assert (Hlen : length limits = length sizes) by apply map_length.
  assert (Hms : forall m, In m ms <-> a_move (length sizes) diagonals m). { pose proof (moves_exact (length sizes) diagonals false None) as H. rewrite HM in H. destruct H as (_ & _ & _ & H). intros m. rewrite H. unfold a_move, allowed_count. intuition; discriminate. }
  assert (Hpr : proper_limits limits). { intros low high Hin. apply in_map_iff in Hin. destruct Hin as (n & H & Hin). injection H as <- <-. specialize (Hn n Hin). lia. }
  assert (HQ : exists qs, neighbors p ms (Some limits) wrap = (qs, PosDone) /\ forall q, In q qs <-> inside q limits /\ exists m, In m ms /\ if wrap then congruent limits (pos_add p m) q else q = pos_add p m).
  { destruct wrap; [apply NW|apply NL]; auto. }
  destruct HQ as (qs & E & HQ). exists qs. split; auto. split.
  - intros q Hq. apply HQ in Hq. destruct Hq as [Hi _]. apply (get_inside st sizes v q HR) in Hi. apply Hi.
  - intros q. rewrite HQ. unfold array_neighbor. fold limits. split; intros [Hi (m & Hm & H)]; (split; [auto|]); exists m; (split; [now apply Hms|]); destruct wrap; rewrite ?pos_add_translated in *; auto.
Qed.

Lemma next_vertices_ok (st : st_t) sizes v diagonals ms wrap forbidden p : rectangular st sizes v -> (forall n, In n sizes -> n <> 0) ->
  moves (length sizes) diagonals false None = inl ms -> length p = length sizes ->
  let limits := whole_array sizes in
  exists l, next_vertices st v limits ms wrap forbidden p = (l, ArrayDone) /\
    forall q, In q l <-> array_neighbor sizes diagonals wrap p q /\
                         exists c, array_get st v q = inl c /\ forbidden c = false.
Proof.
  intros HR Hn HM Hp limits. destruct (neighbor_positions st sizes v diagonals ms wrap p HR Hn HM Hp) as (qs & E & HG & HQ). fold limits in E, HQ.
  unfold next_vertices. rewrite E. destruct (choose_ok st v (fun q c => if forbidden c then None else Some q) qs HG) as (l & E2 & HL). exists l. split; auto.
  intros q. rewrite HL. rewrite <- HQ. split.
  - intros (q' & c & Hq & Hc & H). destruct (forbidden c) eqn:Ef; [discriminate|]. injection H as ->. eauto.
  - intros (Hq & c & Hc & Hf). exists q, c. rewrite Hf. auto.
Qed.

Lemma next_edges_ok {W} (st : st_t) sizes v diagonals ms wrap (weight : val -> option W) p : rectangular st sizes v -> (forall n, In n sizes -> n <> 0) ->
  moves (length sizes) diagonals false None = inl ms -> length p = length sizes ->
  let limits := whole_array sizes in
  exists l, next_edges st v limits ms wrap weight p = (l, ArrayDone) /\
    forall q w, In (q, w) l <-> array_neighbor sizes diagonals wrap p q /\
                         exists c, array_get st v q = inl c /\ weight c = Some w.
Proof.
  intros HR Hn HM Hp limits. destruct (neighbor_positions st sizes v diagonals ms wrap p HR Hn HM Hp) as (qs & E & HG & HQ). fold limits in E, HQ.
  unfold next_edges. rewrite E. destruct (choose_ok st v (fun q c => match weight c with Some w => Some (q, w) | None => None end) qs HG) as (l & E2 & HL). exists l. split; auto.
  intros q w. rewrite HL. rewrite <- HQ. split.
  - intros (q' & c & Hq & Hc & H). destruct (weight c) as [w'|] eqn:Ef; [|discriminate]. injection H as -> ->. eauto.
  - intros (Hq & c & Hc & Hf). exists q, c. rewrite Hf. auto.
Qed.

Lemma array_neighbor_symmetric sizes diagonals wrap p q : length p = length sizes -> inside p (whole_array sizes) ->
  array_neighbor sizes diagonals wrap p q -> array_neighbor sizes diagonals wrap q p.
Proof.
  intros Hp Hi [Hq (m & [Hm Hc] & H)]. split; auto. exists (map Z.opp m). split; [split; [now apply unit_vector_opp|now rewrite count_opp]|].
  assert (Hlm : length p = length m) by (destruct Hm; congruence). rewrite <- !pos_add_translated in *. pose proof (pos_add_opp p m Hlm) as Ho. destruct wrap.
  - rewrite <- Ho. apply congruent_add; [now apply congruent_sym|]. rewrite map_length. unfold whole_array. rewrite map_length. congruence.
  - subst q. now rewrite Ho.
Qed.

(** ** Summaries *)
Lemma set_get_ok (st : st_t) d v p x : nested st d v -> unshared st d v -> changeable st d v -> length p = d -> from_begin p ->
  ((exists y, array_get st v p = inl y) -> exists st', array_set st v p x = inl st') /\
  (forall e, array_get st v p = inr e -> e = AIndexError /\ array_set st v p x = inr AIndexError) /\
  (forall st', array_set st v p x = inl st' ->
     array_get st' v p = inl x /\ (forall q, from_begin q -> length q = d -> q <> p -> array_get st' v q = array_get st v q) /\
     nested st' d v /\ unshared st' d v /\ changeable st' d v).
Proof.
  intros Hn Hu Hc Hl Hp. split; [|split].
  - intros (y & Hy). eapply set_possible; eauto.
  - intros e He. pose proof (get_nested st p d v Hl Hn e He) as ->. split; auto. eapply set_out_of_range; eauto.
  - intros st' Hs. destruct (set_ok x p d v st st' Hl Hu Hs) as (A & B & D & E & F). split; auto. split; auto. split; auto. split; auto. unfold unshared. now rewrite A.
Qed.

Lemma mutable_copy_ok (st : st_t) d v : nested st d v -> 0 < d ->
  exists st' v', writable d st v = inl (st', v') /\
    (forall p, length p = d -> array_get st' v' p = array_get st v p /\ array_get st' v p = array_get st v p) /\
    nested st' d v' /\ unshared st' d v' /\ changeable st' d v' /\
    (unshared st d v -> forall ws st'', (forall b p x, In (b, p, x) ws -> from_begin p /\ length p = d) -> write_all st' v v' ws = Some st'' ->
       forall b q, from_begin q -> length q = d ->
       array_get st'' (if b : bool then v' else v) q = match latest ws b q with Some x => inl x | None => array_get st v q end).
Proof.
  intros Hn Hd. destruct d as [|d]; [lia|]. destruct (copy_ok d st v Hn) as (ext & v' & E & (N & U & R & G)). exists (st ++ ext), v'. split; auto.
  pose proof (agree_extend st ext (S d) v Hn) as Ha.
  assert (G2 : forall p, length p = S d -> array_get (st ++ ext) v p = array_get st v p) by (intros p Hp; apply (get_agree _ _ _ (S d)); [lia|auto]).
  split; [intros p Hp; split; auto|]. split; auto. split; auto. split; [apply mutable_changeable; auto; intros r Hr; apply (R r Hr)|].
  intros HU ws st'' Hws HW b q Hq Hlq. rewrite (history (S d) v v' ws (st ++ ext) st''); auto.
  - destruct (latest ws b q); auto. destruct b; auto.
  - rewrite (objects_agree _ _ _ _ Ha). exact HU.
  - rewrite (objects_agree _ _ _ _ Ha). intros r Hr Hr'. apply (objects_in_store st) in Hr; auto. apply R in Hr'. destruct Hr'. lia.
Qed.

Lemma items_exact (st : st_t) d v : nested st d v -> 0 < d ->
  exists l, array_items st v d = inl l /\ StronglySorted lex_lt (map fst l) /\ forall p x, In (p, x) l <-> from_begin p /\ length p = d /\ array_get st v p = inl x.
Proof. intros Hn Hd. destruct d as [|d]; [lia|]. now apply items_ok. Qed.

Lemma sorted_map_filter {A} (g : A -> list Z) f l : StronglySorted lex_lt (map g l) -> StronglySorted lex_lt (map g (filter f l)).
Proof.
  induction l as [|x l IH]; simpl; intros H; [constructor|]. inversion H as [|? ? H1 H2]; subst. destruct (f x); simpl; auto. constructor; auto.
  rewrite Forall_forall in *. intros y Hy. apply H2. apply in_map_iff in Hy. destruct Hy as (z & <- & Hz). apply in_map. apply filter_In in Hz. apply Hz.
Qed.

Lemma findall_exact (st : st_t) found d v : nested st d v -> 0 < d ->
  exists l, array_findall st found v d = inl l /\ StronglySorted lex_lt l /\
            forall p, In p l <-> from_begin p /\ length p = d /\ exists x, array_get st v p = inl x /\ found x = true.
Proof.
  intros Hn Hd. destruct d as [|d]; [lia|]. destruct (items_ok st d v Hn) as (l & E & HS & HI). eexists. split; [apply findall_items; eauto|]. split; [now apply sorted_map_filter|].
  intros p. rewrite in_map_iff. split.
  - intros ([p' x] & <- & Hin). apply filter_In in Hin. destruct Hin as [Hin Hf]. apply HI in Hin. destruct Hin as (A & B & D). simpl. eauto.
  - intros (A & B & x & D & F). exists (p, x). split; auto. apply filter_In. split; auto. apply HI. auto.
Qed.

Lemma size_exact (st : st_t) sizes v : rectangular st sizes v -> (forall n, In n sizes -> n <> 0) ->
  array_size st v (length sizes) = inl (map Z.of_nat sizes) /\
  exists limits, array_limits st v (length sizes) = inl limits /\ forall p, inside p limits <-> from_begin p /\ length p = length sizes /\ exists x, array_get st v p = inl x.
Proof.
  intros HR Hn. pose proof (size_ok st sizes v HR Hn) as E. split; auto. exists (whole_array sizes). unfold array_limits. rewrite E. rewrite map_map. split; [reflexivity|].
  intros p. now apply get_inside.
Qed.

Lemma next_vertices_exact (st0 : st_t) sizes v diagonals wrap forbidden : rectangular st0 sizes v -> (forall n, In n sizes -> n <> 0) ->
  exists limits ms, neighbor_data st0 v (length sizes) diagonals = inl (limits, ms) /\
    forall (st : st_t) p, rectangular st sizes v -> length p = length sizes ->
    exists l, next_vertices st v limits ms wrap forbidden p = (l, ArrayDone) /\
      forall q, In q l <-> array_neighbor sizes diagonals wrap p q /\ exists c, array_get st v q = inl c /\ forbidden c = false.
Proof.
  intros HR Hn. destruct (neighbor_data_ok st0 sizes v diagonals HR Hn) as (ms & E & HM). exists (whole_array sizes), ms. split; auto.
  intros st p HR2 Hp. apply next_vertices_ok; auto.
Qed.

Lemma next_edges_exact {W} (st0 : st_t) sizes v diagonals wrap (weight : val -> option W) : rectangular st0 sizes v -> (forall n, In n sizes -> n <> 0) ->
  exists limits ms, neighbor_data st0 v (length sizes) diagonals = inl (limits, ms) /\
    forall (st : st_t) p, rectangular st sizes v -> length p = length sizes ->
    exists l, next_edges st v limits ms wrap weight p = (l, ArrayDone) /\
      forall q w, In (q, w) l <-> array_neighbor sizes diagonals wrap p q /\ exists c, array_get st v q = inl c /\ weight c = Some w.
Proof.
  intros HR Hn. destruct (neighbor_data_ok st0 sizes v diagonals HR Hn) as (ms & E & HM). exists (whole_array sizes), ms. split; auto.
  intros st p HR2 Hp. apply next_edges_ok; auto.
Qed.
End Array.
