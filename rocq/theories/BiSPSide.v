(** Proofs about one direction of the bidirectional search of shortest paths. *)
From Coq Require Import List ZArith Bool Lia Sorted Arith Permutation.
From Verif Require Import Machine GearSpec Spec TraversalSpec Common CommonProofs Weight WeightSpec HeapModel HeapProofs DijkstraModel BiSPModel BiSPSpec.
Import ListNotations.

Section Side.
Context {V I L : Type}.
Variable I_dec : forall a b : I, {a = b} + {a <> b}.
Variable vid : V -> I.
Variable WT : Weights.
Notation W := (w_t WT).
Notation leb := (w_leb WT).
Notation ltb := (w_ltb WT).
Notation add := (w_add WT).
Notation zero := (w_zero WT).
Notation inf := (w_inf WT).
Variable DM : DMap I W inf.
Notation "D @ i" := (dm_get DM i D) (at level 10).
Variable next : V -> list (V * W * L).
Variable E : I -> W -> I -> Prop.
Hypothesis Hnext : presents_weighted WT vid next E.
Hypothesis Hnn : nonnegative WT E.
Variable starts : list V.
Notation start_id := (is_start vid starts).
Notation ent := (@entry V WT).

Record SInv (X : list (V * W)) (op : option (V * W * list (V * W * L))) (H : list ent) (D : dm_t DM) : Prop := {
  s_le_inf : forall i, leb (D @ i) inf = true;
  s_nn : forall i, leb zero (D @ i) = true;
  s_start : forall i, start_id i -> D @ i = zero;
  s_real : forall i, D @ i <> inf -> exists s p, start_id s /\ wwalk WT E s p i /\ walk_weight WT p = D @ i;
  s_heap : forall e, In e H -> leb (D @ (vid (e_val e))) (e_key e) = true /\ ltb (e_key e) inf = true;
  s_cover : forall i, D @ i <> inf -> (exists v, In (v, D @ i) X /\ vid v = i) \/ (exists e, In e H /\ vid (e_val e) = i /\ e_key e = D @ i);
  s_X : forall v w, In (v, w) X -> D @ (vid v) = w /\ ltb w inf = true;
  s_mono : forall v w e, In (v, w) X -> In e H -> leb w (e_key e) = true;
  s_sorted : heap_sorted WT H;
  s_edges : forall v w n ew l, In (v, w) X -> In (n, ew, l) (next v) ->
    (ltb (D @ (vid n)) inf = true /\ leb (D @ (vid n)) (add ew w) = true) \/ exists rest, op = Some (v, w, rest) /\ In (n, ew, l) rest;
  s_op : forall v w rest, op = Some (v, w, rest) ->
    In (v, w) X /\ incl rest (next v) /\ (forall v' w', In (v', w') X -> leb w' w = true) /\ (forall e, In e H -> leb w (e_key e) = true)
}.

Lemma lt_neq a b : ltb a b = true -> a <> b.
Proof. intros H ->. rewrite w_lt_irrefl in H. discriminate. Qed.

Lemma head_min (e : ent) h : heap_sorted WT (e :: h) -> forall x, In x (e :: h) -> leb (e_key e) (e_key x) = true.
Proof.
  intros HS x [<-|Hx]; [apply w_leb_refl|].
  unfold heap_sorted in HS. inversion HS as [|? ? _ HF]; subst. rewrite Forall_forall in HF. exact (HF x Hx).
Qed.

Lemma sorted_tail e (h : list ent) : heap_sorted WT (e :: h) -> heap_sorted WT h.
Proof. unfold heap_sorted. inversion 1; auto. Qed.

Lemma next_E v n ew l : In (n, ew, l) (next v) -> E (vid v) ew (vid n).
Proof. intros Hin. apply Hnext. apply in_map_iff. exists (n, ew, l). auto. Qed.

Lemma stale_inv X e h D : SInv X None (e :: h) D -> ltb (D @ (vid (e_val e))) (e_key e) = true -> SInv X None h D.
Proof.
  intros HI Hst. destruct HI. constructor; auto.
  - intros e0 He. apply s_heap0. now right.
  - intros i Hi. destruct (s_cover0 i Hi) as [?|(e' & [<-|Hin] & Hv & Hk)]; auto.
    + exfalso. rewrite Hv, Hk, w_lt_irrefl in Hst. discriminate.
    + right. eauto.
  - intros v w e0 Hv He. apply (s_mono0 v w e0); auto. now right.
  - now apply sorted_tail in s_sorted0.
  - intros v w rest Hop. discriminate.
Qed.

Lemma expand_inv X w no v h D : SInv X None ((w, no, v) :: h) D -> ltb (D @ (vid v)) w = false ->
  SInv ((v, w) :: X) (Some (v, w, next v)) h D.
Proof.
  intros HI Hst. pose proof (head_min _ _ (s_sorted _ _ _ _ HI)) as Hmin. destruct HI.
  assert (Hd : D @ (vid v) = w /\ ltb w inf = true).
  { destruct (s_heap0 (w, no, v)) as [H1 H2]; [now left|]. apply w_ltb_ge in Hst. split; [now apply (w_leb_antisym WT)|exact H2]. }
  constructor; auto.
  - intros e He. apply s_heap0. now right.
  - intros i Hi. destruct (s_cover0 i Hi) as [(u & Hu & Hv)|(e' & [<-|Hin] & Hv & Hk)]; auto.
    + left. exists u. split; auto. now right.
    + left. exists v. simpl in *. rewrite <- Hk. auto.
    + right. eauto.
  - intros u w' [Heq|Hin]; [injection Heq as <- <-; auto|auto].
  - intros u w' e [Heq|Hin] He.
    + injection Heq as <- <-. apply (Hmin e). now right.
    + apply (s_mono0 u w' e); auto. now right.
  - now apply sorted_tail in s_sorted0.
  - intros u w' n ew l [Heq|Hin] Hn.
    + injection Heq as <- <-. right. eauto.
    + destruct (s_edges0 u w' n ew l Hin Hn) as [?|(r & Hr & _)]; [auto|discriminate].
  - intros u w' rest Heq. injection Heq as <- <- <-. split; [now left|]. split; [apply incl_refl|]. split.
    + intros v' w' [Heq|Hin]; [injection Heq as <- <-; apply w_leb_refl|]. apply (s_mono0 v' w' (w, no, v)); auto. now left.
    + intros e He. apply (Hmin e). now right.
Qed.

Lemma done_inv X v w H D : SInv X (Some (v, w, [])) H D -> SInv X None H D.
Proof.
  intros HI. destruct HI. constructor; auto.
  - intros u w' n ew l Hin Hn. destruct (s_edges0 u w' n ew l Hin Hn) as [?|(r & Hr & Hr')]; auto. injection Hr as <- <- <-. destruct Hr'.
  - intros; discriminate.
Qed.

Lemma skip_inv X v w n ew l rest H D : SInv X (Some (v, w, (n, ew, l) :: rest)) H D ->
  leb inf (add ew w) = false -> leb (D @ (vid n)) (add ew w) = true -> SInv X (Some (v, w, rest)) H D.
Proof.
  intros HI Hov Hle. destruct HI. constructor; auto.
  - intros u w' n' ew' l' Hin Hn. destruct (s_edges0 u w' n' ew' l' Hin Hn) as [?|(r & Hr & Hr')]; auto.
    injection Hr as <- <- <-. destruct Hr' as [Heq|Hr'].
    + injection Heq as <- <- <-. left. split; auto. eapply w_le_lt_trans; [exact Hle|]. now apply w_ltb_lt.
    + right. eauto.
  - intros v' w' rest' Heq. injection Heq as <- <- <-. destruct (s_op0 _ _ _ eq_refl) as (H1 & H2 & H3 & H4).
    split; auto. split; auto. intros x Hx. apply H2. now right.
Qed.

Lemma improve_unsettled X v w n ew l rest H D : SInv X (Some (v, w, (n, ew, l) :: rest)) H D ->
  leb (D @ (vid n)) (add ew w) = false -> forall u w', In (u, w') X -> vid u <> vid n.
Proof.
  intros HI Hlt u w' Hu Heq. destruct (s_op _ _ _ _ HI _ _ _ eq_refl) as (H1 & H2 & H3 & H4).
  destruct (s_X _ _ _ _ HI u w' Hu) as [Hd _]. rewrite Heq in Hd. rewrite Hd in Hlt.
  assert (leb w' (add ew w) = true); [|congruence].
  apply (w_leb_trans WT) with w; [eauto|]. apply w_add_infl. eapply Hnn, next_E, H2. now left.
Qed.

Lemma improve_inv X v w n ew l rest no H D : SInv X (Some (v, w, (n, ew, l) :: rest)) H D ->
  leb inf (add ew w) = false -> leb (D @ (vid n)) (add ew w) = false ->
  SInv X (Some (v, w, rest)) (heappush WT (add ew w, no, n) H) (dm_set DM (vid n) (add ew w) D).
Proof.
  intros HI Hov Hlt. pose proof (improve_unsettled _ _ _ _ _ _ _ _ _ HI Hlt) as Hun.
  destruct (s_op _ _ _ _ HI _ _ _ eq_refl) as (H1 & H2 & H3 & H4).
  assert (Hew : leb zero ew = true) by (eapply Hnn, next_E, H2; now left).
  assert (Hww : leb w (add ew w) = true) by now apply w_add_infl.
  assert (Hsame : dm_get DM (vid n) (dm_set DM (vid n) (add ew w) D) = add ew w) by apply dm_get_set_same.
  assert (Hoth : forall i, i <> vid n -> dm_get DM i (dm_set DM (vid n) (add ew w) D) = D @ i) by (intros; apply dm_get_set_other; auto).
  assert (Hdw : D @ (vid v) = w /\ ltb w inf = true) by (eapply s_X; eauto). 
  assert (Hdec : forall i, leb (dm_get DM i (dm_set DM (vid n) (add ew w) D)) (D @ i) = true).
  { intros i. destruct (I_dec i (vid n)) as [->|Hne]; [rewrite Hsame; apply w_lt_le, w_ltb_lt; exact Hlt|rewrite Hoth by auto; apply w_leb_refl]. }
  assert (Hlti : ltb (add ew w) inf = true) by (now apply w_ltb_lt).
  destruct HI. constructor.
  - intros i. destruct (I_dec i (vid n)) as [->|Hne]; [rewrite Hsame|rewrite Hoth by auto; auto]. now apply w_lt_le.
  - intros i. destruct (I_dec i (vid n)) as [->|Hne]; [rewrite Hsame|rewrite Hoth by auto; auto].
    apply (w_leb_trans WT) with w; auto. destruct Hdw as [<- _]. auto.
  - intros i Hs. destruct (I_dec i (vid n)) as [->|Hne]; [|rewrite Hoth by auto; auto].
    exfalso. rewrite (s_start0 _ Hs) in Hlt. rewrite (w_leb_trans WT zero w) in Hlt; auto; [discriminate|]. destruct Hdw as [<- _]; auto.
  - intros i. destruct (I_dec i (vid n)) as [->|Hne]; [rewrite Hsame|rewrite Hoth by auto; auto]. intros _.
    destruct (s_real0 (vid v)) as (s & p & Hs & Hw & Hp). { destruct Hdw as [-> Hd]. now apply lt_neq. }
    exists s, (p ++ [(ew, vid n)]). split; auto. split.
    + eapply wwalk_snoc; eauto. eapply next_E, H2. now left.
    + rewrite walk_weight_snoc, Hp. destruct Hdw as [-> _]. reflexivity.
  - intros e He. apply heappush_in in He. destruct He as [->|He].
    + simpl. rewrite Hsame. split; [apply w_leb_refl|exact Hlti].
    + destruct (s_heap0 e He) as [Ha Hb]. split; auto. eapply (w_leb_trans WT); [apply Hdec|exact Ha].
  - intros i. destruct (I_dec i (vid n)) as [->|Hne].
    + rewrite Hsame. intros _. right. exists (add ew w, no, n). split; [apply heappush_in; auto|auto].
    + rewrite Hoth by auto. intros Hi. destruct (s_cover0 i Hi) as [?|(e & He & Hr)]; auto. right. exists e. split; auto. apply heappush_in. auto.
  - intros u w' Hu. rewrite Hoth; [auto|]. eapply Hun; eauto.
  - intros u w' e Hu He. apply heappush_in in He. destruct He as [->|He]; [|eauto]. simpl. eapply (w_leb_trans WT); [|exact Hww]. eauto.
  - now apply heappush_sorted.
  - intros u w' n' ew' l' Hin Hn. destruct (s_edges0 u w' n' ew' l' Hin Hn) as [[Ha Hb]|(r & Hr & Hr')].
    + left. split; [eapply w_le_lt_trans; [apply Hdec|exact Ha]|eapply (w_leb_trans WT); [apply Hdec|exact Hb]].
    + injection Hr as <- <- <-. destruct Hr' as [Heq|Hr'].
      * injection Heq as <- <- <-. left. rewrite Hsame. split; [exact Hlti|apply w_leb_refl].
      * right. eauto.
  - intros v' w' rest' Heq. injection Heq as <- <- <-. split; auto. split; [intros x Hx; apply H2; now right|]. split; auto.
    intros e He. apply heappush_in in He. destruct He as [->|He]; [exact Hww|auto].
Qed.

Lemma wzero_le_walk s p i : wwalk WT E s p i -> leb zero (walk_weight WT p) = true.
Proof.
  revert s i. induction p as [|[w x] p IH] using rev_ind; intros s i Hw; [apply w_leb_refl|].
  apply wwalk_snoc_inv in Hw. destruct Hw as (j & Hw & He & ->). rewrite walk_weight_snoc.
  apply (w_leb_trans WT) with (walk_weight WT p); [eauto|]. apply w_add_infl. eapply Hnn; eauto.
Qed.

(** Everything reached with a weight below all keys of the heap is settled. *)
Lemma frontier_from X H D : SInv X None H D -> forall b s p i, ltb (D @ s) inf = true -> leb (D @ s) b = true -> wwalk WT E s p i ->
  (exists v, In (v, D @ i) X /\ vid v = i /\ leb (D @ i) (fold_left (fun d e => add (fst e) d) p b) = true) \/
  (exists e, In e H /\ leb (e_key e) (fold_left (fun d e => add (fst e) d) p b) = true).
Proof.
  intros HI b s p. induction p as [|[w x] p IH] using rev_ind; intros i Hs Hsb Hw.
  - inversion Hw; subst. simpl.
    destruct (s_cover _ _ _ _ HI i) as [(v & Hv & Hvi)|(e & He & Hv & Hk)].
    + now apply lt_neq.
    + left. exists v. auto.
    + right. exists e. split; auto. now rewrite Hk.
  - apply wwalk_snoc_inv in Hw. destruct Hw as (j & Hw & He & ->). rewrite fold_left_app. cbn [fold_left fst].
    destruct (IH j Hs Hsb Hw) as [(v & Hv & Hvj & Hle)|(e & Hin & Hle)].
    + rewrite <- Hvj in He. apply Hnext in He. apply in_map_iff in He. destruct He as ([[n ew] l] & Heq & Hn).
      simpl in Heq. injection Heq as -> <-.
      destruct (s_edges _ _ _ _ HI v _ n w l Hv Hn) as [[Ha Hb]|(r & Hr & _)]; [|discriminate].
      assert (Hc : leb (D @ (vid n)) (add w (fold_left (fun d e => add (fst e) d) p b)) = true).
      { eapply (w_leb_trans WT); [exact Hb|]. apply w_add_mono. exact Hle. }
      destruct (s_cover _ _ _ _ HI (vid n)) as [(v' & Hv' & Hvi)|(e & He' & Hv' & Hk)].
      * now apply lt_neq.
      * left. eauto.
      * right. exists e. split; auto. now rewrite Hk.
    + right. exists e. split; auto. eapply (w_leb_trans WT); [exact Hle|]. apply w_add_infl. eapply Hnn; eauto.
Qed.

Lemma frontier X H D : SInv X None H D -> forall s p i, start_id s -> wwalk WT E s p i ->
  (exists v, In (v, D @ i) X /\ vid v = i /\ leb (D @ i) (walk_weight WT p) = true) \/ (exists e, In e H /\ leb (e_key e) (walk_weight WT p) = true).
Proof.
  intros HI s p i Hs Hw. pose proof (s_start _ _ _ _ HI _ Hs) as Hd. apply (frontier_from X H D HI zero s p i); auto; rewrite Hd; [apply w_ltb_lt, w_zero_inf|apply w_leb_refl].
Qed.

Lemma entries_in no D l e : In e (b2_entries vid WT DM no D l) -> In (e_val e) l /\ e_key e = D @ (vid (e_val e)).
Proof.
  revert no. induction l as [|v l IH]; simpl; intros no; [tauto|]. intros [<-|Hin]; [auto|]. apply IH in Hin. tauto.
Qed.

Lemma in_entries no D l v : In v l -> exists e, In e (b2_entries vid WT DM no D l) /\ e_val e = v.
Proof.
  revert no. induction l as [|u l IH]; simpl; intros no; [tauto|]. intros [->|Hin]; [eexists; split; [now left|reflexivity]|].
  destruct (IH (no - 1)%Z Hin) as (e & He & Hv). eauto.
Qed.

Notation D0 := (define_distances WT DM None (map (fun v => (vid v, zero)) starts) false).

Lemma D0_start i : start_id i -> D0 @ i = zero.
Proof.
  unfold define_distances, is_start. generalize (dm_empty DM). induction starts as [|v l IH] using rev_ind; [intros ? []|].
  intros m Hi. rewrite map_app in *. rewrite fold_left_app. cbn [map fold_left fst snd].
  destruct (I_dec i (vid v)) as [->|Hne]; [apply dm_get_set_same|]. rewrite dm_get_set_other by auto. apply IH.
  apply in_app_or in Hi. destruct Hi as [Hi|[Hi|[]]]; auto. congruence.
Qed.

Lemma D0_other i : ~ start_id i -> D0 @ i = inf.
Proof.
  intros Hi. transitivity (dm_get DM i (dm_empty DM)); [|apply dm_get_empty]. revert Hi. unfold define_distances, is_start.
  generalize (dm_empty DM). induction starts as [|v l IH] using rev_ind; [auto|].
  intros m Hi. rewrite map_app in *. rewrite fold_left_app. cbn [map fold_left fst snd].
  rewrite in_app_iff in Hi. simpl in Hi. rewrite dm_get_set_other by (intros Heq; apply Hi; auto). apply IH. tauto.
Qed.

Lemma zero_lt_inf : ltb zero inf = true.
Proof. apply w_ltb_lt, w_zero_inf. Qed.

Lemma init_inv : SInv [] None (heapify WT (b2_entries vid WT DM 256 D0 starts)) D0.
Proof.
  assert (Hdec : forall i, start_id i \/ ~ start_id i) by (intros i; unfold is_start; destruct (in_dec I_dec i (map vid starts)); auto).
  constructor.
  - intros i. destruct (Hdec i); [rewrite D0_start by auto; apply w_lt_le, zero_lt_inf|rewrite D0_other by auto; apply w_leb_refl].
  - intros i. destruct (Hdec i); [rewrite D0_start by auto; apply w_leb_refl|rewrite D0_other by auto; apply w_lt_le, zero_lt_inf].
  - apply D0_start.
  - intros i Hi. destruct (Hdec i); [|rewrite D0_other in Hi by auto; congruence]. exists i, []. split; auto. split; [constructor|].
    rewrite D0_start; auto.
  - intros e He. apply heapify_in, entries_in in He. destruct He as [Hv Hk].
    assert (start_id (vid (e_val e))) by (now apply in_map). rewrite Hk, D0_start by auto. split; [apply w_leb_refl|apply zero_lt_inf].
  - intros i Hi. right. destruct (Hdec i) as [Hs|]; [|rewrite D0_other in Hi by auto; congruence].
    pose proof Hs as Hs'. unfold is_start in Hs. apply in_map_iff in Hs. destruct Hs as (v & <- & Hv).
    destruct (in_entries 256 D0 starts v Hv) as (e & He & Hev). exists e. split; [now apply heapify_in|]. split; [congruence|].
    apply entries_in in He. destruct He as [_ ->]. now rewrite Hev.
  - intros v w [].
  - intros v w e [].
  - apply heapify_sorted.
  - intros v w n ew l [].
  - discriminate.
Qed.
End Side.
