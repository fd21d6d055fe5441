(** Proofs about the consumers of [GoModel.v]. *)
From Coq Require Import List Bool Arith Lia Sorted.
From Verif Require Import Machine Common GoModel.
Import ListNotations.

Lemma NoDup_app_left {A} (a b : list A) : NoDup (a ++ b) -> NoDup a.
Proof.
  induction a as [|x a IH]; simpl; intros H; [constructor|]. inversion H; subst.
  constructor; auto. intros Hx. apply H2. apply in_or_app. auto.
Qed.

Section GoProofs.
Context {O I : Type}.
Variable I_dec : forall a b : I, {a = b} + {a <> b}.
Variable id : O -> I.

Lemma go_to_found target fs l e pre v rest :
  l = pre ++ v :: rest -> id v = target -> ~ In target (map id pre) ->
  go_to I_dec id target fs l e = (Some v, Stopped rest).
Proof.
  intros -> Hv. induction pre as [|a pre IH]; simpl; intros Hn.
  - destruct (I_dec (id v) target); congruence.
  - destruct (I_dec (id a) target) as [<-|]; [tauto|]. apply IH. tauto.
Qed.

Lemma go_to_missing target fs l e : ~ In target (map id l) ->
  go_to I_dec id target fs l e =
  (None, match e with SMore => Pending | SExn x => Failed x
         | SEnd => if fs then Exhausted else Failed KeyErrorNotFound end).
Proof.
  induction l as [|a l IH]; simpl; intros Hn; [reflexivity|].
  destruct (I_dec (id a) target) as [<-|]; [tauto|]. apply IH. tauto.
Qed.

(** The matching reports. *)
Definition matches (wanted : list I) (l : list O) : list O :=
  filter (fun v => if in_dec I_dec (id v) wanted then true else false) l.

Lemma matches_in wanted l v : In v (matches wanted l) <-> In v l /\ In (id v) wanted.
Proof.
  unfold matches. rewrite filter_In. destruct (in_dec I_dec (id v) wanted); intuition discriminate.
Qed.

Lemma matches_nodup wanted l : NoDup (map id l) -> NoDup (map id (matches wanted l)).
Proof.
  induction l as [|a l IH]; simpl; intros H; auto. inversion H; subst.
  destruct (in_dec I_dec (id a) wanted); auto. simpl. constructor; auto.
  intros Hin. apply H2. apply in_map_iff in Hin. destruct Hin as (x & <- & Hx).
  apply matches_in in Hx. apply in_map. tauto.
Qed.

Lemma go_for_loop_spec wanted fs e l : forall c, 0 < c ->
  (length (matches wanted l) < c -> 
     go_for_loop I_dec id wanted c fs l e = (matches wanted l, at_source_end e (if fs then Exhausted else Failed KeyErrorNotFound))) /\
  (c <= length (matches wanted l) ->
     exists pre v rest, l = pre ++ v :: rest /\ length (matches wanted pre) = c - 1 /\
       In (id v) wanted /\
       go_for_loop I_dec id wanted c fs l e = (matches wanted (pre ++ [v]), Stopped rest)).
Proof.
  induction l as [|a l IH]; simpl; intros c Hc.
  - split; [auto|lia].
  - destruct (in_dec I_dec (id a) wanted) as [Hin|Hnin]; simpl.
    + destruct (c - 1) as [|c'] eqn:Ec.
      * split; [lia|]. intros _. exists [], a, l. simpl.
        destruct (in_dec I_dec (id a) wanted); [|contradiction]. auto.
      * destruct (IH (S c') ltac:(lia)) as [IH1 IH2]. split.
        -- intros Hl. rewrite IH1 by lia. reflexivity.
        -- intros Hl. destruct IH2 as (pre & v & rest & -> & Hm & Hv & ->); [lia|].
           exists (a :: pre), v, rest. simpl.
           destruct (in_dec I_dec (id a) wanted); [|contradiction]. simpl.
           repeat split; auto. lia.
    + destruct (IH c Hc) as [IH1 IH2]. split; auto.
      intros Hl. destruct (IH2 Hl) as (pre & v & rest & -> & Hm & Hv & ->).
      exists (a :: pre), v, rest. simpl. destruct (in_dec I_dec (id a) wanted); [contradiction|]. auto.
Qed.

(** Sources that report no id twice. *)
Section NoRepeats.
Variable wanted : list I.
Variable l : list O.
Hypothesis Hnd : NoDup (map id l).

Lemma matches_length_le : length (matches wanted l) <= length (nodup I_dec wanted).
Proof using Hnd.
  rewrite <- (map_length id). apply NoDup_incl_length; [now apply matches_nodup|].
  intros i Hi. apply in_map_iff in Hi. destruct Hi as (v & <- & Hv).
  apply matches_in in Hv. now apply nodup_In.
Qed.

Lemma matches_all : length (nodup I_dec wanted) <= length (matches wanted l) ->
  forall i, In i wanted -> In i (map id l).
Proof using Hnd.
  intros Hl i Hi.
  assert (Hincl : incl (nodup I_dec wanted) (map id (matches wanted l))).
  { apply NoDup_length_incl; [now apply matches_nodup|now rewrite map_length|].
    intros j Hj. apply in_map_iff in Hj. destruct Hj as (v & <- & Hv).
    apply matches_in in Hv. now apply nodup_In. }
  specialize (Hincl i (proj2 (nodup_In I_dec wanted i) Hi)).
  apply in_map_iff in Hincl. destruct Hincl as (v & <- & Hv). apply matches_in in Hv. now apply in_map.
Qed.

Lemma matches_all_inv : (forall i, In i wanted -> In i (map id l)) ->
  length (nodup I_dec wanted) <= length (matches wanted l).
Proof using Hnd.
  intros H. rewrite <- (map_length id (matches wanted l)).
  apply NoDup_incl_length; [apply NoDup_nodup|].
  intros i Hi. apply nodup_In in Hi. specialize (H i Hi). apply in_map_iff in H.
  destruct H as (v & <- & Hv). apply in_map. apply matches_in. auto.
Qed.
End NoRepeats.

Lemma matches_nodup_eq wanted l : matches (nodup I_dec wanted) l = matches wanted l.
Proof.
  unfold matches. apply filter_ext. intros v.
  destruct (in_dec I_dec (id v) (nodup I_dec wanted)) as [H|H];
  destruct (in_dec I_dec (id v) wanted) as [H'|H']; auto; exfalso; rewrite nodup_In in H; tauto.
Qed.

Lemma matches_app wanted a b : matches wanted (a ++ b) = matches wanted a ++ matches wanted b.
Proof. unfold matches. apply filter_app. Qed.

Lemma go_for_spec wanted fs l e : NoDup (map id l) ->
  (* all found: reports exactly the matches and stops at the last one *)
  ((forall i, In i wanted -> In i (map id l)) ->
   wanted <> [] ->
   exists pre v rest, l = pre ++ v :: rest /\ In (id v) wanted /\
     (forall i, In i wanted -> In i (map id (pre ++ [v]))) /\
     go_for_vertices_in I_dec id wanted fs l e = (matches wanted l, Stopped rest)) /\
  (* not all found *)
  ((exists i, In i wanted /\ ~ In i (map id l)) ->
   go_for_vertices_in I_dec id wanted fs l e =
   (matches wanted l, match e with SMore => Pending | SExn x => Failed x
                      | SEnd => if fs then Exhausted else Failed KeyErrorNotFound end)).
Proof.
  intros Hnd. unfold go_for_vertices_in.
  assert (Hpos : forall i, In i wanted -> length (nodup I_dec wanted) <> 0).
  { intros i Hi H0. apply length_zero_iff_nil in H0. apply (nodup_In I_dec) in Hi.
    rewrite H0 in Hi. contradiction. }
  split.
  - intros Hall Hne. destruct wanted as [|w0 ws] eqn:Hw; [congruence|]. rewrite <- Hw in *.
    assert (Hw0 : In w0 wanted) by (rewrite Hw; now left).
    pose proof (Hpos _ Hw0) as Hc. pose proof (matches_all_inv wanted l Hnd Hall) as Hge.
    destruct (length (nodup I_dec wanted)) as [|c] eqn:Hlen; [congruence|].
    destruct (go_for_loop_spec (nodup I_dec wanted) fs e l (S c) ltac:(lia)) as [_ H2].
    rewrite matches_nodup_eq in H2.
    destruct (H2 Hge) as (pre & v & rest & -> & Hm & Hv & Hgo).
    rewrite matches_nodup_eq in Hm, Hgo. apply nodup_In in Hv.
    exists pre, v, rest. split; [auto|split; [auto|split]].
    + assert (Hnd1 : NoDup (map id (pre ++ [v]))).
      { rewrite map_app in *. simpl in *. rewrite <- (app_nil_l (map id rest)) in Hnd.
        change (id v :: [] ++ map id rest) with ([id v] ++ map id rest) in Hnd.
        rewrite app_assoc in Hnd. now apply NoDup_app_left in Hnd. }
      apply (matches_all wanted _ Hnd1). rewrite matches_app, app_length, Hm. simpl.
      destruct (in_dec I_dec (id v) wanted); [simpl; lia|contradiction].
    + rewrite Hgo. f_equal. change (pre ++ v :: rest) with (pre ++ [v] ++ rest).
      rewrite app_assoc, (matches_app wanted (pre ++ [v])).
      pose proof (matches_length_le wanted _ Hnd) as Hle.
      change (pre ++ v :: rest) with (pre ++ [v] ++ rest) in Hle.
      rewrite app_assoc, (matches_app wanted (pre ++ [v])), app_length in Hle.
      rewrite (matches_app wanted pre [v]), app_length, Hm in Hle. simpl in Hle.
      destruct (in_dec I_dec (id v) wanted); [|contradiction]. simpl in Hle.
      destruct (matches wanted rest); [now rewrite app_nil_r|simpl in Hle; lia].
  - intros (i & Hi & Hni). pose proof (Hpos _ Hi) as Hc.
    destruct (length (nodup I_dec wanted)) as [|c] eqn:Hlen; [congruence|].
    destruct (go_for_loop_spec (nodup I_dec wanted) fs e l (S c) ltac:(lia)) as [H1 _].
    rewrite matches_nodup_eq in H1. apply H1.
    destruct (le_lt_dec (S c) (length (matches wanted l))) as [Hge|]; auto.
    exfalso. apply Hni. apply (matches_all wanted l Hnd); auto. lia.
Qed.

Lemma go_for_none fs l e : go_for_vertices_in I_dec id [] fs l e = ([], Stopped l).
Proof. reflexivity. Qed.

(** Ranges *)
Section Range.
Context {K : Type}.
Variable key : O -> K.
Variable Kle : K -> K -> Prop.
Hypothesis Kle_trans : forall a b c, Kle a b -> Kle b c -> Kle a c.
Variables start stop : K.
Variable ge_start lt_stop : O -> bool.
Hypothesis Hge : forall o, ge_start o = true <-> Kle start (key o).
Hypothesis Hlt : forall o, lt_stop o = false <-> Kle stop (key o).

Definition in_range (o : O) : bool := ge_start o && lt_stop o.

Lemma range_second_spec e l : StronglySorted Kle (map key l) ->
  (forall o, In o l -> ge_start o = true) ->
  fst (range_second lt_stop l e) = filter in_range l /\
  match snd (range_second lt_stop l e) with
  | Stopped rest => exists y x, l = y ++ x :: rest /\ y = filter in_range l /\
                                forall o, In o (x :: rest) -> lt_stop o = false
  | end_ => end_ = at_source_end e Exhausted /\ forall o, In o l -> lt_stop o = true
  end.
Proof using Hge Hlt Kle_trans.
  induction l as [|a l IH]; cbn [range_second filter fst snd]; intros HS Hg.
  - split; auto. destruct e; simpl; split; auto; intros o [].
  - simpl in HS. inversion HS as [|? ? HS' HF]; subst. unfold in_range at 1 2.
    rewrite (Hg a) by now left. destruct (lt_stop a) eqn:Ha; cbn [negb andb].
    + destruct IH as [IH1 IH2]; auto. { intros; apply Hg; now right. }
      cbn [fst snd]. split; [now rewrite IH1|].
      destruct (snd (range_second lt_stop l e)).
      * destruct IH2 as (y & x & Hl & Hy & Hx). exists (a :: y), x. split; [simpl; congruence|].
        split; auto. cbn [filter]. unfold in_range at 1. rewrite (Hg a), Ha by now left. simpl. congruence.
      * destruct IH2 as [H0 H]. split; [exact H0|]. intros o [<-|Ho]; auto.
      * destruct IH2 as [H0 H]. split; [exact H0|]. intros o [<-|Ho]; auto.
      * destruct IH2 as [H0 H]. split; [exact H0|]. intros o [<-|Ho]; auto.
    + assert (Hall : forall o, In o (a :: l) -> lt_stop o = false).
      { intros o [<-|Ho]; auto. apply Hlt. apply Hlt in Ha. rewrite Forall_forall in HF.
        eapply Kle_trans; [exact Ha|]. apply HF. now apply in_map. }
      assert (Hf : filter in_range l = []).
      { clear -Hall. assert (H : forall o, In o l -> lt_stop o = false) by (intros; apply Hall; now right).
        clear Hall. induction l as [|b l IH]; auto. cbn [filter]. unfold in_range at 1.
        rewrite (H b) by now left. rewrite andb_false_r. apply IH. intros; apply H; now right. }
      cbn [fst snd]. split; auto. exists [], a. split; auto. split; auto.
      cbn [filter]. unfold in_range at 1. rewrite Ha, andb_false_r. auto.
Qed.

(** [go_for_range] on a source sorted by key. *)
Lemma go_for_range_spec e l : StronglySorted Kle (map key l) ->
  fst (go_for_range ge_start lt_stop l e) = filter in_range l /\
  match snd (go_for_range ge_start lt_stop l e) with
  | Stopped rest => exists skipped lost,
      l = skipped ++ filter in_range l ++ lost ++ rest /\
      (forall o, In o skipped -> ge_start o = false) /\
      (forall o, In o (lost ++ rest) -> lt_stop o = false) /\
      1 <= length lost <= 2 /\
      (filter in_range l <> [] -> length lost = 1)
  | end_ => end_ = at_source_end e Exhausted /\
      exists skipped lost, l = skipped ++ filter in_range l ++ lost /\
      (forall o, In o skipped -> ge_start o = false) /\
      (forall o, In o lost -> lt_stop o = false) /\ length lost <= 1
  end.
Proof using Hge Hlt Kle_trans.
  induction l as [|a l IH]; cbn [go_for_range filter fst snd]; intros HS.
  - split; auto. assert (exists skipped lost : list O, [] = skipped ++ [] ++ lost /\
      (forall o, In o skipped -> ge_start o = false) /\
      (forall o, In o lost -> lt_stop o = false) /\ length lost <= 1).
    { exists [], []. simpl. repeat split; auto; intros o []. }
    destruct e; simpl; auto.
  - simpl in HS. inversion HS as [|? ? HS' HF]; subst.
    assert (Hra : in_range a = ge_start a && lt_stop a) by reflexivity. rewrite Hra. clear Hra.
    rewrite Forall_forall in HF.
    destruct (ge_start a) eqn:Ha; cbn [andb].
    + assert (Hg : forall o, In o l -> ge_start o = true).
      { intros o Ho. apply Hge. apply Hge in Ha. eapply Kle_trans; [exact Ha|]. apply HF. now apply in_map. }
      destruct (range_second_spec e l HS' Hg) as [H1 H2].
      cbn [fst snd]. destruct (lt_stop a) eqn:Hs; cbn [app].
      * split; [now rewrite H1|]. destruct (snd (range_second lt_stop l e)) eqn:Hsnd.
        -- destruct H2 as (y & x & Hl & Hy & Hx). exists [], [x].
           rewrite <- Hy. simpl. split; [now rewrite Hl at 1|]. split; [intros o []|]. split; auto.
        -- destruct H2 as [Hq H]. split; auto. exists [], []. simpl. rewrite app_nil_r.
           split; [|repeat split; auto; intros o []]. f_equal. symmetry.
           clear -H Hg. induction l as [|b l IH]; auto. cbn [filter]. unfold in_range at 1.
           rewrite (Hg b), (H b) by now left. simpl. f_equal. apply IH; intros o Ho; [apply Hg|apply H]; now right.
        -- destruct H2 as [Hq H]. split; auto. exists [], []. simpl. rewrite app_nil_r.
           split; [|repeat split; auto; intros o []]. f_equal. symmetry.
           clear -H Hg. induction l as [|b l IH]; auto. cbn [filter]. unfold in_range at 1.
           rewrite (Hg b), (H b) by now left. simpl. f_equal. apply IH; intros o Ho; [apply Hg|apply H]; now right.
        -- destruct H2 as [Hq H]. split; auto. exists [], []. simpl. rewrite app_nil_r.
           split; [|repeat split; auto; intros o []]. f_equal. symmetry.
           clear -H Hg. induction l as [|b l IH]; auto. cbn [filter]. unfold in_range at 1.
           rewrite (Hg b), (H b) by now left. simpl. f_equal. apply IH; intros o Ho; [apply Hg|apply H]; now right.
      * assert (Hall : forall o, In o (a :: l) -> lt_stop o = false).
        { intros o [<-|Ho]; auto. apply Hlt. apply Hlt in Hs.
          eapply Kle_trans; [exact Hs|]. apply HF. now apply in_map. }
        split; auto. destruct (snd (range_second lt_stop l e)) eqn:Hsnd.
        -- destruct H2 as (y & x & Hl & Hy & Hx). 
           assert (Hy0 : y = []).
           { destruct y as [|b y]; auto. exfalso.
             assert (Hb : In b (filter in_range l)) by (rewrite <- Hy; now left).
             apply filter_In in Hb. destruct Hb as [Hb1 Hb2]. unfold in_range in Hb2.
             rewrite (Hall b), andb_false_r in Hb2 by now right. discriminate. }
           exists [], [a; x]. rewrite <- Hy, Hy0. rewrite Hy0 in Hl. simpl in *. split; [now rewrite Hl at 1|].
           split; [intros o []|]. split; [|split; [lia|congruence]].
           intros o [<-|[<-|Ho]]; auto.
        -- destruct H2 as [Hq H]. split; auto. exists [], [a]. simpl.
           destruct l as [|b l]; [|exfalso; specialize (H b (or_introl eq_refl)); rewrite Hall in H; [discriminate|right; now left]].
           simpl. split; auto. split; [intros o []|]. split; auto.
        -- destruct H2 as [Hq H]. split; auto. exists [], [a]. simpl.
           destruct l as [|b l]; [|exfalso; specialize (H b (or_introl eq_refl)); rewrite Hall in H; [discriminate|right; now left]].
           simpl. split; auto. split; [intros o []|]. split; auto.
        -- destruct H2 as [Hq H]. split; auto. exists [], [a]. simpl.
           destruct l as [|b l]; [|exfalso; specialize (H b (or_introl eq_refl)); rewrite Hall in H; [discriminate|right; now left]].
           simpl. split; auto. split; [intros o []|]. split; auto.
    + destruct (IH HS') as [IH1 IH2]. split; auto.
      destruct (snd (go_for_range ge_start lt_stop l e)).
      * destruct IH2 as (sk & lost & Hl & Hsk & Hrest). exists (a :: sk), lost. split; [simpl; congruence|].
        split; auto. intros o [<-|Ho]; auto.
      * destruct IH2 as (Hq & sk & lost & Hl & Hsk & Hrest). split; auto. exists (a :: sk), lost.
        split; [simpl; congruence|]. split; auto. intros o [<-|Ho]; auto.
      * destruct IH2 as (Hq & sk & lost & Hl & Hsk & Hrest). split; auto. exists (a :: sk), lost.
        split; [simpl; congruence|]. split; auto. intros o [<-|Ho]; auto.
      * destruct IH2 as (Hq & sk & lost & Hl & Hsk & Hrest). split; auto. exists (a :: sk), lost.
        split; [simpl; congruence|]. split; auto. intros o [<-|Ho]; auto.
Qed.
End Range.
End GoProofs.
