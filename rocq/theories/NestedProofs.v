(** Proofs about traversal objects that are started several times. *)
From Coq Require Import List Bool Arith ZArith Lia.
From Verif Require Import Machine Common GearSpec Weight NestedModel.
Import ListNotations.

Lemma nth_set_nth {B} (l : list B) k x j : nth_error (set_nth l k x) j = if Nat.eqb j k then match nth_error l k with Some _ => Some x | None => None end else nth_error l j.
Proof. revert k j. induction l as [|a l IH]; intros [|k] [|j]; cbn [set_nth nth_error Nat.eqb]; auto. destruct (Nat.eqb j k); reflexivity. Qed.
Lemma length_set_nth {B} (l : list B) k x : length (set_nth l k x) = length l.
Proof. revert k. induction l as [|a l IH]; intros [|k]; simpl; auto. Qed.

Section Generic.
Context {P S O A X B : Type}.
Variable st : strategy P S O A X.
Variable init : P -> S.
Variable view : P -> O -> B.
Variable same : P -> S -> S -> Prop.
Notation step := (st_step st).

Definition same_result (p : P) (r1 r2 : step_result S O X) : Prop :=
  match r1, r2 with
  | Go o1 s1, Go o2 s2 | Halt o1 s1, Halt o2 s2 => map (view p) o1 = map (view p) o2 /\ same p s1 s2
  | Raise o1 x1 s1, Raise o2 x2 s2 => map (view p) o1 = map (view p) o2 /\ x1 = x2 /\ same p s1 s2
  | _, _ => False
  end.
Hypothesis Hput : forall p a s s2, same p s s2 -> same p (st_put st a s) s2.
Variable Q : P -> Prop.
Hypothesis Hbegins : forall p a, Q p -> same p (st_begins st p a) (init p).
Hypothesis Hstep : forall p s1 s2, same p s1 s2 -> same_result p (step p s1) (step p s2).

Notation rep k ob us := (fst (reports st k ob us)).
Notation after ob us k := (snd (reports st k ob us)).

Lemma execute_other k ob u p g : nth_error (ob_generators ob) k = Some (p, g) -> g <> Waiting -> (forall j, u = Pass j -> j <> k) ->
  nth_error (ob_generators (snd (execute st ob u))) k = Some (p, g).
Proof.
  intros Hk Hg Hu. destruct u as [p'|j]; cbn [execute].
  - cbn [snd ob_generators]. rewrite nth_error_app1 by (rewrite map_length; apply nth_error_Some; congruence). rewrite nth_error_map, Hk. simpl. destruct g; congruence.
  - specialize (Hu j eq_refl). destruct (nth_error (ob_generators ob) j) as [[p' g']|] eqn:Ej; [|exact Hk].
    assert (Hne : (k =? j) = false) by (apply Nat.eqb_neq; auto).
    destruct g' as [|s|x|]; try exact Hk; destruct (pass st p' _) as [[o a'] g2]; cbn [snd ob_generators]; rewrite nth_set_nth, Hne; exact Hk.
Qed.

Lemma finished_stays k us : forall ob p x, nth_error (ob_generators ob) k = Some (p, Finished x) -> rep k ob us = [] /\ nth_error (ob_generators (after ob us k)) k = Some (p, Finished x).
Proof.
  induction us as [|u us IH]; intros ob p x Hk; [auto|]. cbn [reports].
  destruct u as [p'|j].
  - pose proof (execute_other k ob (StartFrom p') p (Finished x) Hk ltac:(discriminate) ltac:(discriminate)) as H.
    destruct (execute st ob (StartFrom p')) as [o ob1]. cbn [snd] in H. destruct (IH ob1 p x H) as [A1 A2]. destruct (reports st k ob1 us) as [os ob2]. auto.
  - destruct (Nat.eqb j k) eqn:Ejk.
    + apply Nat.eqb_eq in Ejk. subst j. cbn [execute]. rewrite Hk. destruct (IH ob p x Hk) as [A1 A2]. destruct (reports st k ob us) as [os ob2]. auto.
    + pose proof (execute_other k ob (Pass j) p (Finished x) Hk ltac:(discriminate)) as H.
      destruct (execute st ob (Pass j)) as [o ob1]. cbn [snd] in H. apply Nat.eqb_neq in Ejk. destruct (IH ob1 p x) as [A1 A2]; [apply H; intros i Hi; inversion Hi; congruence|].
      destruct (reports st k ob1 us) as [os ob2]. auto.
Qed.

Lemma passes_cons_pass k j us : passes_of k (Pass j :: us) = if Nat.eqb j k then Datatypes.S (passes_of k us) else @passes_of P k us.
Proof. unfold passes_of. simpl. destruct (Nat.eqb j k); reflexivity. Qed.
Lemma passes_cons_start k p us : passes_of k (StartFrom p :: us) = @passes_of P k us.
Proof. reflexivity. Qed.

(** One pass of the generator, and what follows *)
Lemma after_pass k p s s2 us (ob : object P S A X) :
  (forall (ob' : object P S A X) s' s2', nth_error (ob_generators ob') k = Some (p, Active s') -> same p s' s2' ->
     map (view p) (rep k ob' us) = map (view p) (fst (run (step p) (passes_of k us) s2')) /\ ending k (after ob' us k) = run_ending (snd (run (step p) (passes_of k us) s2'))) ->
  same p s s2 -> nth_error (ob_generators ob) k <> None ->
  let '(o, a', g) := pass st p s in
  let ob' := {| ob_attributes := a'; ob_generators := set_nth (ob_generators ob) k (p, g) |} in
  map (view p) (o ++ rep k ob' us) = map (view p) (fst (run (step p) (Datatypes.S (passes_of k us)) s2)) /\
  ending k (after ob' us k) = run_ending (snd (run (step p) (Datatypes.S (passes_of k us)) s2)).
Proof.
  intros IH Hs Hk. pose proof (Hstep p s s2 Hs) as H. unfold pass. cbn [run].
  destruct (step p s) as [o1 s1|o1 s1|o1 x1 s1] eqn:E1, (step p s2) as [o2 s2'|o2 s2'|o2 x2 s2'] eqn:E2; simpl in H; try contradiction.
  - destruct H as [H1 H2]. set (ob' := {| ob_attributes := st_get st s1; ob_generators := set_nth (ob_generators ob) k (p, Active s1) |}).
    destruct (IH ob' s1 s2') as [A1 A2]; [unfold ob'; cbn [ob_generators]; rewrite nth_set_nth, Nat.eqb_refl; destruct (nth_error (ob_generators ob) k); congruence|exact H2|].
    destruct (run (step p) (passes_of k us) s2') as [os2 r2]. cbn [fst snd] in *. rewrite !map_app, H1, A1. auto.
  - destruct H as [H1 H2]. set (ob' := {| ob_attributes := st_get st s1; ob_generators := set_nth (ob_generators ob) k (p, Finished None) |}).
    destruct (finished_stays k us ob' p None) as [A1 A2]; [unfold ob'; cbn [ob_generators]; rewrite nth_set_nth, Nat.eqb_refl; destruct (nth_error (ob_generators ob) k); congruence|].
    rewrite A1, app_nil_r. unfold ending. rewrite A2. auto.
  - destruct H as (H1 & Hx & H2). set (ob' := {| ob_attributes := st_get st s1; ob_generators := set_nth (ob_generators ob) k (p, Finished (Some x1)) |}).
    destruct (finished_stays k us ob' p (Some x1)) as [A1 A2]; [unfold ob'; cbn [ob_generators]; rewrite nth_set_nth, Nat.eqb_refl; destruct (nth_error (ob_generators ob) k); congruence|].
    rewrite A1, app_nil_r. unfold ending. rewrite A2. subst. auto.
Qed.

Lemma reports_cons_pass k ob us : rep k ob (Pass k :: us) = fst (execute st ob (Pass k)) ++ rep k (snd (execute st ob (Pass k))) us /\ after ob (Pass k :: us) k = after (snd (execute st ob (Pass k))) us k.
Proof. cbn [reports]. destruct (execute st ob (Pass k)) as [o ob1]. cbn [fst snd]. destruct (reports st k ob1 us). rewrite Nat.eqb_refl. auto. Qed.
Lemma reports_cons_other k ob u us : (forall j, u = Pass j -> j <> k) -> rep k ob (u :: us) = rep k (snd (execute st ob u)) us /\ after ob (u :: us) k = after (snd (execute st ob u)) us k.
Proof.
  intros Hu. cbn [reports]. destruct (execute st ob u) as [o ob1]. cbn [fst snd]. destruct (reports st k ob1 us). destruct u as [|j]; auto.
  specialize (Hu j eq_refl). apply Nat.eqb_neq in Hu. rewrite Hu. auto.
Qed.

Lemma active_runs k us : forall ob p s s2, nth_error (ob_generators ob) k = Some (p, Active s) -> same p s s2 ->
  map (view p) (rep k ob us) = map (view p) (fst (run (step p) (passes_of k us) s2)) /\ ending k (after ob us k) = run_ending (snd (run (step p) (passes_of k us) s2)).
Proof.
  induction us as [|u us IH]; intros ob p s s2 Hk Hs; [unfold ending; simpl; rewrite Hk; auto|].
  destruct u as [p'|j].
  - destruct (reports_cons_other k ob (StartFrom p') us ltac:(discriminate)) as [-> ->]. rewrite passes_cons_start. eapply IH; [|exact Hs]. apply execute_other; [exact Hk|discriminate..].
  - rewrite passes_cons_pass. destruct (Nat.eqb j k) eqn:Ejk.
    + apply Nat.eqb_eq in Ejk. subst j. destruct (reports_cons_pass k ob us) as [-> ->]. cbn [execute]. rewrite Hk.
      pose proof (after_pass k p (st_put st (ob_attributes ob) s) s2 us ob (fun ob' s' s2' => IH ob' p s' s2') (Hput p (ob_attributes ob) s s2 Hs)) as H.
      destruct (pass st p (st_put st (ob_attributes ob) s)) as [[o a'] g]. cbn [fst snd]. apply H. congruence.
    + assert (Hu : forall i, @Pass P j = Pass i -> i <> k) by (apply Nat.eqb_neq in Ejk; intros i Hi; inversion Hi; congruence).
      destruct (reports_cons_other k ob (Pass j) us Hu) as [-> ->]. eapply IH; [|exact Hs]. apply execute_other; [exact Hk|discriminate|exact Hu].
Qed.

Lemma waiting_stays k ob j p : nth_error (ob_generators ob) k = Some (p, Waiting) -> j <> k -> nth_error (ob_generators (snd (execute st ob (Pass j)))) k = Some (p, Waiting).
Proof.
  intros Hk Hj. cbn [execute]. destruct (nth_error (ob_generators ob) j) as [[p' g']|] eqn:Ej; [|exact Hk].
  assert (Hne : (k =? j) = false) by (apply Nat.eqb_neq; auto).
  destruct g' as [|s|x|]; try exact Hk; destruct (pass st p' _) as [[o a'] g2]; cbn [snd ob_generators]; rewrite nth_set_nth, Hne; exact Hk.
Qed.

Lemma waiting_runs k us : forall ob p, Q p -> nth_error (ob_generators ob) k = Some (p, Waiting) -> used_in_time k us ->
  map (view p) (rep k ob us) = map (view p) (fst (run (step p) (passes_of k us) (init p))) /\ ending k (after ob us k) = run_ending (snd (run (step p) (passes_of k us) (init p))).
Proof.
  induction us as [|u us IH]; intros ob p HQ Hk Ht; [unfold ending; simpl; rewrite Hk; auto|].
  destruct u as [p'|j]; [destruct (Ht [] p' us eq_refl)|].
  rewrite passes_cons_pass. destruct (Nat.eqb j k) eqn:Ejk.
  - apply Nat.eqb_eq in Ejk. subst j. destruct (reports_cons_pass k ob us) as [-> ->]. cbn [execute]. rewrite Hk.
    pose proof (after_pass k p (st_begins st p (ob_attributes ob)) (init p) us ob (fun ob' s' s2' => active_runs k us ob' p s' s2') (Hbegins p (ob_attributes ob) HQ)) as H.
    destruct (pass st p (st_begins st p (ob_attributes ob))) as [[o a'] g]. cbn [fst snd]. apply H. congruence.
  - apply Nat.eqb_neq in Ejk. assert (Hu : forall i, @Pass P j = Pass i -> i <> k) by (intros i Hi; inversion Hi; congruence).
    destruct (reports_cons_other k ob (Pass j) us Hu) as [-> ->]. apply IH; [exact HQ|apply waiting_stays; auto|].
    intros us1 p1 us2 Heq. destruct (Ht (Pass j :: us1) p1 us2) as [H|H]; [rewrite Heq; reflexivity|inversion H; congruence|exact H].
Qed.

(** ** From the begin of the life of the object *)
Lemma starts_in_cons u us : starts_in (u :: us) = match u with StartFrom _ => Datatypes.S (@starts_in P us) | _ => starts_in us end.
Proof. destruct u; reflexivity. Qed.

Lemma execute_length ob u : length (ob_generators (snd (execute st ob u))) = match u with StartFrom _ => Datatypes.S (length (ob_generators ob)) | _ => length (ob_generators ob) end.
Proof.
  destruct u as [p|j]; cbn [execute]; [cbn [snd ob_generators]; rewrite app_length, map_length; simpl; lia|].
  destruct (nth_error (ob_generators ob) j) as [[p' [|s|x|]]|]; auto; destruct (pass st p' _) as [[o a'] g2]; cbn [snd ob_generators]; apply length_set_nth.
Qed.

Lemma reports_before us : forall k ob vs, k = length (ob_generators ob) + starts_in us ->
  exists ob', length (ob_generators ob') = k /\ rep k ob (us ++ vs) = rep k ob' vs /\ after ob (us ++ vs) k = after ob' vs k.
Proof.
  induction us as [|u us IH]; intros k ob vs Hk; [exists ob; unfold starts_in in Hk; simpl in Hk; rewrite Nat.add_0_r in Hk; auto|].
  rewrite starts_in_cons in Hk.
  assert (Hout : rep k ob ((u :: us) ++ vs) = rep k (snd (execute st ob u)) (us ++ vs) /\ after ob ((u :: us) ++ vs) k = after (snd (execute st ob u)) (us ++ vs) k).
  { cbn [app reports]. destruct u as [p|j].
    - destruct (execute st ob (StartFrom p)) as [o ob1]. cbn [fst snd]. destruct (reports st k ob1 (us ++ vs)); auto.
    - destruct (Nat.eqb j k) eqn:Ej.
      + apply Nat.eqb_eq in Ej. subst j. cbn [execute]. replace (nth_error (ob_generators ob) k) with (@None (P * gen S X)) by (symmetry; apply nth_error_None; lia).
        cbn [fst snd]. destruct (reports st k ob (us ++ vs)); auto.
      + destruct (execute st ob (Pass j)) as [o ob1]. cbn [fst snd]. destruct (reports st k ob1 (us ++ vs)); auto. }
  destruct Hout as [-> ->]. apply IH. rewrite execute_length. destruct u; lia.
Qed.

Theorem nested_reports a before p us : Q p -> used_in_time (starts_in before) us ->
  let k := starts_in before in
  let '(os, ob) := reports st k (new_object a) (before ++ StartFrom p :: us) in
  let '(os', r) := run (step p) (passes_of k us) (init p) in
  map (view p) os = map (view p) os' /\ ending k ob = run_ending r.
Proof.
  intros HQ Ht k. destruct (reports_before before k (new_object a) (StartFrom p :: us)) as (ob' & Hl & H1 & H2); [reflexivity|].
  destruct (reports_cons_other k ob' (StartFrom p) us ltac:(discriminate)) as [H3 H4]. rewrite H3 in H1. rewrite H4 in H2.
  destruct (waiting_runs k us (snd (execute st ob' (StartFrom p))) p HQ) as [H5 H6]; [|exact Ht|].
  - cbn [execute snd ob_generators]. rewrite nth_error_app2; rewrite map_length, Hl; [rewrite Nat.sub_diag; reflexivity|lia].
  - rewrite <- H1 in H5. rewrite <- H2 in H6. destruct (reports st k (new_object a) (before ++ StartFrom p :: us)) as [os ob]. destruct (run (step p) (passes_of k us) (init p)). auto.
Qed.
End Generic.

(** ** Only the last generator is used after the start *)
Section Restart.
Context {P S O A X : Type}.
Variable st : strategy P S O A X.
Variable init : P -> S.
Hypothesis Hinit : forall p a, st_begins st p (st_started st p a) = init p.
Hypothesis Hget : forall s, st_put st (st_get st s) s = s.
Notation rep k ob us := (fst (reports st k ob us)).
Notation after ob us k := (snd (reports st k ob us)).

Lemma alone k p n : forall ob s, nth_error (ob_generators ob) k = Some (p, Active s) -> ob_attributes ob = st_get st s ->
  rep k ob (repeat (Pass k) n) = fst (run (st_step st p) n s) /\ ending k (after ob (repeat (Pass k) n) k) = run_ending (snd (run (st_step st p) n s)).
Proof.
  induction n as [|n IH]; intros ob s Hk Ha; [unfold ending; simpl; rewrite Hk; auto|].
  cbn [repeat]. destruct (reports_cons_pass st k ob (repeat (Pass k) n)) as [-> ->]. cbn [execute]. rewrite Hk, Ha, Hget. unfold pass. cbn [run].
  assert (Hn : forall x, nth_error (set_nth (ob_generators ob) k x) k = Some x) by (intros x; rewrite nth_set_nth, Nat.eqb_refl, Hk; reflexivity).
  destruct (st_step st p s) as [o s1|o s1|o x s1]; cbn [fst snd].
  - match goal with |- context [reports st k ?ob'] => destruct (IH ob' s1 (Hn _) eq_refl) as [A1 A2] end. rewrite A1, A2. destruct (run (st_step st p) n s1). auto.
  - match goal with |- context [reports st k ?ob'] => destruct (finished_stays st k (repeat (Pass k) n) ob' p None (Hn _)) as [A1 A2] end. rewrite A1, app_nil_r. unfold ending. rewrite A2. auto.
  - match goal with |- context [reports st k ?ob'] => destruct (finished_stays st k (repeat (Pass k) n) ob' p (Some x) (Hn _)) as [A1 A2] end. rewrite A1, app_nil_r. unfold ending. rewrite A2. auto.
Qed.

Theorem restart_reports a before p n :
  let k := starts_in before in
  let '(os, ob) := reports st k (new_object a) (before ++ StartFrom p :: repeat (Pass k) n) in
  let '(os', r) := run (st_step st p) n (init p) in
  os = os' /\ ending k ob = run_ending r.
Proof.
  intros k. destruct (reports_before st before k (new_object a) (StartFrom p :: repeat (Pass k) n)) as (ob' & Hl & H1 & H2); [reflexivity|].
  destruct (reports_cons_other st k ob' (StartFrom p) (repeat (Pass k) n) ltac:(discriminate)) as [H3 H4]. rewrite H3 in H1. rewrite H4 in H2.
  set (ob1 := snd (execute st ob' (StartFrom p))) in *.
  assert (Hk : nth_error (ob_generators ob1) k = Some (p, Waiting)).
  { unfold ob1. cbn [execute snd ob_generators]. rewrite nth_error_app2; rewrite map_length, Hl; [rewrite Nat.sub_diag; reflexivity|lia]. }
  assert (Ha : ob_attributes ob1 = st_started st p (ob_attributes ob')) by reflexivity.
  assert (HH : rep k ob1 (repeat (Pass k) n) = fst (run (st_step st p) n (init p)) /\ ending k (after ob1 (repeat (Pass k) n) k) = run_ending (snd (run (st_step st p) n (init p)))).
  { clearbody ob1. destruct n as [|n]; [unfold ending; simpl; rewrite Hk; auto|].
    cbn [repeat]. destruct (reports_cons_pass st k ob1 (repeat (Pass k) n)) as [-> ->]. cbn [execute]. rewrite Hk, Ha, Hinit. unfold pass. cbn [run].
    assert (Hn : forall x, nth_error (set_nth (ob_generators ob1) k x) k = Some x) by (intros x; rewrite nth_set_nth, Nat.eqb_refl, Hk; reflexivity).
    destruct (st_step st p (init p)) as [o s1|o s1|o x s1]; cbn [fst snd].
    - match goal with |- context [reports st k ?ob'] => destruct (alone k p n ob' s1 (Hn _) eq_refl) as [A1 A2] end. rewrite A1, A2. destruct (run (st_step st p) n s1). auto.
    - match goal with |- context [reports st k ?ob'] => destruct (finished_stays st k (repeat (Pass k) n) ob' p None (Hn _)) as [A1 A2] end. rewrite A1, app_nil_r. unfold ending. rewrite A2. auto.
    - match goal with |- context [reports st k ?ob'] => destruct (finished_stays st k (repeat (Pass k) n) ob' p (Some x) (Hn _)) as [A1 A2] end. rewrite A1, app_nil_r. unfold ending. rewrite A2. auto. }
  destruct HH as [H5 H6]. rewrite <- H1 in H5. rewrite <- H2 in H6. destruct (reports st k (new_object a) (before ++ StartFrom p :: repeat (Pass k) n)) as [os ob].
  destruct (run (st_step st p) n (init p)). auto.
Qed.
End Restart.
