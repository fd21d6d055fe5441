(** More about runs of step machines: runs up to a stop condition, lexicographic measures. *)
From Coq Require Import List Lia Arith Wf_nat.
From Verif Require Import Machine.
Import ListNotations.

Section MachineMore.
Context {S O X : Type}.
Variable step : S -> step_result S O X.

(** A run ends or reaches a state with [stop], if each pass in between goes down in a
    well-founded order. *)
Lemma run_until (R : S -> S -> Prop) (Inv : S -> Prop) (stop : S -> bool) :
  well_founded R ->
  (forall s o s', Inv s -> stop s = false -> step s = Go o s' -> stop s' = true \/ (Inv s' /\ R s' s)) ->
  forall s, Inv s -> exists n os r, run step n s = (os, r) /\
    match r with Running s' => stop s' = true | _ => True end.
Proof.
  intros WF HS. induction s as [s IH] using (well_founded_induction WF). intros HI.
  destruct (stop s) eqn:Hs.
  { exists 0, [], (Running s). auto. }
  destruct (step s) as [o s1|o s1|o x s1] eqn:E.
  - destruct (HS s o s1 HI Hs E) as [Hst|[HI1 HR]].
    + exists 1, o, (Running s1). simpl. rewrite E. simpl. now rewrite app_nil_r.
    + destruct (IH s1 HR HI1) as (n & os & r & Hr & Hn).
      exists (Datatypes.S n), (o ++ os), r. simpl. rewrite E, Hr. auto.
  - exists 1, o, (Ended s1). simpl. rewrite E. auto.
  - exists 1, o, (Raised x s1). simpl. rewrite E. auto.
Qed.

(** The reports of one pass. *)
Definition emitted (r : step_result S O X) : list O :=
  match r with Go o _ => o | Halt o _ => o | Raise o _ _ => o end.

(** Each report is made by a pass that begins in a state with the invariant. *)
Lemma run_report (Inv : list O -> S -> Prop) :
  (forall pre s o s', Inv pre s -> step s = Go o s' -> Inv (pre ++ o) s') ->
  forall n pre s os r, Inv pre s -> run step n s = (os, r) ->
  forall o1 rep o2, os = o1 ++ rep :: o2 ->
  exists pre1 s1 oa ob, Inv (pre ++ pre1) s1 /\ emitted (step s1) = oa ++ rep :: ob /\ o1 = pre1 ++ oa.
Proof.
  intros HS. induction n as [|n IH]; simpl; intros pre s os r HI HR o1 rep o2 Heq.
  - injection HR as <- <-. destruct o1; discriminate.
  - assert (Hhere : forall o o2', emitted (step s) = o -> o = o1 ++ rep :: o2' ->
      exists pre1 s1 oa ob, Inv (pre ++ pre1) s1 /\ emitted (step s1) = oa ++ rep :: ob /\ o1 = pre1 ++ oa).
    { intros o o2' He ->. exists [], s, o1, o2'. rewrite app_nil_r. auto. }
    destruct (step s) as [o s1|o s1|o x s1] eqn:E.
    + destruct (run step n s1) as [os1 r1] eqn:ER. simpl in HR. injection HR as <- <-.
      assert (Hsp : (exists o2', o = o1 ++ rep :: o2') \/ (exists o1', o1 = o ++ o1' /\ os1 = o1' ++ rep :: o2)).
      { clear -Heq. revert o1 Heq. induction o as [|a o IH]; simpl; intros o1 Heq; [right; eauto|].
        destruct o1 as [|b o1]; simpl in Heq.
        - injection Heq as -> _. left. exists o. auto.
        - injection Heq as -> Heq. destruct (IH o1 Heq) as [[o2' ->]|(o1' & -> & ->)].
          + left. exists o2'. auto.
          + right. exists o1'. auto. }
      destruct Hsp as [[o2' Ho]|(o1' & -> & Ho)].
      * eapply Hhere; [reflexivity|exact Ho].
      * destruct (IH (pre ++ o) s1 os1 r1) with (o1 := o1') (rep := rep) (o2 := o2)
          as (pre1 & s2 & oa & ob & H1 & H2 & H3); auto.
        { eapply HS; eauto. }
        exists (o ++ pre1), s2, oa, ob. rewrite app_assoc. split; auto. split; auto.
        rewrite <- app_assoc. congruence.
    + injection HR as <- <-. eapply Hhere; [reflexivity|exact Heq].
    + injection HR as <- <-. eapply Hhere; [reflexivity|exact Heq].
Qed.

Definition lex3 (m1 m2 m3 : S -> nat) (s' s : S) : Prop :=
  m1 s' < m1 s \/ (m1 s' = m1 s /\ (m2 s' < m2 s \/ (m2 s' = m2 s /\ m3 s' < m3 s))).

Lemma lex3_wf m1 m2 m3 : well_founded (lex3 m1 m2 m3).
Proof.
  assert (H : forall a b c s, m1 s = a -> m2 s = b -> m3 s = c -> Acc (lex3 m1 m2 m3) s).
  { induction a as [a IHa] using lt_wf_ind. induction b as [b IHb] using lt_wf_ind.
    induction c as [c IHc] using lt_wf_ind. intros s H1 H2 H3. constructor.
    intros s' [Hl|[He [Hl|[He2 Hl]]]].
    - eapply (IHa (m1 s')); eauto. lia.
    - eapply (IHb (m2 s')); eauto; lia.
    - eapply (IHc (m3 s')); eauto; lia. }
  intros s. eapply H; reflexivity.
Qed.
End MachineMore.
