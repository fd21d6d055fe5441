(** The statement about calculation limits, for searches with several counters. *)
From Coq Require Import List ZArith Lia Arith.
From Verif Require Import Machine Common LimitSim.
Import ListNotations.

Section Limit2.
Context {S O : Type}.
Variable step : S -> step_result S O exn.
Variable erase : S -> S.
Variable within ok : S -> Prop.
Hypothesis ok_within : forall s, ok s -> within s.
Hypothesis within_erase : forall s, within (erase s) <-> within s.
Hypothesis within_mono : forall s, within (result_state (step s)) -> within s.
Hypothesis law : forall s, ok s ->
  match step (erase s) with
  | Go o t => (exists s', step s = Go o s' /\ erase s' = t /\ ok s') \/ (~ within t /\ exists s', step s = Raise [] RuntimeErrorLimit s' /\ ok s')
  | Halt o t => exists s', step s = Halt o s' /\ erase s' = t /\ ok s'
  | Raise o x t => (exists s', step s = Raise o x s' /\ erase s' = t /\ ok s') \/ (~ within t /\ exists s', step s = Raise [] RuntimeErrorLimit s' /\ ok s')
  end.

Lemma run_within n : forall s os r, run step n s = (os, r) -> within (outcome_state r) -> within s.
Proof.
  induction n as [|n IH]; simpl; intros s os r H Hw.
  - injection H as <- <-. exact Hw.
  - pose proof (within_mono s) as Hm. destruct (step s) as [o t|o t|o x t]; simpl in Hm.
    + destruct (run step n t) as [os1 r1] eqn:Er. injection H as <- <-. apply Hm. eapply IH; eauto.
    + injection H as <- <-. auto.
    + injection H as <- <-. auto.
Qed.

Lemma limit2 n : forall s os r os' r', ok s -> run step n (erase s) = (os, r) -> run step n s = (os', r') ->
  within (outcome_state r') /\
  (within (outcome_state r) -> os' = os /\ outcome_map erase r' = r) /\
  (~ within (outcome_state r) -> (exists s', r' = Raised RuntimeErrorLimit s') /\ exists ext, os = os' ++ ext).
Proof.
  assert (Hdone : forall s1 o1, ok s1 -> within (outcome_state (Raised RuntimeErrorLimit s1 : outcome S exn)) /\
     ((exists s', (Raised RuntimeErrorLimit s1 : outcome S exn) = Raised RuntimeErrorLimit s') /\ exists ext : list O, o1 = [] ++ ext)).
  { intros s1 o1 H1. split; [apply ok_within; exact H1|]. split; [exists s1; reflexivity|exists o1; reflexivity]. }
  induction n as [|n IH]; intros s os r os' r' Hok HR HR'.
  - simpl in *. injection HR as <- <-. injection HR' as <- <-. simpl. split; [auto|]. split; [auto|]. intros C. exfalso. apply C, within_erase. auto.
  - pose proof (law s Hok) as HL. cbn [run] in HR, HR'. destruct (step (erase s)) as [o t|o t|o x t] eqn:Es.
    + destruct HL as [(s1 & H1 & <- & H3)|(Hnw & s1 & H1 & H2)]; rewrite H1 in HR'.
      * destruct (run step n (erase s1)) as [os1 r1] eqn:E1. destruct (run step n s1) as [os2 r2] eqn:E2.
        injection HR as <- <-. injection HR' as <- <-. destruct (IH s1 os1 r1 os2 r2 H3 E1 E2) as (A & B & C).
        split; [exact A|]. split.
        -- intros Hw. destruct (B Hw) as [-> Hm]. auto.
        -- intros Hw. destruct (C Hw) as (Hm & ext & ->). split; auto. exists ext. now rewrite app_assoc.
      * injection HR' as <- <-. destruct (run step n t) as [os1 r1] eqn:E1. injection HR as <- <-.
        destruct (Hdone s1 (o ++ os1) H2) as [D1 D2]. split; auto. split; auto. intros Hw. exfalso. apply Hnw. eapply run_within; eauto.
    + destruct HL as (s1 & H1 & <- & H3). rewrite H1 in HR'. injection HR as <- <-. injection HR' as <- <-. simpl.
      split; [auto|]. split; [auto|]. intros C. exfalso. apply C, within_erase. auto.
    + destruct HL as [(s1 & H1 & <- & H3)|(Hnw & s1 & H1 & H2)]; rewrite H1 in HR'; injection HR as <- <-; injection HR' as <- <-; simpl.
      * split; [auto|]. split; [auto|]. intros C. exfalso. apply C, within_erase. auto.
      * destruct (Hdone s1 o H2) as [D1 D2]. split; auto. split; auto. intros Hw. contradiction.
Qed.
End Limit2.
