(** Two machines that proceed in lock step. *)
From Coq Require Import List.
From Verif Require Import Machine.
Import ListNotations.

Section Sim.
Context {S1 O1 S2 O2 X : Type}.
Variable step1 : S1 -> step_result S1 O1 X.
Variable step2 : S2 -> step_result S2 O2 X.
Variable R : S1 -> S2 -> Prop.
Variable RO : O1 -> O2 -> Prop.

Definition outcome_rel (r1 : outcome S1 X) (r2 : outcome S2 X) : Prop :=
  match r1, r2 with
  | Running s1, Running s2 => R s1 s2
  | Ended s1, Ended s2 => R s1 s2
  | Raised x1 s1, Raised x2 s2 => x1 = x2 /\ R s1 s2
  | _, _ => False
  end.

Definition step_rel (r1 : step_result S1 O1 X) (r2 : step_result S2 O2 X) : Prop :=
  match r1, r2 with
  | Go o1 s1, Go o2 s2 => Forall2 RO o1 o2 /\ R s1 s2
  | Halt o1 s1, Halt o2 s2 => Forall2 RO o1 o2 /\ R s1 s2
  | Raise o1 x1 s1, Raise o2 x2 s2 => Forall2 RO o1 o2 /\ x1 = x2 /\ R s1 s2
  | _, _ => False
  end.

Hypothesis Hstep : forall s1 s2, R s1 s2 -> step_rel (step1 s1) (step2 s2).

Lemma run_sim n : forall s1 s2, R s1 s2 ->
  Forall2 RO (fst (run step1 n s1)) (fst (run step2 n s2)) /\
  outcome_rel (snd (run step1 n s1)) (snd (run step2 n s2)).
Proof.
  induction n as [|n IH]; simpl; intros s1 s2 HR.
  - split; auto. 
  - pose proof (Hstep s1 s2 HR) as Hs. unfold step_rel in Hs.
    destruct (step1 s1), (step2 s2); try contradiction; simpl in *.
    + destruct Hs as [Ho Hs]. destruct (IH _ _ Hs) as [H1 H2]. split; auto. now apply Forall2_app.
    + auto.
    + destruct Hs as (? & ? & ?). auto.
Qed.
End Sim.

(** The same, with a relation [Q] that is weaker than [R] for the final states. *)
Section SimWeak.
Context {S1 O1 S2 O2 X : Type}.
Variable step1 : S1 -> step_result S1 O1 X.
Variable step2 : S2 -> step_result S2 O2 X.
Variables R Q : S1 -> S2 -> Prop.
Variable RO : O1 -> O2 -> Prop.
Hypothesis HQ : forall s1 s2, R s1 s2 -> Q s1 s2.

Definition step_rel_weak (r1 : step_result S1 O1 X) (r2 : step_result S2 O2 X) : Prop :=
  match r1, r2 with
  | Go o1 s1, Go o2 s2 => Forall2 RO o1 o2 /\ R s1 s2
  | Halt o1 s1, Halt o2 s2 => Forall2 RO o1 o2 /\ Q s1 s2
  | Raise o1 x1 s1, Raise o2 x2 s2 => Forall2 RO o1 o2 /\ x1 = x2 /\ Q s1 s2
  | _, _ => False
  end.

Hypothesis Hstep : forall s1 s2, R s1 s2 -> step_rel_weak (step1 s1) (step2 s2).

Lemma run_sim_weak n : forall s1 s2, R s1 s2 ->
  Forall2 RO (fst (run step1 n s1)) (fst (run step2 n s2)) /\
  outcome_rel Q (snd (run step1 n s1)) (snd (run step2 n s2)).
Proof.
  induction n as [|n IH]; simpl; intros s1 s2 HR.
  - split; auto.
  - pose proof (Hstep s1 s2 HR) as Hs. unfold step_rel_weak in Hs.
    destruct (step1 s1), (step2 s2); try contradiction; simpl in *.
    + destruct Hs as [Ho Hs]. destruct (IH _ _ Hs) as [H1 H2]. split; auto. now apply Forall2_app.
    + auto.
    + destruct Hs as (? & ? & ?). auto.
Qed.
End SimWeak.
