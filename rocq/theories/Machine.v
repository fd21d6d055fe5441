(** Generators as step machines.

    A traversal of nographs is a Python generator over an object with public
    attributes ([traversal.py:149-177], [__iter__], [__next__], [_start]).  We model the
    generator body as a function [step] from states to step results.  One step
    is one pass of the innermost loop; it emits the reports that are yielded
    during the pass.  [run step n s] performs at most [n] passes. *)
From Coq Require Import List Lia Arith.
Import ListNotations.

Section Machine.
Context {S O X : Type}.

(** Result of one pass: go on, end of the generator (StopIteration), or an exception [x]. *)
Inductive step_result :=
| Go (outs : list O) (s : S)
| Halt (outs : list O) (s : S)
| Raise (outs : list O) (x : X) (s : S).

(** State of affairs after a bounded number of passes. *)
Inductive outcome :=
| Running (s : S)
| Ended (s : S)
| Raised (x : X) (s : S).

Variable step : S -> step_result.

(** At most [n] passes from state [s]: all reports in order, and the outcome. *)
Fixpoint run (n : nat) (s : S) : list O * outcome :=
  match n with
  | 0 => ([], Running s)
  | Datatypes.S n' =>
      match step s with
      | Go o s' => let r := run n' s' in (o ++ fst r, snd r)
      | Halt o s' => (o, Ended s')
      | Raise o x s' => (o, Raised x s')
      end
  end.

(** ** Invariants over reports so far and state *)
Section Invariant.
Variable Inv : list O -> S -> Prop.
Hypothesis Inv_step : forall pre s o s',
  Inv pre s -> step s = Go o s' -> Inv (pre ++ o) s'.

Lemma run_inv_running n : forall pre s os s',
  Inv pre s -> run n s = (os, Running s') -> Inv (pre ++ os) s'.
Proof using Inv_step.
  induction n as [|n IH]; simpl; intros pre s os s' HI HR.
  - inversion HR; subst. now rewrite app_nil_r.
  - destruct (step s) as [o s1|o s1|o x s1] eqn:E; try discriminate.
    destruct (run n s1) as [os1 r1] eqn:ER. simpl in HR. inversion HR; subst.
    rewrite app_assoc. eapply IH; [|exact ER]. eapply Inv_step; eauto.
Qed.

Lemma run_inv_ended n : forall pre s os s',
  Inv pre s -> run n s = (os, Ended s') ->
  exists os1 o s1, os = os1 ++ o /\ Inv (pre ++ os1) s1 /\ step s1 = Halt o s'.
Proof using Inv_step.
  induction n as [|n IH]; simpl; intros pre s os s' HI HR; [discriminate|].
  destruct (step s) as [o s1|o s1|o x s1] eqn:E; try discriminate.
  - destruct (run n s1) as [os1 r1] eqn:ER. simpl in HR. inversion HR; subst.
    destruct (IH (pre ++ o) s1 os1 s') as (a & b & c & -> & Hi & Hs); eauto.
    exists (o ++ a), b, c. rewrite <- app_assoc in Hi. rewrite app_assoc. auto.
  - inversion HR; subst. exists [], os, s. rewrite app_nil_r. auto.
Qed.

Lemma run_inv_raised n : forall pre s os x s',
  Inv pre s -> run n s = (os, Raised x s') ->
  exists os1 o s1, os = os1 ++ o /\ Inv (pre ++ os1) s1 /\ step s1 = Raise o x s'.
Proof using Inv_step.
  induction n as [|n IH]; simpl; intros pre s os x s' HI HR; [discriminate|].
  destruct (step s) as [o s1|o s1|o x1 s1] eqn:E; try discriminate.
  - destruct (run n s1) as [os1 r1] eqn:ER. simpl in HR. inversion HR; subst.
    destruct (IH (pre ++ o) s1 os1 x s') as (a & b & c & -> & Hi & Hs); eauto.
    exists (o ++ a), b, c. rewrite <- app_assoc in Hi. rewrite app_assoc. auto.
  - inversion HR; subst. exists [], os, s. rewrite app_nil_r. auto.
Qed.

(** A property [Q] of (reports so far, state) that is implied by [Inv] and not
    destroyed by a final pass holds after every run. *)
Lemma run_inv_any n pre s os r :
  Inv pre s -> run n s = (os, r) ->
  match r with
  | Running s' => Inv (pre ++ os) s'
  | Ended s' => exists os1 o s1, os = os1 ++ o /\ Inv (pre ++ os1) s1 /\ step s1 = Halt o s'
  | Raised x s' => exists os1 o s1, os = os1 ++ o /\ Inv (pre ++ os1) s1 /\ step s1 = Raise o x s'
  end.
Proof using Inv_step.
  intros HI HR. destruct r.
  - eapply run_inv_running; eauto.
  - eapply run_inv_ended; eauto.
  - eapply run_inv_raised; eauto.
Qed.
End Invariant.

(** ** Composition and prefixes *)
Lemma run_add n m : forall s,
  run (n + m) s =
  match run n s with
  | (os, Running s') => let r := run m s' in (os ++ fst r, snd r)
  | p => p
  end.
Proof using.
  induction n as [|n IH]; simpl; intros s.
  - destruct (run m s); reflexivity.
  - destruct (step s) as [o s1|o s1|o x s1]; try reflexivity.
    rewrite IH. destruct (run n s1) as [os [s2|s2|x s2]]; simpl; try reflexivity.
    destruct (run m s2); simpl. now rewrite app_assoc.
Qed.

Lemma run_add_running n m s os s' :
  run n s = (os, Running s') ->
  run (n + m) s = (os ++ fst (run m s'), snd (run m s')).
Proof using. intros H. rewrite run_add, H. reflexivity. Qed.

Lemma run_ended_mono n m s os s' :
  run n s = (os, Ended s') -> n <= m -> run m s = (os, Ended s').
Proof using.
  intros H Hle. replace m with (n + (m - n)) by lia. now rewrite run_add, H.
Qed.

Lemma run_raised_mono n m s os x s' :
  run n s = (os, Raised x s') -> n <= m -> run m s = (os, Raised x s').
Proof using.
  intros H Hle. replace m with (n + (m - n)) by lia. now rewrite run_add, H.
Qed.

(** The reports after [n] passes are a prefix of those after [m >= n] passes. *)
Lemma run_prefix n m s : n <= m -> exists ext, fst (run m s) = fst (run n s) ++ ext.
Proof using.
  intros Hle. replace m with (n + (m - n)) by lia. rewrite run_add.
  destruct (run n s) as [os [s'|s'|x s']]; simpl.
  - eauto.
  - exists []. now rewrite app_nil_r.
  - exists []. now rewrite app_nil_r.
Qed.

(** ** Termination by a well-founded order on states satisfying an invariant *)
Lemma run_terminates_wf (R : S -> S -> Prop) (Inv : S -> Prop) :
  well_founded R ->
  (forall s o s', Inv s -> step s = Go o s' -> Inv s' /\ R s' s) ->
  forall s, Inv s -> exists n os r, run n s = (os, r) /\ (forall s', r <> Running s').
Proof using.
  intros WF HS. induction s as [s IH] using (well_founded_induction WF). intros HI.
  destruct (step s) as [o s1|o s1|o x s1] eqn:E.
  - destruct (HS s o s1 HI E) as [HI1 HR].
    destruct (IH s1 HR HI1) as (n & os & r & Hr & Hn).
    exists (Datatypes.S n), (o ++ os), r. simpl. rewrite E, Hr. auto.
  - exists 1, o, (Ended s1). simpl. rewrite E. split; [reflexivity|discriminate].
  - exists 1, o, (Raised x s1). simpl. rewrite E. split; [reflexivity|discriminate].
Qed.

End Machine.

Arguments step_result : clear implicits.
Arguments outcome : clear implicits.

(** The state (local variables and attributes) a run has led to. *)
Definition outcome_state {S X} (r : outcome S X) : S :=
  match r with Running s => s | Ended s => s | Raised _ s => s end.
