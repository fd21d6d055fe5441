(** The calculation limit: a run with limit [n] equals the run without limit as long as
    the latter makes at most [n] calls of the neighbor function, and raises otherwise. *)
From Coq Require Import List ZArith Lia Arith.
From Verif Require Import Machine Common CommonProofs.
Import ListNotations.

Section LimitSim.
Context {S O : Type}.
Variable step : S -> step_result S O exn.
Variable lim : S -> option Z.     (* limit counter *)
Variable calls : S -> nat.        (* number of calls of the neighbor function so far *)
Variable erase : S -> S.          (* forget the limit *)

Definition outcome_map (f : S -> S) (r : outcome S exn) : outcome S exn :=
  match r with Running s => Running (f s) | Ended s => Ended (f s) | Raised x s => Raised x (f s) end.

(** A pass with one call: it is preceded by the limit check. *)
Definition with_call (s : S) (r : S -> step_result S O exn) (o : list O) (t : S) : Prop :=
  calls t = Datatypes.S (calls s) /\
  match limit_check (lim s) with
  | None => exists o1 o2 s', o = o1 ++ o2 /\ step s = Raise o1 RuntimeErrorLimit s' /\ calls s' = calls s
  | Some l => exists s', step s = r s' /\ erase s' = t /\ lim s' = l
  end.

Hypothesis calls_erase : forall s, calls (erase s) = calls s.
Definition result_state (r : step_result S O exn) : S :=
  match r with Go _ t => t | Halt _ t => t | Raise _ _ t => t end.
Hypothesis calls_mono : forall s, calls s <= calls (result_state (step s)).
Hypothesis law : forall s,
  match step (erase s) with
  | Go o t => (calls t = calls s /\ exists s', step s = Go o s' /\ erase s' = t /\ lim s' = lim s)
              \/ with_call s (Go o) o t
  | Halt o t => calls t = calls s /\ exists s', step s = Halt o s' /\ erase s' = t
  | Raise o x t => (calls t = calls s /\ exists s', step s = Raise o x s' /\ erase s' = t)
                   \/ with_call s (Raise o x) o t
  end.

Lemma run_calls_mono k : forall s os r, run step k s = (os, r) -> calls s <= calls (outcome_state r).
Proof using calls_mono.
  induction k as [|k IH]; simpl; intros s os r H.
  - injection H as <- <-. auto.
  - pose proof (calls_mono s) as Hm. destruct (step s) as [o t|o t|o x t].
    + destruct (run step k t) as [os1 r1] eqn:Er. injection H as <- <-.
      apply IH in Er. simpl in *. lia.
    + injection H as <- <-. auto.
    + injection H as <- <-. auto.
Qed.

Theorem limit_sim (n : Z) : (0 <= n)%Z -> forall k s os r,
  limit_state (Some n) (calls s) (lim s) ->
  run step k (erase s) = (os, r) ->
  ((Z.of_nat (calls (outcome_state r)) <= n)%Z ->
   exists r', run step k s = (os, r') /\ outcome_map erase r' = r) /\
  ((n < Z.of_nat (calls (outcome_state r)))%Z ->
   exists os1 ext s', os = os1 ++ ext /\ run step k s = (os1, Raised RuntimeErrorLimit s') /\
                      Z.of_nat (calls s') = n).
Proof.
  intros Hn. induction k as [|k IH]; intros s os r Hl Hr; simpl in *.
  - injection Hr as <- <-. simpl. rewrite calls_erase. split.
    + intros _. exists (Running s). auto.
    + intros Hlt. destruct Hl as [_ Hl]. specialize (Hl Hn). lia.
  - specialize (law s). destruct (step (erase s)) as [o t|o t|o x t] eqn:Es.
    + destruct (run step k t) as [os1 r1] eqn:Er. simpl in Hr. injection Hr as <- <-.
      destruct law as [(Hc & s' & Hs & He & Hls)|[Hc Hw]].
      * rewrite Hs. subst t. rewrite calls_erase in Hc.
        destruct (IH s' os1 r1) as [IH1 IH2]; auto.
        { rewrite Hls, Hc. auto. }
        split; intros Hle.
        -- destruct (IH1 Hle) as (r' & Hr' & Hm). exists r'. rewrite Hr'. auto.
        -- destruct (IH2 Hle) as (a & b & s2 & -> & Hr' & Hm).
           exists (o ++ a), b, s2. rewrite Hr', app_assoc. auto.
      * destruct (limit_check (lim s)) as [l|] eqn:Hlc.
        -- destruct Hw as (s' & Hs & He & Hls). rewrite Hs. subst t. rewrite calls_erase in Hc.
           destruct (IH s' os1 r1) as [IH1 IH2]; auto.
           { rewrite Hc. eapply limit_check_some; eauto. now rewrite Hls. }
           split; intros Hle.
           ++ destruct (IH1 Hle) as (r' & Hr' & Hm). exists r'. rewrite Hr'. auto.
           ++ destruct (IH2 Hle) as (a & b & s2 & -> & Hr' & Hm).
              exists (o ++ a), b, s2. rewrite Hr', app_assoc. auto.
        -- destruct Hw as (o1 & o2 & s' & -> & Hs & Hcs). rewrite Hs.
           assert (Hk : Z.of_nat (calls s) = n) by (eapply limit_check_none; eauto).
           assert (Hmono : calls t <= calls (outcome_state r1)).
           { eapply run_calls_mono; eauto. }
           split; [lia|]. intros _. exists o1, (o2 ++ os1), s'. rewrite app_assoc. repeat split; auto. lia.
    + injection Hr as <- <-. destruct law as (Hc & s' & Hs & He). rewrite Hs. simpl.
      destruct Hl as [_ Hl]. specialize (Hl Hn). split; [|lia].
      intros _. exists (Ended s'). simpl. now rewrite He.
    + injection Hr as <- <-. simpl. destruct law as [(Hc & s' & Hs & He)|[Hc Hw]].
      * rewrite Hs. destruct Hl as [_ Hl]. specialize (Hl Hn). split; [|lia].
        intros _. exists (Raised x s'). simpl. now rewrite He.
      * destruct (limit_check (lim s)) as [l|] eqn:Hlc.
        -- destruct Hw as (s' & Hs & He & Hls). rewrite Hs. 
           assert (limit_state (Some n) (Datatypes.S (calls s)) l) as [_ Hk] by (eapply limit_check_some; eauto).
           specialize (Hk Hn). split; [|lia].
           intros _. exists (Raised x s'). simpl. now rewrite He.
        -- destruct Hw as (o1 & o2 & s' & -> & Hs & Hcs). rewrite Hs.
           assert (Hk : Z.of_nat (calls s) = n) by (eapply limit_check_none; eauto).
           split; [lia|]. intros _. exists o1, o2, s'. repeat split; auto. lia.
Qed.
End LimitSim.
