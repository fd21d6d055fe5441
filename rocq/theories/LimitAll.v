(** The statement about calculation limits, for a traversal that satisfies the laws of [LimitSim]. *)
From Coq Require Import List ZArith Lia Arith.
From Verif Require Import Machine Common CommonProofs LimitSim.
Import ListNotations.

Section LimitAll.
Context {S O : Type}.
Variable step : S -> step_result S O exn.
Variable lim : S -> option Z.
Variable calls : S -> nat.
Variable erase : S -> S.
Hypothesis calls_erase : forall s, calls (erase s) = calls s.
Hypothesis calls_mono : forall s, calls s <= calls (result_state (step s)).
Hypothesis law : forall s,
  match step (erase s) with
  | Go o t => (calls t = calls s /\ exists s', step s = Go o s' /\ erase s' = t /\ lim s' = lim s)
              \/ with_call step lim calls erase s (Go o) o t
  | Halt o t => calls t = calls s /\ exists s', step s = Halt o s' /\ erase s' = t
  | Raise o x t => (calls t = calls s /\ exists s', step s = Raise o x s' /\ erase s' = t)
                   \/ with_call step lim calls erase s (Raise o x) o t
  end.

Lemma limit_all c n s0 s1 os r os' r' : (0 <= c)%Z -> erase s1 = s0 ->
  limit_state (Some c) (calls s1) (lim s1) ->
  run step n s0 = (os, r) -> run step n s1 = (os', r') ->
  (Z.of_nat (calls (outcome_state r')) <= c)%Z /\
  ((Z.of_nat (calls (outcome_state r)) <= c)%Z -> os' = os /\ outcome_map erase r' = r) /\
  ((c < Z.of_nat (calls (outcome_state r)))%Z ->
     (exists s', r' = Raised RuntimeErrorLimit s') /\
     Z.of_nat (calls (outcome_state r')) = c /\ exists ext, os = os' ++ ext).
Proof.
  intros Hc <- Hl HR HR'.
  destruct (limit_sim step lim calls erase calls_erase calls_mono law c Hc n s1 os r Hl HR) as [H1 H2].
  split; [|split].
  - destruct (Z_le_gt_dec (Z.of_nat (calls (outcome_state r))) c) as [Hle|Hgt].
    + destruct (H1 Hle) as (r2 & Hr2 & Hm). rewrite HR' in Hr2. injection Hr2 as -> ->.
      replace (calls (outcome_state r2)) with (calls (outcome_state r)); auto.
      rewrite <- Hm. destruct r2; simpl; auto.
    + destruct (H2 ltac:(lia)) as (os1 & ext & s' & -> & Hr2 & Hm). rewrite HR' in Hr2.
      injection Hr2 as -> ->. simpl. lia.
  - intros Hle. destruct (H1 Hle) as (r2 & Hr2 & Hm). rewrite HR' in Hr2. injection Hr2 as -> ->. auto.
  - intros Hgt. destruct (H2 Hgt) as (os1 & ext & s' & -> & Hr2 & Hm). rewrite HR' in Hr2.
    injection Hr2 as -> ->. simpl. eauto.
Qed.
End LimitAll.
