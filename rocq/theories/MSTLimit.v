(** The calculation limit of the minimum spanning tree traversal. *)
From Coq Require Import List ZArith Bool Arith Lia.
From Verif Require Import Machine GearSpec Common CommonProofs LimitSim LimitAll Weight HeapModel MSTModel.
Import ListNotations.

Section MSTLimit.
Context {V I L : Type}.
Variable vid : V -> I.
Variable WT : Weights.
Variable VS : VSet I.
Variable PM : PMap I V.
Variable LM : PMap I L.
Variable next : V -> list (V * w_t WT * L).
Variable cfg : mst_cfg.
Notation state := (@mst_state V I L WT VS PM LM).
Notation report := (@mst_report V I L WT PM LM).
Notation step := (mst_step vid WT VS PM LM next cfg).

(** The state without the limit counter. *)
Definition mst_forget_limit (s : state) : state :=
  {| m_pc := m_pc s; m_heap := m_heap s; m_no := m_no s; m_visited := m_visited s; m_pred := m_pred s;
     m_labels := m_labels s; m_edge := m_edge s; m_limit := None; m_calls := m_calls s |}.

(** The loop, after the start vertices have been expanded. *)
Definition loop_step (s : state) : step_result state report exn :=
  match m_pc s with MStart _ _ => Halt [] s | _ => step s end.

Lemma loop_run n : forall s, (forall l, m_pc s <> MStart WT l) -> run step n s = run loop_step n s.
Proof.
  induction n as [|n IH]; intros s Hs; [reflexivity|]. simpl.
  assert (Heq : loop_step s = step s).
  { unfold loop_step. destruct (m_pc s) eqn:Hpc; auto. destruct (Hs starts). auto. }
  rewrite Heq. destruct (step s) as [o t|o t|o x t] eqn:Hst; auto. rewrite IH; auto.
  intros l. unfold mst_step in Hst. destruct (m_pc s) as [sl| |v [|e rest]] eqn:Hpc.
  - destruct (Hs sl). auto.
  - destruct (m_heap s) as [|[k [v e]] h]; [discriminate|]. cbv zeta in Hst. destruct (vs_mem VS _ _).
    + injection Hst as <- <-. simpl. congruence.
    + destruct (limit_check _); [|discriminate]. injection Hst as <- <-. simpl. discriminate.
  - injection Hst as <- <-. simpl. discriminate.
  - destruct (vs_mem VS _ _); injection Hst as <- <-; simpl; discriminate.
Qed.

Lemma loop_mono s : length (m_calls s) <= length (m_calls (result_state (loop_step s))).
Proof.
  unfold result_state, loop_step, mst_step. destruct (m_pc s) as [sl| |v [|e rest]]; simpl; auto.
  - destruct (m_heap s) as [|[k [v e]] h]; simpl; auto. destruct (vs_mem VS _ _); simpl; auto.
    destruct (limit_check (m_limit s)); simpl; auto.
  - destruct (vs_mem VS _ _); simpl; auto.
Qed.

Lemma loop_law : forall s,
  match loop_step (mst_forget_limit s) with
  | Go o t => (length (m_calls t) = length (m_calls s) /\
               exists s', loop_step s = Go o s' /\ mst_forget_limit s' = t /\ m_limit s' = m_limit s)
              \/ with_call loop_step m_limit (fun s => length (m_calls s)) mst_forget_limit s (Go o) o t
  | Halt o t => length (m_calls t) = length (m_calls s) /\ exists s', loop_step s = Halt o s' /\ mst_forget_limit s' = t
  | Raise o x t => (length (m_calls t) = length (m_calls s) /\ exists s', loop_step s = Raise o x s' /\ mst_forget_limit s' = t)
                   \/ with_call loop_step m_limit (fun s => length (m_calls s)) mst_forget_limit s (Raise o x) o t
  end.
Proof.
  intros s. unfold loop_step at 1, mst_step at 1 2. change (m_pc (mst_forget_limit s)) with (m_pc s).
  change (m_heap (mst_forget_limit s)) with (m_heap s). change (m_visited (mst_forget_limit s)) with (m_visited s).
  destruct (m_pc s) as [sl| |v [|e rest]] eqn:Hpc.
  - simpl. split; auto. exists s. unfold loop_step. rewrite Hpc. auto.
  - destruct (m_heap s) as [|[k [v e]] h] eqn:Hh.
    + simpl. split; auto. exists s. unfold loop_step, mst_step. rewrite Hpc, Hh. auto.
    + cbv zeta. destruct (vs_mem VS (vid (fst (fst e))) (m_visited s)) eqn:Hm.
      * left. simpl. split; auto. eexists. unfold loop_step, mst_step. rewrite Hpc, Hh. cbv zeta. rewrite Hm. repeat split.
      * right. simpl. unfold with_call. simpl. split; auto.
        unfold loop_step, mst_step. rewrite Hpc, Hh. cbv zeta. rewrite Hm. simpl.
        destruct (limit_check (m_limit s)) as [lm|] eqn:Hl.
        -- eexists. repeat split.
        -- eexists _, [], _. rewrite app_nil_r. split; [reflexivity|]. split; reflexivity.
  - left. simpl. split; auto. eexists. unfold loop_step, mst_step. rewrite Hpc. repeat split.
  - destruct (vs_mem VS (vid (fst (fst e))) (m_visited s)) eqn:Hm; left; simpl; (split; [auto|]); eexists;
      unfold loop_step, mst_step; rewrite Hpc, Hm; repeat split.
Qed.

Lemma mst_limit_all starts c n os r os' r' : (0 <= c)%Z ->
  mst_run vid WT VS PM LM next cfg starts None n = (os, r) ->
  mst_run vid WT VS PM LM next cfg starts (Some c) n = (os', r') ->
  (Z.of_nat (length (m_calls (outcome_state r'))) <= c)%Z /\
  ((Z.of_nat (length (m_calls (outcome_state r))) <= c)%Z ->
     os' = os /\ outcome_map mst_forget_limit r' = r) /\
  ((c < Z.of_nat (length (m_calls (outcome_state r))))%Z ->
     (exists s', r' = Raised RuntimeErrorLimit s') /\
     (Z.of_nat (length (m_calls (outcome_state r'))) = c \/
      (c < Z.of_nat (length starts))%Z /\ m_calls (outcome_state r') = []) /\ exists ext, os = os' ++ ext).
Proof.
  intros Hc HR HR'. unfold mst_run in *. destruct n as [|n].
  { simpl in *. injection HR as <- <-. injection HR' as <- <-. simpl. split; [auto|]. split; [auto|]. lia. }
  cbn [run] in HR, HR'.
  set (i0 := mst_init vid WT VS PM LM cfg starts None) in *.
  set (i1 := mst_init vid WT VS PM LM cfg starts (Some c)) in *.
  assert (E0 : step i0 = Go [] (mst_begin WT VS PM LM next i0 starts None)) by reflexivity.
  assert (E1 : step i1 = match mst_limit_start (Some c) (length starts) with
                         | None => Raise [] RuntimeErrorLimit i1
                         | Some lim => Go [] (mst_begin WT VS PM LM next i1 starts lim) end) by reflexivity.
  rewrite E0 in HR. rewrite E1 in HR'. clear E0 E1. unfold mst_limit_start in HR'.
  destruct (0 <=? c)%Z eqn:H0; [|apply Z.leb_gt in H0; lia].
  set (s0 := mst_begin WT VS PM LM next i0 starts None) in *.
  destruct (run step n s0) as [osa ra] eqn:Hra. cbn [fst snd app] in HR. injection HR as <- <-.
  assert (Hcs : length starts <= length (m_calls (outcome_state ra))).
  { rewrite loop_run in Hra by (intros; discriminate).
    apply (run_calls_mono loop_step (fun s => length (m_calls s)) loop_mono) in Hra. simpl in Hra.
    rewrite app_nil_r, rev_length in Hra. exact Hra. }
  destruct (c - Z.of_nat (length starts) <? 0)%Z eqn:Hlt.
  - apply Z.ltb_lt in Hlt. injection HR' as <- <-. simpl. split; [lia|]. split; [lia|]. intros _.
    split; [eauto|]. split; [right; split; [lia|auto]|]. exists osa. auto.
  - apply Z.ltb_ge in Hlt.
    set (s1 := mst_begin WT VS PM LM next i1 starts
                 (Some (c - Z.of_nat (length starts))%Z)) in *.
    destruct (run step n s1) as [osb rb] eqn:Hrb. cbn [fst snd app] in HR'. injection HR' as <- <-.
    rewrite loop_run in Hra, Hrb by (intros; discriminate).
    destruct (limit_all loop_step m_limit (fun s => length (m_calls s)) mst_forget_limit (fun s => eq_refl) loop_mono
                loop_law c n s0 s1 osa ra osb rb Hc eq_refl) as (H1 & H2 & H3); auto.
    { simpl. rewrite app_nil_r, rev_length. split; [f_equal; lia|lia]. }
    split; [exact H1|]. split; [exact H2|]. intros Hgt. destruct (H3 Hgt) as (K1 & K2 & K3). auto.
Qed.
End MSTLimit.
