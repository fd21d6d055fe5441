(** The reports of TraversalDepthFirst, with and without trace, show a log of a depth-first search. *)
From Coq Require Import List Bool Arith ZArith Lia.
From Verif Require Import Machine GearSpec Spec Common TraversalSpec DFSModel DFSSpec DFSLog DFSLogMore DFSReports DFSProofs DFSTerm DFSWProofs.
Import ListNotations.

Section DFSMain.
Context {V I L : Type}.
Variable V_dec : forall a b : V, {a = b} + {a <> b}.
Variable vid : V -> I.
Variable VS : VSet I.
Variable PM : PMap I V.
Variable LM : PMap I L.
Variable XM : DMap I Z 0%Z.
Variable next : V -> list (V * L).
Variable starts : list V.
Variable cfg : dfs_cfg.
Variable skip : nat -> bool.
Variable av : option (vs_t VS).

Notation report := (@dfs_report V I L VS PM LM XM).
Notation pol := (dfs_policy VS cfg av).
Notation dfs_log := (dfs_log vid next starts pol).
Notation traverse := (dfs_traverse V_dec vid VS PM LM XM next cfg skip starts av).

Definition see (log : log_t V) (e : log_event) (p : node V) (rep : report) : Prop :=
  sees vid VS PM LM XM next starts cfg av (negb (dfs_uses_trace cfg)) log e p rep /\
  (dfs_uses_trace cfg = true -> sees_trace vid VS PM LM XM next cfg av log e p rep).
Notation good := (reports V_dec VS PM LM XM cfg skip see).

Lemma reports_weaken (s1 s2 : log_t V -> log_event -> node V -> report -> Prop) log os :
  (forall lg e p r, s1 lg e p r -> s2 lg e p r) ->
  reports V_dec VS PM LM XM cfg skip s1 log os -> reports V_dec VS PM LM XM cfg skip s2 log os.
Proof. intros H. induction 1; [constructor|apply rs_hidden; auto|apply rs_shown; auto]. Qed.

Variable o : dfs_cfg.
Hypothesis Ho : dfs_options o (match av with Some _ => true | None => false end) = inl cfg.
Hypothesis Htree : dc_is_tree cfg = true -> dfs_uses_trace cfg = false -> av = None.

Lemma main_ok : cfg_ok cfg (match av with Some _ => true | None => false end).
Proof. eapply dfs_options_ok; eauto. Qed.

Theorem dfs_main lim n os r : traverse lim n = (os, r) ->
  exists log k open, dfs_log log k open /\ good log (rev os) /\
    match r with
    | Running c => c = calls_of cfg log
    | Ended c => c = calls_of cfg log /\ k = length starts /\ open = []
    | Raised x c => x = RuntimeErrorLimit /\ exists p log', log = (LEnter true, p) :: log' /\ c = calls_of cfg log'
    end.
Proof.
  unfold dfs_traverse. destruct (dfs_uses_trace cfg) eqn:Eu; intros HR.
  - destruct (dfs_run _ _ _ _ _ _ _ _ _ _ _ _ _) as (os', r') eqn:E. injection HR as <- <-.
    apply (dfs_any V_dec vid VS PM LM XM next starts cfg skip av main_ok) in E.
    assert (W : forall lg l0, reports V_dec VS PM LM XM cfg skip (fun lg e p r => sees vid VS PM LM XM next starts cfg av false lg e p r /\
                 sees_trace vid VS PM LM XM next cfg av lg e p r) lg l0 -> good lg l0).
    { intros lg l0. apply reports_weaken. intros lg' e p rr (A & B). split; auto. rewrite Eu. exact A. }
    destruct r' as [s|s|x s]; cbn [outcome_map].
    + destruct E as (log & k & open & pend & Hl & H). exists log, k, open. split; auto. split; [apply W, (sm_reports _ _ _ _ _ _ _ _ _ _ _ _ _ _ _ _ _ H)|apply (sm_calls _ _ _ _ _ _ _ _ _ _ _ _ _ _ _ _ _ H)].
    + destruct E as (log & Hl & H). exists log, (length starts), []. split; auto. split; [apply W, (sm_reports _ _ _ _ _ _ _ _ _ _ _ _ _ _ _ _ _ H)|].
      split; auto. apply (sm_calls _ _ _ _ _ _ _ _ _ _ _ _ _ _ _ _ _ H).
    + destruct E as (-> & log & k & open & p & m & Hl & H & Hc). exists ((LEnter true, p) :: log), k, ((p, m) :: open). split; auto. split; [apply W, H|].
      split; auto. exists p, log. auto.
  - destruct (dfw_run _ _ _ _ _ _ _ _ _ _ _ _ _) as (os', r') eqn:E. injection HR as <- <-.
    destruct (dfs_options_without_trace _ _ _ Ho Eu) as (Hm & Hr).
    apply (dfw_any V_dec vid VS PM LM XM next starts cfg skip av Hm Hr (fun h => Htree h eq_refl)) in E.
    assert (W : forall lg l0, reports V_dec VS PM LM XM cfg skip (sees vid VS PM LM XM next starts cfg av true) lg l0 -> good lg l0).
    { intros lg l0. apply reports_weaken. intros lg' e p rr A. split; [rewrite Eu; exact A|rewrite Eu; discriminate]. }
    destruct r' as [s|s|x s]; cbn [outcome_map].
    + destruct E as (log & k & open & eopen & kept & pend & Hl & H). exists log, k, open. split; auto. split; [apply W|].
      * eapply ws_reports; eauto.
      * eapply ws_calls; eauto.
    + destruct E as (log & Hl & H & Hc). exists log, (length starts), []. split; auto.
    + destruct E as (-> & log & k & open & p & m & Hl & H & Hc). exists ((LEnter true, p) :: log), k, ((p, m) :: open). split; auto. split; [apply W, H|].
      split; auto. exists p, log. auto.
Qed.

Theorem dfs_main_terminates lim B : (forall log k open, dfs_log log k open -> length log <= B) ->
  exists n os r, traverse lim n = (os, r) /\ forall s, r <> Running s.
Proof.
  intros HB. unfold dfs_traverse. destruct (dfs_uses_trace cfg) eqn:Eu.
  - destruct (dfs_terminates V_dec vid VS PM LM XM next starts cfg skip av main_ok lim B HB) as (n & os & r & E & H).
    exists n, os, (outcome_map f_calls r). rewrite E. split; auto. destruct r; cbn; try discriminate. destruct (H s); auto.
  - destruct (dfs_options_without_trace _ _ _ Ho Eu) as (Hm & Hr).
    destruct (dfw_terminates V_dec vid VS PM LM XM next starts cfg skip av Hm Hr (fun h => Htree h eq_refl) lim B HB) as (n & os & r & E & H).
    exists n, os, (outcome_map w_calls r). rewrite E. split; auto. destruct r; cbn; try discriminate. destruct (H s); auto.
Qed.
End DFSMain.
