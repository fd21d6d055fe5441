(** The decisions of a consumer (PruneModel) as decisions by the number of the report (DFSModel). *)
From Coq Require Import List Bool Arith ZArith Lia.
From Verif Require Import Machine GearSpec Common Spec TraversalSpec DFSModel DFSSpec DFSLog DFSReports DFSProofs DFSTerm PruneModel.
Import ListNotations.

Section PruneProofs.
Context {V I L : Type}.
Variable V_dec : forall a b : V, {a = b} + {a <> b}.
Variable vid : V -> I.
Variable VS : VSet I.
Variable PM : PMap I V.
Variable LM : PMap I L.
Variable XM : DMap I Z 0%Z.
Variable next : V -> list (V * L).
Variable cfg : dfs_cfg.
Notation report := (@dfs_report V I L VS PM LM XM).
Notation state := (@dfs_state V I L VS PM LM XM).
Variable prunes : report -> bool.
Notation step := (dfs_step V_dec vid VS PM LM XM next cfg).
Notation prune_step := (prune_step V_dec vid VS PM LM XM next cfg prunes).

Definition calm (s : state) (r : step_result state report exn) : Prop := (step_reports r = [] \/ exists rep, step_reports r = [rep]) /\
  match r with Go o s' => f_count s' = f_count s + length o /\ (f_limit s = None -> f_limit s' = None) | Halt _ _ => True | Raise _ x _ => f_limit s = None -> x <> RuntimeErrorLimit end.
Definition regular (r : (nat -> bool) -> step_result state report exn) (s : state) : Prop := forall f,
  (forall g, (step_reports (r f) = [] \/ f (f_count s) = g (f_count s) -> r f = r g) /\ step_reports (r f) = step_reports (r g)) /\ calm s (r f).
Lemma regular_const r s : calm s r -> regular (fun _ => r) s.
Proof. intros H f. auto. Qed.
Lemma visit_regular s v : regular (fun f => dfs_visit V_dec vid VS PM LM XM next cfg f s v) s.
Proof.
  assert (G : regular (fun f => let s1 := dfs_enter V_dec vid VS PM LM XM cfg s v in
      let show := dc_report cfg (if is_current_start V_dec VS PM LM XM s v then ENTERING_START else ENTERING_SUCCESSOR) in
      let o := if show then [dfs_observe VS PM LM XM v s1] else [] in
      if show && f (f_count s) then Go o (dfs_count VS PM LM XM s1 (length o))
      else match limit_check (f_limit s1) with
           | None => Raise o RuntimeErrorLimit (dfs_count VS PM LM XM s1 (length o))
           | Some lim => Go o (dfs_expand VS PM LM XM next cfg s1 v lim (length o))
           end) s).
  { intros f. cbn zeta. change (f_limit (dfs_enter V_dec vid VS PM LM XM cfg s v)) with (f_limit s).
    destruct (dc_report cfg (if is_current_start V_dec VS PM LM XM s v then ENTERING_START else ENTERING_SUCCESSOR)); cbn [andb].
    - split; [intros g; split; [intros [K|K]; [destruct (f (f_count s)); [|destruct (limit_check (f_limit s))]; discriminate K|rewrite K; reflexivity]|
        destruct (f (f_count s)), (g (f_count s)), (limit_check (f_limit s)); reflexivity]|].
      split; [right; eexists; destruct (f (f_count s)); [|destruct (limit_check (f_limit s))]; reflexivity|].
      destruct (f (f_count s)); [split; [reflexivity|auto]|]. destruct (f_limit s) as [z|] eqn:El; cbn.
      + destruct (z =? 0)%Z; cbn; [split; [lia|discriminate]|]. destruct (z - 1 =? 0)%Z; cbn; [discriminate|split; [lia|discriminate]].
      + split; auto.
    - split; [intros g; split; reflexivity|]. split; [left; destruct (limit_check (f_limit s)); reflexivity|]. destruct (f_limit s) as [z|] eqn:El; cbn.
      + destruct (z =? 0)%Z; cbn; [split; [lia|discriminate]|]. destruct (z - 1 =? 0)%Z; cbn; [discriminate|split; [lia|discriminate]].
      + split; [lia|auto]. }
  assert (A : calm s (Raise [] AssertionModel s)) by (split; [now left|discriminate]).
  unfold dfs_visit. destruct (f_trace s); [exact G|]. destruct (dc_labeled cfg); [|exact G]. destruct (f_var_labels s); [exact G|]. exact (regular_const _ _ A).
Qed.
Lemma leave_calm s no_leaving m : calm s (dfs_leave vid VS PM LM XM cfg s no_leaving m).
Proof.
  unfold dfs_leave. destruct (f_trace s) as [|v t]; [split; [now left|discriminate]|]. destruct m as [|b m].
  - destruct (dc_report cfg LEAVING_START); split; cbn; eauto.
  - destruct (dc_report cfg LEAVING_SUCCESSOR), no_leaving; cbn; destruct (dc_labeled cfg); try (destruct (f_trace_labels s)); split; cbn; eauto; discriminate.
Qed.
Lemma revisit_calm s v back : calm s (dfs_revisit vid VS PM LM XM cfg s v back).
Proof.
  unfold dfs_revisit. destruct (f_trace s) as [|u t].
  - destruct (dc_report cfg SKIPPING_START); split; cbn; eauto.
  - destruct (dfs_classify _ _ _ _ _ _ _ _ _); [|split; cbn; eauto]. destruct (dc_labeled cfg); [destruct (f_var_labels s)|]; split; cbn; eauto; discriminate.
Qed.
Lemma calm_pop s m v s1 r : dfs_pop VS PM LM XM cfg s m = Some (v, s1) -> calm s1 r -> calm s r.
Proof.
  intros Hp. assert (E : f_count s1 = f_count s /\ f_limit s1 = f_limit s).
  { unfold dfs_pop in Hp. destruct (f_to_visit s) as [|w q]; [discriminate|]. destruct (dc_labeled cfg); [destruct q; [|destruct (f_to_visit_labels s); [discriminate|]]|]; injection Hp as _ <-; cbn; auto. }
  destruct E as (E1 & E2). unfold calm. rewrite E1, E2. auto.
Qed.
Lemma pop_count s m v s1 : dfs_pop VS PM LM XM cfg s m = Some (v, s1) -> f_count s1 = f_count s.
Proof.
  intros Hp. unfold dfs_pop in Hp. destruct (f_to_visit s) as [|w q]; [discriminate|]. destruct (dc_labeled cfg); [destruct q; [|destruct (f_to_visit_labels s); [discriminate|]]|]; injection Hp as _ <-; cbn; auto.
Qed.
Lemma step_regular s : regular (fun f => step f s) s.
Proof.
  unfold dfs_step. destruct (f_pc s) as [|no_leaving].
  - destruct (f_starts s); apply regular_const; split; cbn; auto.
  - destruct (f_markers s) as [|[|] m]; [apply regular_const; split; cbn; auto|apply regular_const, leave_calm|].
    destruct (dfs_pop VS PM LM XM cfg s m) as [(v & s1)|] eqn:Hp; [|apply regular_const; split; [now left|discriminate]].
    assert (G1 : forall back, regular (fun _ => dfs_revisit vid VS PM LM XM cfg s1 v back) s) by (intros back; apply regular_const; apply (calm_pop _ _ _ _ _ Hp), revisit_calm).
    assert (G2 : regular (fun f => dfs_visit V_dec vid VS PM LM XM next cfg f s1 v) s).
    { intros f. destruct (visit_regular s1 v f) as (H1 & H2). rewrite (pop_count _ _ _ _ Hp) in H1. split; [exact H1|exact (calm_pop _ _ _ _ _ Hp H2)]. }
    destruct (negb (dc_is_tree cfg) && negb (is_all_walks (dc_mode cfg))); [|exact G2]. destruct (is_dfs_tree (dc_mode cfg)); [destruct (vs_mem VS (vid v) (f_visited s1)); auto|destruct (vs_mem VS (vid v) (f_on_trace s1)); auto].
Qed.

Lemma prune_step_regular s : exists b, prune_step s = step (fun _ => b) s /\ b = existsb prunes (step_reports (prune_step s)).
Proof. unfold PruneModel.prune_step. eexists. split; [reflexivity|]. f_equal. apply (step_regular s (fun _ => false)). Qed.
Lemma prune_same skip n : forall s (pre : list report), f_count s = length pre ->
  (forall m rep, nth_error (pre ++ fst (run prune_step n s)) m = Some rep -> skip m = prunes rep) -> run (step skip) n s = run prune_step n s.
Proof.
  induction n as [|n IH]; intros s pre Hc Hs; [reflexivity|]. cbn [run] in *. destruct (prune_step_regular s) as (b & Hb & Eb).
  destruct (step_regular s (fun _ => b)) as (H1 & H2 & H3). rewrite <- Hb in H1, H2, H3.
  assert (K : step skip s = prune_step s).
  { symmetry. apply (proj1 (H1 skip)). destruct H2 as [H2|(rep & H2)]; [now left|right]. rewrite Hc. rewrite Eb, H2. cbn. rewrite orb_false_r. symmetry. apply Hs.
    assert (Ho : exists rest, fst (run prune_step (S n) s) = rep :: rest) by (cbn [run]; destruct (prune_step s) as [o s'|o s'|o x s']; cbn in H2; subst o; cbn; eauto).
    destruct Ho as (rest & Ho). cbn [run] in Ho. rewrite Ho, nth_error_app2, Nat.sub_diag by lia. reflexivity. }
  rewrite K. destruct (prune_step s) as [o s'|o s'|o x s']; [|reflexivity|reflexivity]. cbn [fst] in Hs. rewrite (IH s' (pre ++ o)); [reflexivity|rewrite app_length; lia|]. rewrite <- app_assoc. exact Hs.
Qed.

Variable starts : list V.
Variable av : option (vs_t VS).
Notation init := (dfs_init vid VS PM LM XM cfg starts av None).
(** The decisions in a run of the program *)
Definition decisions (os : list report) (m : nat) : bool := match nth_error os m with Some rep => prunes rep | None => false end.
Lemma prune_decisions n os r : run prune_step n init = (os, r) -> run (step (decisions os)) n init = (os, r).
Proof. intros H. rewrite <- H. apply prune_same with (pre := []); [reflexivity|]. rewrite H. cbn. intros m rep Hm. unfold decisions. rewrite Hm. reflexivity. Qed.
Lemma prune_unlimited n : forall s, f_limit s = None -> match snd (run prune_step n s) with Raised x _ => x <> RuntimeErrorLimit | _ => True end.
Proof.
  induction n as [|n IH]; intros s Hs; [exact Logic.I|]. cbn [run]. destruct (prune_step_regular s) as (b & Hb & _). destruct (step_regular s (fun _ => b)) as (_ & _ & H3). rewrite <- Hb in H3.
  destruct (prune_step s) as [o s'|o s'|o x s']; [|exact Logic.I|exact (H3 Hs)]. apply IH. apply H3. exact Hs.
Qed.

(** *** All passes *)
Hypothesis Hok : cfg_ok cfg (match av with Some _ => true | None => false end).
Notation dfs_log := (dfs_log vid next starts (dfs_policy VS cfg av)).
Notation good_reports skip := (reports V_dec VS PM LM XM cfg skip (fun lg e p r => sees vid VS PM LM XM next starts cfg av false lg e p r /\
  sees_trace vid VS PM LM XM next cfg av lg e p r)).
Definition consistent (skip : nat -> bool) (os : list report) : Prop := forall m rep, nth_error os m = Some rep -> skip m = prunes rep.

(** A run of the program follows a depth-first search in which exactly the vertices that the program wants to prune are not expanded. *)
Theorem prune_any n os r : run prune_step n init = (os, r) -> exists skip log k open,
  consistent skip os /\ dfs_log log k open /\ good_reports skip log (rev os) /\
  match r with Running _ => True | Ended _ => k = length starts /\ open = [] | Raised _ _ => False end.
Proof.
  intros HR. pose proof (prune_decisions n os r HR) as HR'. pose proof (prune_unlimited n init eq_refl) as Hu. rewrite HR in Hu. cbn [snd] in Hu.
  pose proof (dfs_any V_dec vid VS PM LM XM next starts cfg (decisions os) av Hok None n os r HR') as H. exists (decisions os).
  assert (C : consistent (decisions os) os) by (intros m rep Hm; unfold decisions; rewrite Hm; reflexivity).
  destruct r as [d|d|x d].
  - destruct H as (log & k & open & pend & H1 & H2). exists log, k, open. split; [exact C|]. split; [exact H1|]. split; [exact (sm_reports _ _ _ _ _ _ _ _ _ _ _ _ _ _ _ _ _ H2)|exact Logic.I].
  - destruct H as (log & H1 & H2). exists log, (length starts), []. split; [exact C|]. split; [exact H1|]. split; [exact (sm_reports _ _ _ _ _ _ _ _ _ _ _ _ _ _ _ _ _ H2)|auto].
  - destruct H as (Hx & _). destruct (Hu Hx).
Qed.

(** It ends if the logs that belong to such decisions have a bounded length. *)
Theorem prune_ends B : (forall skip os log k open, consistent skip os -> dfs_log log k open -> good_reports skip log (rev os) -> length log <= B) ->
  exists n, forall s, snd (run prune_step n init) <> Running s.
Proof.
  intros HB. exists (S (3 * B + 2)). destruct (run prune_step (S (3 * B + 2)) init) as (os & r) eqn:HR. pose proof (prune_decisions _ os r HR) as HR'.
  set (skip := decisions os) in *. assert (C : consistent skip os) by (intros m rep Hm; unfold skip, decisions; rewrite Hm; reflexivity).
  assert (Hgo : forall m s pre log k open pend, Sim V_dec vid VS PM LM XM next starts cfg skip av pre log k open pend s -> 3 * (B - length log) + rank VS PM LM XM s <= m ->
     consistent skip (pre ++ fst (run (step skip) (S m) s)) -> forall s', snd (run (step skip) (S m) s) <> Running s').
  { induction m as [m IH] using lt_wf_ind. intros s pre log k open pend Hs Em Hc s'.
    assert (Hx := sim_step V_dec vid VS PM LM XM next starts cfg skip av Hok _ _ _ _ _ _ Hs). cbn [run] in Hc |- *.
    destruct (step skip s) as [o s1|o s1|o x s1] eqn:E; [|discriminate|discriminate]. cbn [fst snd] in Hc |- *.
    assert (Cp : forall a b, consistent skip (a ++ b) -> consistent skip a).
    { intros a b Hab j rep Hj. apply Hab. rewrite nth_error_app1; [exact Hj|]. apply nth_error_Some. congruence. }
    destruct Hx as (log' & k' & open' & pend' & Hs' & Hrank).
    assert (Hl : length log <= B) by (destruct Hs as (Hl & Hs); eapply HB; [|exact Hl|exact (sm_reports _ _ _ _ _ _ _ _ _ _ _ _ _ _ _ _ _ Hs)]; exact (Cp _ _ Hc)).
    rewrite app_assoc in Hc.
    assert (Hl' : length log' <= B) by (destruct Hs' as (Hl' & Hs'); eapply HB; [|exact Hl'|exact (sm_reports _ _ _ _ _ _ _ _ _ _ _ _ _ _ _ _ _ Hs')]; exact (Cp _ _ Hc)).
    assert (Hr : forall t : state, rank VS PM LM XM t <= 2) by (intros t; unfold rank; destruct (f_pc t); auto; destruct (f_markers t); auto).
    assert (Hlt : 3 * (B - length log') + rank VS PM LM XM s1 < m).
    { pose proof (Hr s1). destruct Hrank as [(e & ->)|(-> & Hrank)]; [cbn [length] in *; lia|lia]. }
    destruct m as [|m]; [lia|]. apply (IH m (Nat.lt_succ_diag_r m) s1 (pre ++ o) log' k' open' pend' Hs'); [lia|exact Hc]. }
  intros s. pose proof (Hgo (3 * B + 2) init [] [] 0 [] None) as K. rewrite HR' in K. apply K; [|cbn [length]; unfold rank; destruct (f_pc init); [lia|destruct (f_markers init); lia]|exact C].
  exact (sim_init V_dec vid VS PM LM XM next starts cfg skip av Hok None).
Qed.
End PruneProofs.
