(** The calculation limit of topological sort. *)
From Coq Require Import List ZArith Bool Arith Lia.
From Verif Require Import Machine GearSpec Common CommonProofs LimitSim LimitAll TopoModel.
Import ListNotations.

Section TopoLimit.
Context {V I L : Type}.
Variable vid : V -> I.
Variable VS : VSet I.
Variable PM : PMap I V.
Variable LM : PMap I L.
Variable next : V -> list (V * L).
Variable cfg : topo_cfg.
Notation state := (@topo_state V I L VS PM LM).
Notation step := (topo_step vid VS PM LM next cfg).

(** The same state without a limit. *)
Definition topo_forget_limit (s : state) : state :=
  {| t_pc := t_pc s; t_stack := t_stack s; t_trace_set := t_trace_set s; t_markers := t_markers s; t_depth := t_depth s;
     t_visited := t_visited s; t_pred := t_pred s; t_labels := t_labels s; t_cycle := t_cycle s; t_limit := None; t_calls := t_calls s |}.

Lemma topo_limit_all starts av c n os r os' r' : (0 <= c)%Z ->
  topo_run vid VS PM LM next cfg starts av None n = (os, r) ->
  topo_run vid VS PM LM next cfg starts av (Some c) n = (os', r') ->
  (Z.of_nat (length (t_calls (outcome_state r'))) <= c)%Z /\
  ((Z.of_nat (length (t_calls (outcome_state r))) <= c)%Z ->
     os' = os /\ outcome_map topo_forget_limit r' = r) /\
  ((c < Z.of_nat (length (t_calls (outcome_state r))))%Z ->
     (exists s', r' = Raised RuntimeErrorLimit s') /\
     Z.of_nat (length (t_calls (outcome_state r'))) = c /\ exists ext, os = os' ++ ext).
Proof.
  intros Hc H1 H2. eapply (limit_all step t_limit (fun s => length (t_calls s)) topo_forget_limit); eauto.
  - intros s. unfold result_state, topo_step, topo_step_tree, topo_step_graph, topo_go_expand.
    destruct (tc_is_tree cfg); destruct (t_pc s) as [|v [|[w l] rest]]; simpl; auto.
    + destruct (t_stack s); simpl; auto. destruct (t_markers s) as [|[] m]; simpl; auto. destruct (limit_check (t_limit s)); simpl; auto.
    + destruct (t_stack s); simpl; auto. destruct (vs_mem _ _ _); simpl; auto. destruct (_ && _); simpl; auto. destruct (limit_check (t_limit s)); simpl; auto.
    + destruct (vs_mem _ _ _); simpl; auto. destruct (vs_mem _ _ _); simpl; auto.
  - intros s. unfold topo_step at 1, topo_step_tree, topo_step_graph.
    change (t_pc (topo_forget_limit s)) with (t_pc s). change (t_stack (topo_forget_limit s)) with (t_stack s).
    change (t_markers (topo_forget_limit s)) with (t_markers s). change (t_trace_set (topo_forget_limit s)) with (t_trace_set s).
    change (t_visited (topo_forget_limit s)) with (t_visited s). change (t_depth (topo_forget_limit s)) with (t_depth s).
    destruct (tc_is_tree cfg) eqn:HT; destruct (t_pc s) as [|v [|[w l] rest]] eqn:Hpc.
    + destruct (t_stack s) as [|v q] eqn:Hs; [|destruct (t_markers s) as [|[] m] eqn:Hm].
      * simpl. split; auto. exists s. unfold topo_step, topo_step_tree. rewrite HT, Hpc, Hs. auto.
      * left. simpl. split; auto. exists s. unfold topo_step, topo_step_tree. rewrite HT, Hpc, Hs, Hm. auto.
      * left. simpl. split; auto. eexists. unfold topo_step, topo_step_tree. rewrite HT, Hpc, Hs, Hm. repeat split.
      * right. simpl. unfold with_call. simpl. split; auto. unfold topo_step, topo_step_tree. rewrite HT, Hpc, Hs, Hm. unfold topo_go_expand. simpl.
        destruct (limit_check (t_limit s)); [eexists; repeat split|eexists [], [], _; repeat split].
    + left. simpl. split; auto. eexists. unfold topo_step, topo_step_tree. rewrite HT, Hpc. repeat split.
    + left. simpl. split; auto. eexists. unfold topo_step, topo_step_tree. rewrite HT, Hpc. repeat split.
    + destruct (t_stack s) as [|v q] eqn:Hs; [|destruct (vs_mem VS (vid v) (t_trace_set s)) eqn:Hm; [|destruct (_ && _) eqn:Hd]].
      * simpl. split; auto. exists s. unfold topo_step, topo_step_graph. rewrite HT, Hpc, Hs. auto.
      * left. simpl. split; auto. eexists. unfold topo_step, topo_step_graph. rewrite HT, Hpc, Hs, Hm. repeat split.
      * left. simpl. split; auto. eexists. unfold topo_step, topo_step_graph. rewrite HT, Hpc, Hs, Hm, Hd. repeat split.
      * right. simpl. unfold with_call. simpl. split; auto. unfold topo_step, topo_step_graph. rewrite HT, Hpc, Hs, Hm, Hd. unfold topo_go_expand. simpl.
        destruct (limit_check (t_limit s)); [eexists; repeat split|eexists [], [], _; repeat split].
    + left. simpl. split; auto. eexists. unfold topo_step, topo_step_graph. rewrite HT, Hpc. repeat split.
    + destruct (vs_mem VS (vid w) (t_visited s)) eqn:Hm; [destruct (vs_mem VS (vid w) (t_trace_set s)) eqn:Ht|].
      * left. simpl. split; auto. eexists. unfold topo_step, topo_step_graph. rewrite HT, Hpc, Hm, Ht. repeat split.
      * left. simpl. split; auto. eexists. unfold topo_step, topo_step_graph. rewrite HT, Hpc, Hm, Ht. repeat split.
      * left. simpl. split; auto. eexists. unfold topo_step, topo_step_graph. rewrite HT, Hpc, Hm. repeat split.
  - apply (limit_state_init (Some c)).
  - exact H1.
Qed.
End TopoLimit.
