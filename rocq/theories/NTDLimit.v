(** The calculation limit of the neighbors-then-depth traversal. *)
From Coq Require Import List ZArith Bool Arith Lia.
From Verif Require Import Machine GearSpec Common CommonProofs LimitSim LimitAll NTDModel.
Import ListNotations.

Section NTDLimit.
Context {V I L : Type}.
Variable vid : V -> I.
Variable VS : VSet I.
Variable PM : PMap I V.
Variable LM : PMap I L.
Variable next : V -> list (V * L).
Variable cfg : ntd_cfg.
Notation state := (@ntd_state V I L VS PM LM).
Notation step := (ntd_step vid VS PM LM next cfg).

(** The same state without a limit. *)
Definition ntd_forget_limit (s : state) : state :=
  {| n_pc := n_pc s; n_to_expand := n_to_expand s; n_markers := n_markers s; n_loop_depth := n_loop_depth s;
     n_depth := n_depth s; n_visited := n_visited s; n_pred := n_pred s; n_labels := n_labels s;
     n_limit := None; n_calls := n_calls s |}.

Lemma ntd_limit_all starts av c n os r os' r' : (0 <= c)%Z ->
  ntd_run vid VS PM LM next cfg starts av None n = (os, r) ->
  ntd_run vid VS PM LM next cfg starts av (Some c) n = (os', r') ->
  (Z.of_nat (length (n_calls (outcome_state r'))) <= c)%Z /\
  ((Z.of_nat (length (n_calls (outcome_state r))) <= c)%Z ->
     os' = os /\ outcome_map ntd_forget_limit r' = r) /\
  ((c < Z.of_nat (length (n_calls (outcome_state r))))%Z ->
     (exists s', r' = Raised RuntimeErrorLimit s') /\
     Z.of_nat (length (n_calls (outcome_state r'))) = c /\ exists ext, os = os' ++ ext).
Proof.
  intros Hc H1 H2. eapply (limit_all step n_limit (fun s => length (n_calls s)) ntd_forget_limit); eauto.
  - intros s. unfold result_state, ntd_step. destruct (n_pc s) as [|v [|[w l] rest]]; simpl; auto.
    + destruct (n_to_expand s) as [|u q]; simpl; auto. unfold ntd_enter. destruct (nc_compute_depth cfg).
      * destruct (ntd_leave _ _) as [[m d]|]; simpl; auto. destruct (limit_check (n_limit s)); simpl; auto.
      * simpl. destruct (limit_check (n_limit s)); simpl; auto.
    + destruct (_ && _); simpl; auto.
  - intros s. unfold ntd_step at 1. change (n_pc (ntd_forget_limit s)) with (n_pc s).
    change (n_to_expand (ntd_forget_limit s)) with (n_to_expand s).
    change (n_visited (ntd_forget_limit s)) with (n_visited s).
    destruct (n_pc s) as [|v [|[w l] rest]] eqn:Hpc.
    + destruct (n_to_expand s) as [|u q] eqn:Hte.
      * simpl. split; auto. exists s. unfold ntd_step. rewrite Hpc, Hte. auto.
      * unfold ntd_enter. change (n_markers (ntd_forget_limit s)) with (n_markers s).
        change (n_loop_depth (ntd_forget_limit s)) with (n_loop_depth s).
        destruct (nc_compute_depth cfg) eqn:Hcd.
        -- destruct (ntd_leave (n_markers s) (n_loop_depth s + 1)) as [[m d]|] eqn:Hl.
           ++ right. simpl. unfold with_call. simpl. split; auto. unfold ntd_step. rewrite Hpc, Hte. unfold ntd_enter.
              rewrite Hcd, Hl. simpl. destruct (limit_check (n_limit s)) as [lm|] eqn:Hlc.
              ** eexists. repeat split.
              ** eexists [], [], _. repeat split.
           ++ left. simpl. split; auto. exists s. unfold ntd_step. rewrite Hpc, Hte. unfold ntd_enter. rewrite Hcd, Hl. auto.
        -- right. simpl. unfold with_call. simpl. split; auto. unfold ntd_step. rewrite Hpc, Hte. unfold ntd_enter.
           rewrite Hcd. simpl. destruct (limit_check (n_limit s)) as [lm|] eqn:Hlc.
           ++ eexists. repeat split.
           ++ eexists [], [], _. repeat split.
    + left. simpl. split; auto. eexists. unfold ntd_step. rewrite Hpc. repeat split.
    + destruct (_ && _) eqn:Hm.
      * left. simpl. split; auto. eexists. unfold ntd_step. rewrite Hpc, Hm. repeat split.
      * left. simpl. split; auto. eexists. unfold ntd_step. rewrite Hpc, Hm. repeat split.
  - apply (limit_state_init (Some c)).
  - exact H1.
Qed.
End NTDLimit.
