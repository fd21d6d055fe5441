(** The calculation limit of A*. *)
From Coq Require Import List ZArith Bool Lia.
From Verif Require Import Machine GearSpec Common CommonProofs LimitSim LimitAll Weight HeapModel DijkstraModel AStarModel.
Import ListNotations.

Section AStarLimit.
Context {V I L : Type}.
Variable vid : V -> I.
Variable WT : Weights.
Variable DM : DMap I (w_t WT) (w_inf WT).
Variable PM : PMap I V.
Variable LM : PMap I L.
Variable next : V -> list (V * w_t WT * L).
Variable cfg : ast_cfg.
Variable heuristic : V -> w_t WT.
Notation state := (@ast_state V I L WT DM PM LM).
Notation step := (ast_step vid WT DM PM LM next cfg heuristic).

(** The same state without a limit. *)
Definition ast_forget_limit (s : state) : state :=
  {| a_pc := a_pc s; a_heap := a_heap s; a_no := a_no s; a_distances := a_distances s; a_guesses := a_guesses s;
     a_pred := a_pred s; a_labels := a_labels s; a_path_length := a_path_length s; a_depth := a_depth s;
     a_limit := None; a_calls := a_calls s |}.

Lemma ast_limit_all starts known kg c n os r os' r' : (0 <= c)%Z ->
  ast_run vid WT DM PM LM next cfg heuristic starts known kg None n = (os, r) ->
  ast_run vid WT DM PM LM next cfg heuristic starts known kg (Some c) n = (os', r') ->
  (Z.of_nat (length (a_calls (outcome_state r'))) <= c)%Z /\
  ((Z.of_nat (length (a_calls (outcome_state r))) <= c)%Z ->
     os' = os /\ outcome_map ast_forget_limit r' = r) /\
  ((c < Z.of_nat (length (a_calls (outcome_state r))))%Z ->
     (exists s', r' = Raised RuntimeErrorLimit s') /\
     Z.of_nat (length (a_calls (outcome_state r'))) = c /\ exists ext, os = os' ++ ext).
Proof.
  intros Hc HR HR'.
  eapply (limit_all step a_limit (fun s => length (a_calls s)) ast_forget_limit); try eassumption; auto.
  - intros s. unfold result_state, ast_step. destruct (a_pc s) as [|v w k [|[[nn ew] l] rest]].
    + destruct (a_heap s) as [|[[w no] [v k]] h]; simpl; auto.
      destruct (_ && _); simpl; auto. destruct (limit_check (a_limit s)); simpl; auto.
    + simpl; auto.
    + cbv zeta. destruct (w_leb WT _ _); simpl; auto. destruct (_ && _); simpl; auto.
      destruct (w_eqb WT _ _); simpl; auto. destruct (w_leb WT _ _); simpl; auto.
  - intros s. unfold ast_step at 1. change (a_pc (ast_forget_limit s)) with (a_pc s).
    change (a_heap (ast_forget_limit s)) with (a_heap s). change (a_distances (ast_forget_limit s)) with (a_distances s).
    change (a_guesses (ast_forget_limit s)) with (a_guesses s).
    destruct (a_pc s) as [|v w k [|[[nn ew] l] rest]] eqn:Hpc.
    + destruct (a_heap s) as [|[[w no] [v k]] h] eqn:Hh.
      * simpl. split; auto. eexists. unfold ast_step. rewrite Hpc, Hh. split; reflexivity.
      * destruct (negb (ac_is_tree cfg) && _) eqn:Hst.
        -- left. simpl. split; auto. eexists. unfold ast_step. rewrite Hpc, Hh, Hst. repeat split.
        -- right. simpl. unfold with_call. simpl. split; auto.
           unfold ast_step at 1 2. rewrite Hpc, Hh, Hst. cbv zeta. simpl.
           destruct (limit_check (a_limit s)) as [lm|] eqn:Hl.
           ++ eexists. repeat split.
           ++ eexists _, [], _. rewrite app_nil_r. split; [reflexivity|]. split; reflexivity.
    + left. simpl. split; auto. eexists. unfold ast_step. rewrite Hpc. repeat split.
    + cbv zeta. destruct (w_leb WT (w_inf WT) _) eqn:Hinf.
      * left. simpl. split; auto. exists s. unfold ast_step. rewrite Hpc. cbv zeta. rewrite Hinf. split; reflexivity.
      * destruct (negb (ac_is_tree cfg) && _) eqn:Hst.
        { left; simpl; (split; [auto|]); eexists;
          unfold ast_step; rewrite Hpc; cbv zeta; rewrite Hinf, Hst; repeat split. }
        destruct (w_eqb WT (heuristic nn) (w_inf WT)) eqn:Hq.
        { left; simpl; (split; [auto|]); eexists;
          unfold ast_step; rewrite Hpc; cbv zeta; rewrite Hinf, Hst, Hq; repeat split. }
        destruct (w_leb WT (w_inf WT) (w_add WT (w_add WT ew w) (heuristic nn))) eqn:Hg;
          left; simpl; (split; [auto|]); eexists;
          unfold ast_step; rewrite Hpc; cbv zeta; rewrite Hinf, Hst, Hq, Hg; repeat split.
  - apply (limit_state_init (Some c)).
Qed.
End AStarLimit.
