(** The calculation limit of Dijkstra's algorithm. *)
From Coq Require Import List ZArith Bool Lia.
From Verif Require Import Machine GearSpec Common CommonProofs LimitSim LimitAll Weight HeapModel DijkstraModel.
Import ListNotations.

Section DijkstraLimit.
Context {V I L : Type}.
Variable vid : V -> I.
Variable WT : Weights.
Variable DM : DMap I (w_t WT) (w_inf WT).
Variable PM : PMap I V.
Variable LM : PMap I L.
Variable next : V -> list (V * w_t WT * L).
Variable cfg : dij_cfg.
Notation state := (@dij_state V I L WT DM PM LM).
Notation step := (dij_step vid WT DM PM LM next cfg).

(** The same state without a limit. *)
Definition dij_forget_limit (s : state) : state :=
  {| d_pc := d_pc s; d_heap := d_heap s; d_no := d_no s; d_distances := d_distances s; d_pred := d_pred s;
     d_labels := d_labels s; d_distance := d_distance s; d_depth := d_depth s;
     d_limit := None; d_calls := d_calls s |}.

Lemma dij_limit_all starts known c n os r os' r' : (0 <= c)%Z ->
  dij_run vid WT DM PM LM next cfg starts known None n = (os, r) ->
  dij_run vid WT DM PM LM next cfg starts known (Some c) n = (os', r') ->
  (Z.of_nat (length (d_calls (outcome_state r'))) <= c)%Z /\
  ((Z.of_nat (length (d_calls (outcome_state r))) <= c)%Z ->
     os' = os /\ outcome_map dij_forget_limit r' = r) /\
  ((c < Z.of_nat (length (d_calls (outcome_state r))))%Z ->
     (exists s', r' = Raised RuntimeErrorLimit s') /\
     Z.of_nat (length (d_calls (outcome_state r'))) = c /\ exists ext, os = os' ++ ext).
Proof.
  intros Hc HR HR'.
  eapply (limit_all step d_limit (fun s => length (d_calls s)) dij_forget_limit); try eassumption; auto.
  - intros s. unfold result_state, dij_step. destruct (d_pc s) as [|v w k [|[[nn ew] l] rest]].
    + destruct (d_heap s) as [|[[w no] [v k]] h]; simpl; auto.
      destruct (_ && _); simpl; auto. destruct (limit_check (d_limit s)); simpl; auto.
    + simpl; auto.
    + cbv zeta. destruct (w_leb WT _ _); simpl; auto. destruct (_ && _); simpl; auto.
  - intros s. unfold dij_step at 1. change (d_pc (dij_forget_limit s)) with (d_pc s).
    change (d_heap (dij_forget_limit s)) with (d_heap s). change (d_distances (dij_forget_limit s)) with (d_distances s).
    destruct (d_pc s) as [|v w k [|[[nn ew] l] rest]] eqn:Hpc.
    + destruct (d_heap s) as [|[[w no] [v k]] h] eqn:Hh.
      * simpl. split; auto. eexists. unfold dij_step. rewrite Hpc, Hh. split; reflexivity.
      * destruct (negb (dc_is_tree cfg) && _) eqn:Hst.
        -- left. simpl. split; auto. eexists. unfold dij_step. rewrite Hpc, Hh, Hst. repeat split.
        -- right. simpl. unfold with_call. simpl. split; auto.
           unfold dij_step at 1 2. rewrite Hpc, Hh, Hst. cbv zeta. simpl.
           destruct (limit_check (d_limit s)) as [lm|] eqn:Hl.
           ++ eexists. repeat split.
           ++ eexists _, [], _. rewrite app_nil_r. split; [reflexivity|]. split; reflexivity.
    + left. simpl. split; auto. eexists. unfold dij_step. rewrite Hpc. repeat split.
    + cbv zeta. destruct (w_leb WT (w_inf WT) _) eqn:Hinf.
      * left. simpl. split; auto. exists s. unfold dij_step. rewrite Hpc. cbv zeta. rewrite Hinf. split; reflexivity.
      * destruct (negb (dc_is_tree cfg) && _) eqn:Hst; left; simpl; (split; [auto|]); eexists;
          unfold dij_step; rewrite Hpc; cbv zeta; rewrite Hinf, Hst; repeat split.
  - apply (limit_state_init (Some c)).
Qed.
End DijkstraLimit.
