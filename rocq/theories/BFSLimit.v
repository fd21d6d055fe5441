(** The calculation limit of breadth first search. *)
From Coq Require Import List ZArith Bool Lia.
From Verif Require Import Machine GearSpec Common CommonProofs LimitSim BFSModel.
Import ListNotations.

Section BFSLimit.
Context {V I L : Type}.
Variable vid : V -> I.
Variable VS : VSet I.
Variable PM : PMap I V.
Variable LM : PMap I L.
Variable next : V -> list (V * L).
Variable cfg : bfs_cfg.
Notation state := (@bfs_state V I L VS PM LM).
Notation step := (bfs_step vid VS PM LM next cfg).

(** The same state without a limit. *)
Definition bfs_forget_limit (s : state) : state :=
  {| b_pc := b_pc s; b_to_expand := b_to_expand s; b_next := b_next s; b_depth := b_depth s;
     b_visited := b_visited s; b_pred := b_pred s; b_labels := b_labels s;
     b_limit := None; b_calls := b_calls s |}.

Lemma bfs_limit starts av n k os r : (0 <= n)%Z ->
  run step k (bfs_init vid VS PM LM cfg starts av None) = (os, r) ->
  ((Z.of_nat (length (b_calls (outcome_state r))) <= n)%Z ->
   exists r', run step k (bfs_init vid VS PM LM cfg starts av (Some n)) = (os, r') /\
              outcome_map bfs_forget_limit r' = r) /\
  ((n < Z.of_nat (length (b_calls (outcome_state r))))%Z ->
   exists os1 ext s', os = os1 ++ ext /\
     run step k (bfs_init vid VS PM LM cfg starts av (Some n)) = (os1, Raised RuntimeErrorLimit s') /\
     Z.of_nat (length (b_calls s')) = n).
Proof.
  intros Hn HR.
  apply (limit_sim step b_limit (fun s => length (b_calls s)) bfs_forget_limit); auto.
  - intros s. unfold result_state, bfs_step. destruct (b_pc s) as [| |v [|[w l] rest]].
    + destruct (b_to_expand s); simpl; auto.
    + destruct (b_to_expand s); simpl; auto. destruct (limit_check (b_limit s)); simpl; auto.
    + simpl; auto.
    + destruct (_ && _); simpl; auto.
  - intros s. unfold bfs_step at 1, bfs_forget_limit at 1. simpl.
    destruct (b_pc s) as [| |v [|[w l] rest]] eqn:Hpc.
    + destruct (b_to_expand s) as [|u q] eqn:Hte.
      * simpl. split; auto. eexists. unfold bfs_step. rewrite Hpc, Hte. split; reflexivity.
      * left. simpl. split; auto. eexists. unfold bfs_step. rewrite Hpc, Hte. repeat split.
    + destruct (b_to_expand s) as [|u q] eqn:Hte.
      * left. simpl. split; auto. eexists. unfold bfs_step. rewrite Hpc, Hte. repeat split.
      * right. simpl. unfold with_call. simpl. split; auto.
        unfold bfs_step at 1 2. rewrite Hpc, Hte.
        destruct (limit_check (b_limit s)) as [l|] eqn:Hl.
        -- eexists. repeat split.
        -- exists [], [], s. repeat split.
    + left. simpl. split; auto. eexists. unfold bfs_step. rewrite Hpc. repeat split.
    + unfold bfs_forget_limit. simpl. destruct (_ && _) eqn:Hc.
      * left. simpl. split; auto. eexists. unfold bfs_step. rewrite Hpc, Hc. repeat split.
      * left. simpl. split; auto. eexists. unfold bfs_step. rewrite Hpc, Hc. repeat split.
  - apply (limit_state_init (Some n)).
Qed.
End BFSLimit.
