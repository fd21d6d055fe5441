(** Example graphs for the program iterative_deepening_dfs. *)
From Coq Require Import List Bool Arith ZArith Lia.
From Verif Require Import Machine GearSpec Common Spec DFSModel DFSSpec SCCSpec IddfsSpec IddfsModel IddfsProofs Examples DFSExamples LongestExamples.
Import ListNotations.
Open Scope nat_scope.

Definition id_run {L} (next : nat -> list (nat * L)) (mode : dfs_mode) (starts goals : list nat) (rounds n : nat) := iddfs Nat.eq_dec hVS hPM hPM hXM next mode starts goals rounds n 0.

(** One vertex with a loop *)
Definition self_next (v : nat) : list (nat * nat) := match v with 0 => [(0, 0)] | _ => [] end.
Lemma self_walks w v : walk (edge_of self_next) 0 w v -> v = 0.
Proof.
  intros H. remember 0 as a eqn:Ea in H at 1. revert Ea. induction H as [i|i j p k Hij Hw IH]; intros Ea; [exact Ea|]. subst i. apply IH. destruct Hij as [<-|[]]. reflexivity.
Qed.
Lemma self_positions n : exists q, dnode self_next [0] ((0, 0) :: q) /\ length q = n.
Proof. induction n as [|n (q & H1 & H2)]; [exists []; split; [constructor; reflexivity|reflexivity]|]. exists ((0, 0) :: q). split; [econstructor; [exact H1|reflexivity]|cbn; lia]. Qed.
Lemma self_never rounds n : id_run self_next ALL_WALKS [0] [1] rounds n = Unfinished.
Proof.
  unfold id_run. pose proof (iddfs_sound Nat.eq_dec hVS hPM hPM hXM self_next ALL_WALKS [0] [1] ltac:(discriminate) rounds n) as H1.
  pose proof (iddfs_correct Nat.eq_dec hVS hPM hPM hXM self_next ALL_WALKS [0] [1] ltac:(discriminate) rounds n 0 (start_length self_next ALL_WALKS [0] [1])) as H2.
  destruct (iddfs Nat.eq_dec hVS hPM hPM hXM self_next ALL_WALKS [0] [1] rounds n 0) as [t| | | |x]; [exfalso|exfalso|destruct H1|reflexivity|destruct H1].
  - destruct H1 as ((s & w & g & _ & [<-|[]] & Hw & [<-|[]]) & _). apply self_walks in Hw. discriminate.
  - destruct H2 as (D & _ & H2). destruct (self_positions D) as (q & Q1 & Q2). specialize (H2 _ 0 Q1 ltac:(intros K; discriminate)). cbn in H2. rewrite Q2 in H2. specialize (H2 eq_refl ltac:(do 2 eexists; reflexivity)). discriminate.
Qed.
