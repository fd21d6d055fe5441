(** Breadth first search and neighbors-then-depth with option is_tree, on a graph that is a tree. *)
From Coq Require Import List ZArith Lia Bool Permutation.
From Verif Require Import Machine MachineSim Common GearSpec CommonProofs TraversalSpec DFSSpec TreeLike BFSModel NTDModel.
Import ListNotations.

Section BFSTree.
Context {V I L : Type}.
Variable vid : V -> I.
Variable VS : VSet I.
Variable PM : PMap I V.
Variable LM : PMap I L.
Variable next : V -> list (V * L).
Variable starts : list V.
Hypothesis HT : tree_like vid next starts.
Variables build labeled increase : bool.
Notation cfg t := {| bc_is_tree := t; bc_build_paths := build; bc_labeled := labeled; bc_report_depth_increase := increase |}.
Notation state := (@bfs_state V I L VS PM LM).
Notation report := (@bfs_report V I L VS PM LM).

(** What the user sees except for the set of visited vertices, that is not kept with is_tree. *)
Record bfs_same_seen (r1 r2 : report) : Prop := {
  bss_vertex : br_vertex r2 = br_vertex r1;
  bss_depth : br_depth r2 = br_depth r1;
  bss_pred : br_pred r2 = br_pred r1;
  bss_labels : br_labels r2 = br_labels r1
}.

Record bfs_same_rest (s1 s2 : state) : Prop := {
  bsr_pc : b_pc s2 = b_pc s1;
  bsr_to_expand : b_to_expand s2 = b_to_expand s1;
  bsr_next : b_next s2 = b_next s1;
  bsr_depth : b_depth s2 = b_depth s1;
  bsr_pred : b_pred s2 = b_pred s1;
  bsr_labels : b_labels s2 = b_labels s1;
  bsr_limit : b_limit s2 = b_limit s1;
  bsr_calls : b_calls s2 = b_calls s1
}.

Definition bcur (p : @bfs_pc V L) := match p with BEdges v r => Some (v, r) | _ => None end.
Record BT (s1 s2 : state) : Prop := {
  bt_same : bfs_same_rest s1 s2;
  bt_agenda : TreeAgenda vid next starts (b_calls s1) (bcur (b_pc s1)) (b_to_expand s1 ++ b_next s1);
  bt_visited : forall i, vs_mem VS i (b_visited s2) = true -> seen_so_far vid next starts (b_calls s1) (bcur (b_pc s1)) i
}.

Lemma BT_step s1 s2 : BT s1 s2 -> step_rel_weak BT bfs_same_rest bfs_same_seen
  (bfs_step vid VS PM LM next (cfg true) s1) (bfs_step vid VS PM LM next (cfg false) s2).
Proof.
  intros [HS HA HV]. pose proof HS as [R1 R2 R3 R4 R5 R6 R7 R8]. unfold bfs_step. rewrite R1, R2, R7.
  destruct (b_pc s1) as [| |v [|[n l] rest]] eqn:Hpc; simpl in HA, HV.
  - destruct (b_to_expand s1) as [|v q] eqn:Hex.
    + split; [constructor|]. constructor; simpl; auto. congruence.
    + split; [constructor|]. constructor; simpl; auto.
      * constructor; simpl; auto. congruence.
      * now rewrite Hex.
  - destruct (b_to_expand s1) as [|v q] eqn:Hex.
    + split.
      * cbn [bc_report_depth_increase]. rewrite R3. destruct increase; [|constructor]. destruct (rev (b_next s1)); constructor; [|constructor].
        constructor; simpl; auto.
      * constructor; simpl; auto.
        -- constructor; simpl; congruence.
        -- rewrite app_nil_r. exact HA.
    + destruct (limit_check (b_limit s1)); [|split; [constructor|]; auto].
      split; [constructor|]. simpl in HA. destruct (TreeAgenda_call _ _ _ _ _ _ HA) as [HA' Hs].
      constructor; simpl; auto. constructor; simpl; congruence.
  - split; [constructor|]. destruct (TreeAgenda_end _ _ _ _ _ _ HA) as [HA' Hs]. constructor; simpl; auto.
    constructor; simpl; auto.
  - assert (Hn := TreeAgenda_new _ _ _ HT _ _ _ _ _ _ HA). destruct (TreeAgenda_edge _ _ _ HT _ _ _ _ _ _ HA) as [HA' Hs].
    replace (vs_mem VS (vid n) (b_visited s2)) with false; [|symmetry; apply vs_mem_false_iff; intros C; apply Hn, HV, C]. simpl. split.
    + constructor; [|constructor]. constructor; simpl; auto; [now rewrite R5|now rewrite R6].
    + constructor; simpl; auto.
      * constructor; simpl; auto; [congruence|now rewrite R5|now rewrite R6].
      * eapply TreeAgenda_perm; [|exact HA']. rewrite app_assoc. apply Permutation_cons_append.
      * intros i Hi. apply Hs. apply vs_mem_add in Hi. destruct Hi as [->|Hi]; auto.
Qed.

Theorem bfs_tree_same lim n :
  Forall2 bfs_same_seen (fst (bfs_run vid VS PM LM next (cfg true) starts None lim n)) (fst (bfs_run vid VS PM LM next (cfg false) starts None lim n)) /\
  outcome_rel bfs_same_rest (snd (bfs_run vid VS PM LM next (cfg true) starts None lim n)) (snd (bfs_run vid VS PM LM next (cfg false) starts None lim n)).
Proof.
  apply run_sim_weak with (R := BT).
  - intros s1 s2 H. apply H.
  - exact BT_step.
  - constructor.
    + constructor; reflexivity.
    + simpl. rewrite app_nil_r. now apply TreeAgenda_init.
    + intros i Hi. apply (define_visited_mem VS None (map vid starts) i) in Hi. destruct Hi as [[]|Hi]. now left.
Qed.
End BFSTree.

Section NTDTree.
Context {V I L : Type}.
Variable vid : V -> I.
Variable VS : VSet I.
Variable PM : PMap I V.
Variable LM : PMap I L.
Variable next : V -> list (V * L).
Variable starts : list V.
Hypothesis HT : tree_like vid next starts.
Variables build labeled depth : bool.
Notation cfg t := {| nc_is_tree := t; nc_build_paths := build; nc_labeled := labeled; nc_compute_depth := depth |}.
Notation state := (@ntd_state V I L VS PM LM).
Notation report := (@ntd_report V I L VS PM LM).

Record ntd_same_seen (r1 r2 : report) : Prop := {
  nse_vertex : nr_vertex r2 = nr_vertex r1;
  nse_depth : nr_depth r2 = nr_depth r1;
  nse_pred : nr_pred r2 = nr_pred r1;
  nse_labels : nr_labels r2 = nr_labels r1
}.

Record ntd_same_rest (s1 s2 : state) : Prop := {
  nsr_pc : n_pc s2 = n_pc s1;
  nsr_to_expand : n_to_expand s2 = n_to_expand s1;
  nsr_markers : n_markers s2 = n_markers s1;
  nsr_loop_depth : n_loop_depth s2 = n_loop_depth s1;
  nsr_depth : n_depth s2 = n_depth s1;
  nsr_pred : n_pred s2 = n_pred s1;
  nsr_labels : n_labels s2 = n_labels s1;
  nsr_limit : n_limit s2 = n_limit s1;
  nsr_calls : n_calls s2 = n_calls s1
}.

Definition ncur (p : @ntd_pc V L) := match p with NEdges v r => Some (v, r) | _ => None end.
Record NT (s1 s2 : state) : Prop := {
  nt_same : ntd_same_rest s1 s2;
  nt_agenda : TreeAgenda vid next starts (map fst (n_calls s1)) (ncur (n_pc s1)) (n_to_expand s1);
  nt_visited : forall i, vs_mem VS i (n_visited s2) = true -> seen_so_far vid next starts (map fst (n_calls s1)) (ncur (n_pc s1)) i
}.

Lemma NT_step s1 s2 : NT s1 s2 -> step_rel_weak NT ntd_same_rest ntd_same_seen
  (ntd_step vid VS PM LM next (cfg true) s1) (ntd_step vid VS PM LM next (cfg false) s2).
Proof.
  intros [HS HA HV]. pose proof HS as [R1 R2 R3 R4 R5 R6 R7 R8 R9]. unfold ntd_step. rewrite R1, R2.
  destruct (n_pc s1) as [|v [|[n l] rest]] eqn:Hpc; simpl in HA, HV.
  - destruct (n_to_expand s1) as [|v q] eqn:Hex; [split; auto|].
    destruct (TreeAgenda_call _ _ _ _ _ _ HA) as [HA' Hs]. unfold ntd_enter. cbn [nc_compute_depth]. rewrite R3, R4. destruct depth.
    + destruct (ntd_leave _ _) as [[m d]|]; [|split; [constructor|]; auto]. simpl. rewrite R8. destruct (limit_check (n_limit s1)).
      * split; [constructor|]. constructor; simpl; auto. constructor; simpl; congruence.
      * split; [constructor|]. split; auto. constructor; simpl; congruence.
    + simpl. rewrite R8. destruct (limit_check (n_limit s1)).
      * split; [constructor|]. constructor; simpl; auto. constructor; simpl; congruence.
      * split; [constructor|]. split; auto. constructor; simpl; congruence.
  - split; [constructor|]. destruct (TreeAgenda_end _ _ _ _ _ _ HA) as [HA' Hs]. constructor; simpl; auto. constructor; simpl; auto.
  - assert (Hn := TreeAgenda_new _ _ _ HT _ _ _ _ _ _ HA). destruct (TreeAgenda_edge _ _ _ HT _ _ _ _ _ _ HA) as [HA' Hs].
    replace (vs_mem VS (vid n) (n_visited s2)) with false; [|symmetry; apply vs_mem_false_iff; intros C; apply Hn, HV, C]. simpl. split.
    + constructor; [|constructor]. constructor; simpl; auto; [now rewrite R6|now rewrite R7].
    + constructor; simpl; auto.
      * constructor; simpl; auto; [congruence|now rewrite R3|now rewrite R6|now rewrite R7].
      * intros i Hi. apply Hs. apply vs_mem_add in Hi. destruct Hi as [->|Hi]; auto.
Qed.

Theorem ntd_tree_same lim n :
  Forall2 ntd_same_seen (fst (ntd_run vid VS PM LM next (cfg true) starts None lim n)) (fst (ntd_run vid VS PM LM next (cfg false) starts None lim n)) /\
  outcome_rel ntd_same_rest (snd (ntd_run vid VS PM LM next (cfg true) starts None lim n)) (snd (ntd_run vid VS PM LM next (cfg false) starts None lim n)).
Proof.
  apply run_sim_weak with (R := NT).
  - intros s1 s2 H. apply H.
  - exact NT_step.
  - constructor.
    + constructor; reflexivity.
    + simpl. apply TreeAgenda_init; auto. apply Permutation_sym, Permutation_rev.
    + intros i Hi. apply (define_visited_mem VS None (map vid starts) i) in Hi. destruct Hi as [[]|Hi]. now left.
Qed.
End NTDTree.
