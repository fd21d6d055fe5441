(** Results about A* in the form used by the property theorems. *)
From Coq Require Import List ZArith Bool.
From Verif Require Import Machine GearSpec Spec TraversalSpec Common PathsModel PathsSpec PathsExact Weight WeightSpec
  HeapModel DijkstraModel AStarModel AStarSpec AStarProofs AStarMore AStarRun.
Import ListNotations.

Section AStarFinal.
Context {V I L : Type}.
Variable V_dec : forall a b : V, {a = b} + {a <> b}.
Variable I_dec : forall a b : I, {a = b} + {a <> b}.
Variable vid : V -> I.
Variable WT : Weights.
Variable DM : DMap I (w_t WT) (w_inf WT).
Variable PM : PMap I V.
Variable LM : PMap I L.
Variable next : V -> list (V * w_t WT * L).
Variable cfg : ast_cfg.
Hypothesis Htree : ac_is_tree cfg = false.
Variable E : I -> w_t WT -> I -> Prop.
Hypothesis Hnext : presents_weighted WT vid next E.
Hypothesis Hnn : nonnegative WT E.
Hypothesis Hex : exact WT.
Variable heuristic : V -> w_t WT.
Variable hI : I -> w_t WT.
Hypothesis Hh : forall v, heuristic v = hI (vid v).
Variable starts : list V.
Notation St := (is_start vid starts).

Section Run.
Variables (lim : option Z) (n : nat) (os : list (@ast_report V I L WT DM PM LM)) (r : outcome (@ast_state V I L WT DM PM LM) exn).
Hypothesis HR : ast_run vid WT DM PM LM next cfg heuristic starts None None lim n = (os, r).

Definition path_at (rep : @ast_report V I L WT DM PM LM) : Prop :=
  exists s0 p, In s0 starts /\ chain next s0 p (ar_vertex rep) /\
     chain_weight WT (w_zero WT) p = ar_path_length rep /\ length p = ar_depth rep /\
     delivers_exactly V_dec vid PM LM (ar_pred rep) (ar_labels rep) (ac_labeled cfg) (ar_vertex rep)
       (chain_vertices s0 p) (chain_edges s0 p).

Lemma ast_goal_all Goal : admissible WT E hI Goal -> (forall g, Goal g -> hI g = w_zero WT) ->
  (forall g, Goal g -> ~ St g) ->
  forall o1 rep o2, os = o1 ++ rep :: o2 -> Goal (vid (ar_vertex rep)) ->
  (forall rep', In rep' o1 -> ~ Goal (vid (ar_vertex rep'))) ->
  is_goal_distance WT E St Goal (ar_path_length rep) /\
  (ac_build_paths cfg = true -> starts_distinct vid starts -> finite_estimates WT hI -> path_at rep).
Proof.
  intros Ha Hz Hg o1 rep o2 Heq Hgr Hf.
  assert (HG : is_goal_distance WT E St Goal (ar_path_length rep)).
  { eapply (ast_goal I_dec vid WT DM PM LM next cfg Htree E Hnext Hnn Hex heuristic hI Hh starts lim n os r HR); eauto. }
  split; auto. intros Hb Hd Hfin.
  apply (ast_paths_min I_dec vid WT DM PM LM next cfg Htree E Hnext Hnn Hex heuristic hI Hh starts lim n os r HR); auto.
  - subst os. apply in_app_iff. right. now left.
  - intros s p Hs Hw. destruct HG as [_ HG]. apply (HG s p (vid (ar_vertex rep))); auto.
Qed.

Lemma ast_consistent_all : consistent WT E hI -> finite_estimates WT hI ->
  NoDup (ast_ids vid os) /\
  (forall rep, In rep os -> is_distance WT E St (vid (ar_vertex rep)) (ar_path_length rep)) /\
  (ac_build_paths cfg = true -> starts_distinct vid starts -> forall rep, In rep os -> path_at rep).
Proof.
  intros Hc Hf.
  destruct (ast_consistent I_dec vid WT DM PM LM next cfg Htree E Hnext Hnn Hex heuristic hI Hh starts lim n os r HR Hc Hf)
    as [H1 H2]. split; [auto|split; [auto|]]. intros Hb Hd rep Hin.
  apply (ast_paths_min I_dec vid WT DM PM LM next cfg Htree E Hnext Hnn Hex heuristic hI Hh starts lim n os r HR); auto.
  intros s p. apply (proj2 (H2 rep Hin)).
Qed.

Lemma ast_overflow_all :
  (forall rep, In rep os -> w_ltb WT (ar_path_length rep) (w_inf WT) = true /\
     forall i, dm_get DM i (ar_distances rep) = w_inf WT \/ w_ltb WT (dm_get DM i (ar_distances rep)) (w_inf WT) = true) /\
  (forall s', r = Raised OverflowErrorDistance s' ->
     exists s p i w j, St s /\ wwalk WT E s p i /\ E i w j /\
       (w_leb WT (w_inf WT) (w_add WT w (walk_weight WT p)) = true \/
        (hI j <> w_inf WT /\ w_leb WT (w_inf WT) (w_add WT (w_add WT w (walk_weight WT p)) (hI j)) = true))) /\
  (forall s', r = Ended s' ->
     forall i d w j, is_distance WT E St i d -> E i w j -> w_ltb WT (w_add WT w d) (w_inf WT) = true).
Proof.
  split; [|split].
  - intros rep Hin.
    destruct (ast_sound I_dec vid WT DM PM LM next cfg Htree E Hnext Hnn Hex heuristic hI Hh starts lim n os r HR rep Hin)
      as (H1 & _ & _ & _ & H2). auto.
  - apply (ast_overflow_cause I_dec vid WT DM PM LM next cfg Htree E Hnext Hnn Hex heuristic hI Hh starts lim n os r HR).
  - intros s' Hr.
    destruct (ast_ended I_dec vid WT DM PM LM next cfg Htree E Hnext Hnn Hex heuristic hI Hh starts lim n os r HR s' Hr)
      as (_ & _ & H). exact H.
Qed.
End Run.

Lemma ast_any_all :
  (forall lim n os r, ast_run vid WT DM PM LM next cfg heuristic starts None None lim n = (os, r) ->
     (forall rep, In rep os -> ~ St (vid (ar_vertex rep)) /\
        exists s p, St s /\ wwalk WT E s p (vid (ar_vertex rep)) /\ walk_weight WT p = ar_path_length rep) /\
     (forall s', r = Ended s' ->
        (forall i, wreachable WT E St i -> is_distance WT E St i (dm_get DM i (a_distances s')) /\
           (St i \/ exists rep, In rep os /\ vid (ar_vertex rep) = i /\ ar_path_length rep = dm_get DM i (a_distances s'))) /\
        (forall i, ~ wreachable WT E St i -> dm_get DM i (a_distances s') = w_inf WT))) /\
  (forall ids, (forall i, wreachable WT E St i -> In i ids) ->
     exists n os s, ast_run vid WT DM PM LM next cfg heuristic starts None None None n = (os, Ended s) \/
       ast_run vid WT DM PM LM next cfg heuristic starts None None None n = (os, Raised OverflowErrorDistance s)).
Proof.
  split.
  - intros lim n os r HR. split.
    + intros rep Hin.
      destruct (ast_sound I_dec vid WT DM PM LM next cfg Htree E Hnext Hnn Hex heuristic hI Hh starts lim n os r HR rep Hin)
        as (_ & H1 & H2 & _). auto.
    + intros s' Hr.
      destruct (ast_ended I_dec vid WT DM PM LM next cfg Htree E Hnext Hnn Hex heuristic hI Hh starts lim n os r HR s' Hr)
        as (H1 & H2 & _). auto.
  - intros ids Hids.
    exact (ast_terminates I_dec vid WT DM PM LM next cfg Htree E Hnext Hnn Hex heuristic hI Hh starts ids Hids).
Qed.
End AStarFinal.
