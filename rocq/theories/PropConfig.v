(** Detection of configuration errors: C50. *)
From Coq Require Import List.
From Verif Require Import Common BiBFSModel.
Import ListNotations.

(** Number of arguments that are given. *)
Definition given {A} (o : option A) : nat := match o with Some _ => 1 | None => 0 end.

(** C50. The functions that read the configuration raise RuntimeError if and only if not exactly one
    of the alternative arguments is given; otherwise they use exactly the given argument. *)
Theorem C50_configuration_errors :
  (forall {V} (start_vertex : option V) (start_vertices : option (list V)),
     (given start_vertex + given start_vertices <> 1 <->
        start_vertices_of start_vertex start_vertices = inr RuntimeErrorConfig) /\
     (forall v, start_vertex = Some v -> start_vertices = None ->
        start_vertices_of start_vertex start_vertices = inl [v]) /\
     (forall l, start_vertex = None -> start_vertices = Some l ->
        start_vertices_of start_vertex start_vertices = inl l)) /\
  (forall {F} (next_vertices next_edges next_labeled_edges : option F),
     (given next_vertices + given next_edges + given next_labeled_edges <> 1 <->
        create_unified_next next_vertices next_edges next_labeled_edges = inr RuntimeErrorConfig) /\
     (forall f with_data labeled,
        create_unified_next next_vertices next_edges next_labeled_edges = inl (f, with_data, labeled) <->
        (next_vertices = Some f /\ next_edges = None /\ next_labeled_edges = None /\
           with_data = false /\ labeled = false) \/
        (next_vertices = None /\ next_edges = Some f /\ next_labeled_edges = None /\
           with_data = true /\ labeled = false) \/
        (next_vertices = None /\ next_edges = None /\ next_labeled_edges = Some f /\
           with_data = true /\ labeled = true))) /\
  (forall {F} (next_edges next_labeled_edges : option F),
     (given next_edges + given next_labeled_edges <> 1 <->
        create_unified_next_weighted next_edges next_labeled_edges = inr RuntimeErrorConfig) /\
     (forall f labeled,
        create_unified_next_weighted next_edges next_labeled_edges = inl (f, labeled) <->
        (next_edges = Some f /\ next_labeled_edges = None /\ labeled = false) \/
        (next_edges = None /\ next_labeled_edges = Some f /\ labeled = true))).
Proof.
  split; [|split].
  - intros V [v|] [l|]; simpl; intuition congruence.
  - intros F [f1|] [f2|] [f3|]; simpl; split; try (intuition congruence);
      intros; split; intros H; try (injection H as <- <- <-); intuition congruence.
  - intros F [f1|] [f2|]; simpl; split; try (intuition congruence);
      intros; split; intros H; try (injection H as <- <-); intuition congruence.
Qed.
Print Assumptions C50_configuration_errors.

Example C50_example :
  start_vertices_of (Some 3) None = inl [3] /\ start_vertices_of (Some 3) (Some [4]) = inr RuntimeErrorConfig /\
  create_unified_next None (Some 1) (Some 2) = inr RuntimeErrorConfig.
Proof. repeat split. Qed.

(** C50 for the bidirectional searches: the same about the pairs of start and goal vertices, and about the pairs of neighbor functions. *)
Theorem C50_bidirectional_configuration_errors :
  (forall {V} (start_and_goal_vertex : option (V * V)) (start_and_goal_vertices : option (list V * list V)),
     (given start_and_goal_vertex + given start_and_goal_vertices <> 1 <->
        start_and_goal_vertices_of start_and_goal_vertex start_and_goal_vertices = inr RuntimeErrorConfig) /\
     (forall s g, start_and_goal_vertex = Some (s, g) -> start_and_goal_vertices = None ->
        start_and_goal_vertices_of start_and_goal_vertex start_and_goal_vertices = inl ([s], [g])) /\
     (forall ss gs, start_and_goal_vertex = None -> start_and_goal_vertices = Some (ss, gs) ->
        start_and_goal_vertices_of start_and_goal_vertex start_and_goal_vertices = inl (ss, gs))) /\
  (forall {F} (next_vertices next_edges next_labeled_edges : option (F * F)),
     (given next_vertices + given next_edges + given next_labeled_edges <> 1 <->
        create_unified_next_bidirectional next_vertices next_edges next_labeled_edges = inr RuntimeErrorConfig) /\
     (forall f with_data labeled,
        create_unified_next_bidirectional next_vertices next_edges next_labeled_edges = inl (f, with_data, labeled) <->
        (next_vertices = Some f /\ next_edges = None /\ next_labeled_edges = None /\ with_data = false /\ labeled = false) \/
        (next_vertices = None /\ next_edges = Some f /\ next_labeled_edges = None /\ with_data = true /\ labeled = false) \/
        (next_vertices = None /\ next_edges = None /\ next_labeled_edges = Some f /\ with_data = true /\ labeled = true))) /\
  (forall {F} (next_edges next_labeled_edges : option (F * F)),
     (given next_edges + given next_labeled_edges <> 1 <->
        create_unified_next_weighted_bidirectional next_edges next_labeled_edges = inr RuntimeErrorConfig) /\
     (forall f labeled,
        create_unified_next_weighted_bidirectional next_edges next_labeled_edges = inl (f, labeled) <->
        (next_edges = Some f /\ next_labeled_edges = None /\ labeled = false) \/
        (next_edges = None /\ next_labeled_edges = Some f /\ labeled = true))).
Proof.
  split; [|split].
  - intros V [[v w]|] [[l k]|]; simpl; intuition congruence.
  - intros F [f1|] [f2|] [f3|]; simpl; split; try (intuition congruence);
      intros; split; intros H; try (injection H as <- <- <-); intuition congruence.
  - intros F [f1|] [f2|]; simpl; split; try (intuition congruence);
      intros; split; intros H; try (injection H as <- <-); intuition congruence.
Qed.
Print Assumptions C50_bidirectional_configuration_errors.

Example C50_bidirectional_example :
  start_and_goal_vertices_of (Some (3, 4)) None = inl ([3], [4]) /\ start_and_goal_vertices_of (Some (3, 4)) (Some ([4], [5])) = inr RuntimeErrorConfig /\
  create_unified_next_bidirectional None (Some (1, 2)) (Some (3, 4)) = inr RuntimeErrorConfig.
Proof. repeat split. Qed.
