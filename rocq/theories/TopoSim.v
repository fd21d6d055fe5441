(** Two topological sorts in lock-step: other gear, other vertices with the same ids. *)
From Coq Require Import List ZArith Bool.
From Verif Require Import Machine MachineSim GearSpec Common BFSSim TopoModel.
Import ListNotations.

Section TopoSim.
Context {V1 V2 I L : Type}.
Variable I_dec : forall a b : I, {a = b} + {a <> b}.
Variable f : V1 -> V2.
Variable vid1 : V1 -> I.
Variable vid2 : V2 -> I.
Hypothesis Hvid : forall v, vid2 (f v) = vid1 v.
Variables VS1 VS2 : VSet I.
Variable PM1 : PMap I V1.
Variable PM2 : PMap I V2.
Variables LM1 LM2 : PMap I L.
Variable next1 : V1 -> list (V1 * L).
Variable next2 : V2 -> list (V2 * L).
Hypothesis Hnext : forall v, next2 (f v) = map (fe f) (next1 v).
Variable cfg : topo_cfg.

Definition tpc_map (p : @topo_pc V1 L) : @topo_pc V2 L :=
  match p with TWhile => TWhile | TEdges v r => TEdges (f v) (map (fe f) r) end.

Record topo_same_state (s1 : topo_state VS1 PM1 LM1) (s2 : topo_state VS2 PM2 LM2) : Prop := {
  tos_pc : t_pc s2 = tpc_map (t_pc s1);
  tos_stack : t_stack s2 = map f (t_stack s1);
  tos_trace : same_set VS1 VS2 (t_trace_set s1) (t_trace_set s2);
  tos_markers : t_markers s2 = t_markers s1;
  tos_depth : t_depth s2 = t_depth s1;
  tos_visited : same_set VS1 VS2 (t_visited s1) (t_visited s2);
  tos_pred : same_map f PM1 PM2 (t_pred s1) (t_pred s2);
  tos_labels : same_map (fun l => l) LM1 LM2 (t_labels s1) (t_labels s2);
  tos_cycle : t_cycle s2 = map f (t_cycle s1);
  tos_limit : t_limit s2 = t_limit s1;
  tos_calls : t_calls s2 = map (fun x => (f (fst x), snd x)) (t_calls s1)
}.

(** Reports with the same observable content. *)
Record topo_same_report (r1 : topo_report VS1 PM1 LM1) (r2 : topo_report VS2 PM2 LM2) : Prop := {
  tor_vertex : tr_vertex r2 = f (tr_vertex r1);
  tor_depth : tr_depth r2 = tr_depth r1;
  tor_visited : same_set VS1 VS2 (tr_visited r1) (tr_visited r2);
  tor_pred : same_map f PM1 PM2 (tr_pred r1) (tr_pred r2);
  tor_labels : same_map (fun l => l) LM1 LM2 (tr_labels r1) (tr_labels r2)
}.

Lemma observe_sim v s1 s2 : topo_same_state s1 s2 -> topo_same_report (topo_observe VS1 PM1 LM1 v s1) (topo_observe VS2 PM2 LM2 (f v) s2).
Proof. intros []. constructor; simpl; auto. Qed.

Lemma left_sim s1 s2 q m ts1 ts2 : topo_same_state s1 s2 -> same_set VS1 VS2 ts1 ts2 ->
  topo_same_state (topo_left VS1 PM1 LM1 s1 q m ts1) (topo_left VS2 PM2 LM2 s2 (map f q) m ts2).
Proof. intros [] H. constructor; simpl; auto. now rewrite tos_depth0. Qed.

Lemma drop_sim s1 s2 q : topo_same_state s1 s2 -> topo_same_state (topo_drop VS1 PM1 LM1 s1 q) (topo_drop VS2 PM2 LM2 s2 (map f q)).
Proof. intros []. constructor; simpl; auto. Qed.

Lemma enter_sim s1 s2 v : topo_same_state s1 s2 -> topo_same_state (topo_enter vid1 VS1 PM1 LM1 s1 v) (topo_enter vid2 VS2 PM2 LM2 s2 (f v)).
Proof.
  intros []. constructor; simpl; auto; rewrite ?tos_depth0, ?Hvid.
  - now apply same_set_add.
  - destruct (0 <? t_depth s1)%Z; auto. now apply same_set_add.
Qed.

Lemma mark_sim s1 s2 m : topo_same_state s1 s2 -> topo_same_state (topo_mark VS1 PM1 LM1 s1 m) (topo_mark VS2 PM2 LM2 s2 m).
Proof. intros []. constructor; simpl; auto. Qed.

Lemma go_expand_sim s1 s2 v : topo_same_state s1 s2 ->
  step_rel topo_same_state topo_same_report (topo_go_expand VS1 PM1 LM1 next1 s1 v) (topo_go_expand VS2 PM2 LM2 next2 s2 (f v)).
Proof.
  intros H. unfold topo_go_expand. rewrite (tos_limit _ _ H). destruct (limit_check _); simpl.
  - split; [constructor|]. destruct H. constructor; simpl; auto; congruence.
  - split; [constructor|]. auto.
Qed.

Lemma push_sim s1 s2 v n l rest : topo_same_state s1 s2 ->
  topo_same_state (topo_push vid1 VS1 PM1 LM1 cfg s1 v n l rest) (topo_push vid2 VS2 PM2 LM2 cfg s2 (f v) (f n) l (map (fe f) rest)).
Proof.
  intros []. constructor; simpl; auto; rewrite ?Hvid.
  - now rewrite tos_stack0.
  - now rewrite tos_markers0.
  - destruct (tc_build_paths cfg); auto. now apply same_map_set.
  - destruct (_ && _); auto. now apply (same_map_set I_dec (fun x : L => x)).
Qed.

Lemma deeper_sim s1 s2 : topo_same_state s1 s2 -> topo_same_state (topo_deeper VS1 PM1 LM1 s1) (topo_deeper VS2 PM2 LM2 s2).
Proof. intros []. constructor; simpl; auto. congruence. Qed.

Lemma cycle_sim s1 s2 n : topo_same_state s1 s2 ->
  topo_same_state (topo_report_cycle vid1 VS1 PM1 LM1 s1 n) (topo_report_cycle vid2 VS2 PM2 LM2 s2 (f n)).
Proof.
  intros []. constructor; simpl; auto. rewrite tos_stack0, map_app, <- map_rev. f_equal.
  induction (rev (t_stack s1)) as [|a b IH]; simpl; auto. rewrite Hvid, (tos_trace0 (vid1 a)), IH. destruct (vs_mem VS2 (vid1 a) (t_trace_set s2)); reflexivity.
Qed.

Lemma topo_step_sim s1 s2 : topo_same_state s1 s2 ->
  step_rel topo_same_state topo_same_report
    (topo_step vid1 VS1 PM1 LM1 next1 cfg s1) (topo_step vid2 VS2 PM2 LM2 next2 cfg s2).
Proof.
  intros H. unfold topo_step, topo_step_tree, topo_step_graph. rewrite (tos_pc _ _ H), (tos_stack _ _ H), (tos_markers _ _ H), (tos_depth _ _ H).
  destruct (tc_is_tree cfg); destruct (t_pc s1) as [|v [|[n l] rest]] eqn:Hpc; cbn [tpc_map map fe fst snd].
  - destruct (t_stack s1) as [|v q]; cbn [map]; [split; auto|]. destruct (t_markers s1) as [|[] m].
    + split; [constructor|]. auto.
    + split; [constructor; [apply observe_sim|constructor]|]; apply left_sim; auto; apply H.
    + apply go_expand_sim, mark_sim, H.
  - split; [constructor|]. now apply deeper_sim.
  - split; [constructor|]. now apply push_sim.
  - destruct (t_stack s1) as [|v q]; cbn [map]; [split; auto|]. rewrite Hvid, (tos_trace _ _ H (vid1 v)), (tos_visited _ _ H (vid1 v)).
    destruct (vs_mem VS2 (vid1 v) (t_trace_set s2)).
    + assert (HD : same_set VS1 VS2 (vs_discard VS1 (vid1 v) (t_trace_set s1)) (vs_discard VS2 (vid1 v) (t_trace_set s2))) by (apply same_set_discard, H).
      split; [constructor; [apply observe_sim|constructor]|]; apply left_sim; auto.
    + destruct (_ && _); [split; [constructor|now apply drop_sim]|]. apply go_expand_sim, enter_sim, H.
  - split; [constructor|]. now apply deeper_sim.
  - rewrite Hvid, (tos_trace _ _ H (vid1 n)), (tos_visited _ _ H (vid1 n)). destruct (vs_mem VS2 (vid1 n) (t_visited s2)).
    + destruct (vs_mem VS2 (vid1 n) (t_trace_set s2)).
      * split; [constructor|]. split; auto. now apply cycle_sim.
      * split; [constructor|]. destruct H; constructor; simpl; auto.
    + split; [constructor|]. now apply push_sim.
Qed.

Lemma topo_sim starts av1 av2 lim n :
  match av1, av2 with
  | None, None => True
  | Some a, Some b => same_set VS1 VS2 a b
  | _, _ => False
  end ->
  Forall2 topo_same_report (fst (topo_run vid1 VS1 PM1 LM1 next1 cfg starts av1 lim n))
                          (fst (topo_run vid2 VS2 PM2 LM2 next2 cfg (map f starts) av2 lim n)) /\
  outcome_rel topo_same_state (snd (topo_run vid1 VS1 PM1 LM1 next1 cfg starts av1 lim n))
                          (snd (topo_run vid2 VS2 PM2 LM2 next2 cfg (map f starts) av2 lim n)).
Proof.
  intros Hav. apply run_sim with (R := topo_same_state); [exact topo_step_sim|].
  constructor; simpl; auto.
  - now rewrite map_rev.
  - intros i. rewrite (proj2 (vs_mem_false_iff VS1 i _)), (proj2 (vs_mem_false_iff VS2 i _)); auto; rewrite vs_mem_empty; discriminate.
  - now rewrite map_map.
  - replace (map vid2 (map f starts)) with (map vid1 starts).
    + now apply same_define_visited.
    + rewrite map_map. apply map_ext. auto.
  - apply same_predecessors; auto.
  - apply same_map_empty.
Qed.
End TopoSim.

Lemma topo_gear {V I L : Type} (I_dec : forall a b : I, {a = b} + {a <> b}) (vid : V -> I)
    (VS1 VS2 : VSet I) (PM1 PM2 : PMap I V) (LM1 LM2 : PMap I L)
    (next : V -> list (V * L)) (cfg : topo_cfg) (starts : list V) av1 av2 lim n :
  match av1, av2 with
  | None, None => True
  | Some a, Some b => same_set VS1 VS2 a b
  | _, _ => False
  end ->
  let p1 := topo_run vid VS1 PM1 LM1 next cfg starts av1 lim n in
  let p2 := topo_run vid VS2 PM2 LM2 next cfg starts av2 lim n in
  Forall2 (topo_same_report (fun v => v) VS1 VS2 PM1 PM2 LM1 LM2) (fst p1) (fst p2) /\
  outcome_rel (topo_same_state (fun v => v) VS1 VS2 PM1 PM2 LM1 LM2) (snd p1) (snd p2).
Proof.
  intros Hav p1 p2.
  assert (Hn : forall v : V, next v = map (fe (fun v : V => v)) (next v)).
  { intros v. rewrite <- (map_id (next v)) at 1. apply map_ext. now intros [a b]. }
  pose proof (topo_sim I_dec (fun v : V => v) vid vid (fun v => eq_refl) VS1 VS2 PM1 PM2 LM1 LM2
                next next Hn cfg starts av1 av2 lim n Hav) as H.
  rewrite map_id in H. exact H.
Qed.

Lemma topo_ids_only {V I L : Type} (I_dec : forall a b : I, {a = b} + {a <> b}) (vid : V -> I)
    (VS : VSet I) (PM : PMap I V) (PMI : PMap I I) (LM : PMap I L)
    (next : V -> list (V * L)) (next_id : I -> list (I * L)) (cfg : topo_cfg) (starts : list V) av lim n :
  (forall v, next_id (vid v) = map (fun e => (vid (fst e), snd e)) (next v)) ->
  let p1 := topo_run vid VS PM LM next cfg starts av lim n in
  let p2 := topo_run (fun i => i) VS PMI LM next_id cfg (map vid starts) av lim n in
  Forall2 (topo_same_report vid VS VS PM PMI LM LM) (fst p1) (fst p2) /\
  outcome_rel (topo_same_state vid VS VS PM PMI LM LM) (snd p1) (snd p2).
Proof.
  intros Hn p1 p2.
  apply (topo_sim I_dec vid vid (fun i : I => i) (fun v => eq_refl) VS VS PM PMI LM LM
                next next_id Hn cfg starts av av lim n).
  destruct av; auto. intros i. reflexivity.
Qed.
