(** Two neighbors-then-depth traversals in lock-step: other gear, other vertices with the same ids. *)
From Coq Require Import List ZArith Bool.
From Verif Require Import Machine MachineSim GearSpec Common BFSSim NTDModel.
Import ListNotations.

Section NTDSim.
Context {V1 V2 I L : Type}.
Variable I_dec : forall a b : I, {a = b} + {a <> b}.
Variable f : V1 -> V2.
Variable vid1 : V1 -> I.
Variable vid2 : V2 -> I.
Hypothesis Hvid : forall v, vid2 (f v) = vid1 v.
Variables VS1 VS2 : VSet I.
Variable PM1 : PMap I V1.
Variable PM2 : PMap I V2.
Variables LM1 LM2 : PMap I L.
Variable next1 : V1 -> list (V1 * L).
Variable next2 : V2 -> list (V2 * L).
Hypothesis Hnext : forall v, next2 (f v) = map (fe f) (next1 v).
Variable cfg : ntd_cfg.

Definition npc_map (p : @ntd_pc V1 L) : @ntd_pc V2 L :=
  match p with NWhile => NWhile | NEdges v r => NEdges (f v) (map (fe f) r) end.

Record ntd_same_state (s1 : ntd_state VS1 PM1 LM1) (s2 : ntd_state VS2 PM2 LM2) : Prop := {
  nss_pc : n_pc s2 = npc_map (n_pc s1);
  nss_te : n_to_expand s2 = map f (n_to_expand s1);
  nss_markers : n_markers s2 = n_markers s1;
  nss_ld : n_loop_depth s2 = n_loop_depth s1;
  nss_depth : n_depth s2 = n_depth s1;
  nss_visited : same_set VS1 VS2 (n_visited s1) (n_visited s2);
  nss_pred : same_map f PM1 PM2 (n_pred s1) (n_pred s2);
  nss_labels : same_map (fun l => l) LM1 LM2 (n_labels s1) (n_labels s2);
  nss_limit : n_limit s2 = n_limit s1;
  nss_calls : n_calls s2 = map (fun x => (f (fst x), snd x)) (n_calls s1)
}.

(** Reports with the same observable content. *)
Record ntd_same_report (r1 : ntd_report VS1 PM1 LM1) (r2 : ntd_report VS2 PM2 LM2) : Prop := {
  nsr_vertex : nr_vertex r2 = f (nr_vertex r1);
  nsr_depth : nr_depth r2 = nr_depth r1;
  nsr_visited : same_set VS1 VS2 (nr_visited r1) (nr_visited r2);
  nsr_pred : same_map f PM1 PM2 (nr_pred r1) (nr_pred r2);
  nsr_labels : same_map (fun l => l) LM1 LM2 (nr_labels r1) (nr_labels r2)
}.

Lemma ntd_step_sim s1 s2 : ntd_same_state s1 s2 ->
  step_rel ntd_same_state ntd_same_report
    (ntd_step vid1 VS1 PM1 LM1 next1 cfg s1) (ntd_step vid2 VS2 PM2 LM2 next2 cfg s2).
Proof.
  intros H. unfold ntd_step. rewrite (nss_pc _ _ H), (nss_te _ _ H).
  destruct (n_pc s1) as [|v [|[n l] rest]] eqn:Hpc; cbn [npc_map map fe fst snd].
  - destruct (n_to_expand s1) as [|u q] eqn:Hte; cbn [map].
    + split; auto.
    + unfold ntd_enter. rewrite (nss_markers _ _ H), (nss_ld _ _ H). destruct (nc_compute_depth cfg).
      * destruct (ntd_leave _ _) as [[m d]|]; [|split; [apply Forall2_nil|]; auto].
        cbn [n_limit]. rewrite (nss_limit _ _ H). destruct (limit_check (n_limit s1)); (split; [apply Forall2_nil|]).
        -- destruct H; constructor; simpl; auto; [now rewrite Hnext|congruence].
        -- split; auto. destruct H; constructor; simpl; auto; congruence.
      * cbn [n_limit]. rewrite (nss_limit _ _ H). destruct (limit_check (n_limit s1)); (split; [apply Forall2_nil|]).
        -- destruct H; constructor; simpl; auto; [now rewrite Hnext|congruence].
        -- split; auto. destruct H; constructor; simpl; auto; congruence.
  - split; [apply Forall2_nil|]. destruct H; constructor; simpl; auto.
  - rewrite Hvid, (nss_visited _ _ H (vid1 n)). destruct (_ && _); cbn [step_rel].
    + split; [apply Forall2_nil|]. destruct H; constructor; simpl; auto.
    + assert (HV : same_set VS1 VS2 (if nc_is_tree cfg then n_visited s1 else vs_add VS1 (vid1 n) (n_visited s1))
                     (if nc_is_tree cfg then n_visited s2 else vs_add VS2 (vid2 (f n)) (n_visited s2))).
      { rewrite Hvid. destruct (nc_is_tree cfg); [apply H|apply same_set_add, H]. }
      assert (HP : same_map f PM1 PM2 (if nc_build_paths cfg then pm_set PM1 (vid1 n) v (n_pred s1) else n_pred s1)
                     (if nc_build_paths cfg then pm_set PM2 (vid2 (f n)) (f v) (n_pred s2) else n_pred s2)).
      { rewrite Hvid. destruct (nc_build_paths cfg); [apply same_map_set; auto; apply H|apply H]. }
      assert (HL : same_map (fun x => x) LM1 LM2
                     (if nc_build_paths cfg && nc_labeled cfg then pm_set LM1 (vid1 n) l (n_labels s1) else n_labels s1)
                     (if nc_build_paths cfg && nc_labeled cfg then pm_set LM2 (vid2 (f n)) l (n_labels s2) else n_labels s2)).
      { rewrite Hvid. destruct (_ && _); [apply (same_map_set I_dec (fun x : L => x)); apply H|apply H]. }
      split.
      * apply Forall2_cons; [|apply Forall2_nil]. constructor; simpl; auto; apply H.
      * constructor; simpl; auto; try apply H.
        -- rewrite (nss_te _ _ H). reflexivity.
        -- rewrite (nss_markers _ _ H). reflexivity.
Qed.

Lemma ntd_sim starts av1 av2 lim n :
  match av1, av2 with
  | None, None => True
  | Some a, Some b => same_set VS1 VS2 a b
  | _, _ => False
  end ->
  Forall2 ntd_same_report (fst (ntd_run vid1 VS1 PM1 LM1 next1 cfg starts av1 lim n))
                          (fst (ntd_run vid2 VS2 PM2 LM2 next2 cfg (map f starts) av2 lim n)) /\
  outcome_rel ntd_same_state (snd (ntd_run vid1 VS1 PM1 LM1 next1 cfg starts av1 lim n))
                          (snd (ntd_run vid2 VS2 PM2 LM2 next2 cfg (map f starts) av2 lim n)).
Proof.
  intros Hav. apply run_sim with (R := ntd_same_state); [exact ntd_step_sim|].
  constructor; simpl; auto.
  - now rewrite map_rev.
  - now rewrite map_map.
  - replace (map vid2 (map f starts)) with (map vid1 starts).
    + now apply same_define_visited.
    + rewrite map_map. apply map_ext. auto.
  - apply same_predecessors; auto.
  - apply same_map_empty.
Qed.
End NTDSim.

Lemma ntd_gear {V I L : Type} (I_dec : forall a b : I, {a = b} + {a <> b}) (vid : V -> I)
    (VS1 VS2 : VSet I) (PM1 PM2 : PMap I V) (LM1 LM2 : PMap I L)
    (next : V -> list (V * L)) (cfg : ntd_cfg) (starts : list V) av1 av2 lim n :
  match av1, av2 with
  | None, None => True
  | Some a, Some b => same_set VS1 VS2 a b
  | _, _ => False
  end ->
  let p1 := ntd_run vid VS1 PM1 LM1 next cfg starts av1 lim n in
  let p2 := ntd_run vid VS2 PM2 LM2 next cfg starts av2 lim n in
  Forall2 (ntd_same_report (fun v => v) VS1 VS2 PM1 PM2 LM1 LM2) (fst p1) (fst p2) /\
  outcome_rel (ntd_same_state (fun v => v) VS1 VS2 PM1 PM2 LM1 LM2) (snd p1) (snd p2).
Proof.
  intros Hav p1 p2.
  assert (Hn : forall v : V, next v = map (fe (fun v : V => v)) (next v)).
  { intros v. rewrite <- (map_id (next v)) at 1. apply map_ext. now intros [a b]. }
  pose proof (ntd_sim I_dec (fun v : V => v) vid vid (fun v => eq_refl) VS1 VS2 PM1 PM2 LM1 LM2
                next next Hn cfg starts av1 av2 lim n Hav) as H.
  rewrite map_id in H. exact H.
Qed.

Lemma ntd_ids_only {V I L : Type} (I_dec : forall a b : I, {a = b} + {a <> b}) (vid : V -> I)
    (VS : VSet I) (PM : PMap I V) (PMI : PMap I I) (LM : PMap I L)
    (next : V -> list (V * L)) (next_id : I -> list (I * L)) (cfg : ntd_cfg) (starts : list V) av lim n :
  (forall v, next_id (vid v) = map (fun e => (vid (fst e), snd e)) (next v)) ->
  let p1 := ntd_run vid VS PM LM next cfg starts av lim n in
  let p2 := ntd_run (fun i => i) VS PMI LM next_id cfg (map vid starts) av lim n in
  Forall2 (ntd_same_report vid VS VS PM PMI LM LM) (fst p1) (fst p2) /\
  outcome_rel (ntd_same_state vid VS VS PM PMI LM LM) (snd p1) (snd p2).
Proof.
  intros Hn p1 p2.
  apply (ntd_sim I_dec vid vid (fun i : I => i) (fun v => eq_refl) VS VS PM PMI LM LM
                next next_id Hn cfg starts av av lim n).
  destruct av; auto. intros i. reflexivity.
Qed.
