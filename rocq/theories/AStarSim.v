(** A* on related graphs, with different gears, proceeds in lock step. *)
From Coq Require Import List ZArith Bool.
From Verif Require Import Machine MachineSim GearSpec Common BFSSim Weight HeapModel HeapProofs DijkstraModel DijkstraSim
  AStarModel.
Import ListNotations.

Section AStarSim.
Context {V1 V2 I L : Type}.
Variable I_dec : forall a b : I, {a = b} + {a <> b}.
Variable f : V1 -> V2.
Variable vid1 : V1 -> I.
Variable vid2 : V2 -> I.
Hypothesis Hvid : forall v, vid2 (f v) = vid1 v.
Variable WT : Weights.
Notation W := (w_t WT).
Variables DM1 DM2 : DMap I W (w_inf WT).
Variable PM1 : PMap I V1.
Variable PM2 : PMap I V2.
Variables LM1 LM2 : PMap I L.
Notation fwe := (fwe f WT).
Variable next1 : V1 -> list (V1 * W * L).
Variable next2 : V2 -> list (V2 * W * L).
Hypothesis Hnext : forall v, next2 (f v) = map fwe (next1 v).
Variable cfg : ast_cfg.
Variable h1 : V1 -> W.
Variable h2 : V2 -> W.
Hypothesis Hheur : forall v, h2 (f v) = h1 v.

Definition apc_map (p : @ast_pc V1 L WT) : @ast_pc V2 L WT :=
  match p with ALoop _ => ALoop WT | AEdges _ v w k r => AEdges WT (f v) w k (map fwe r) end.
Notation fp := (fp f).

Record ast_same_state (s1 : ast_state WT DM1 PM1 LM1) (s2 : ast_state WT DM2 PM2 LM2) : Prop := {
  ass_pc : a_pc s2 = apc_map (a_pc s1);
  ass_heap : a_heap s2 = map (entry_map WT fp) (a_heap s1);
  ass_no : a_no s2 = a_no s1;
  ass_distances : same_dmap DM1 DM2 (a_distances s1) (a_distances s2);
  ass_guesses : same_dmap DM1 DM2 (a_guesses s1) (a_guesses s2);
  ass_pred : same_map f PM1 PM2 (a_pred s1) (a_pred s2);
  ass_labels : same_map (fun l => l) LM1 LM2 (a_labels s1) (a_labels s2);
  ass_path_length : a_path_length s2 = a_path_length s1;
  ass_depth : a_depth s2 = a_depth s1;
  ass_limit : a_limit s2 = a_limit s1;
  ass_calls : a_calls s2 = map (fun x => (f (fst (fst x)), snd (fst x), snd x)) (a_calls s1)
}.

(** Reports with the same observable content. *)
Record ast_same_report (r1 : ast_report WT DM1 PM1 LM1) (r2 : ast_report WT DM2 PM2 LM2) : Prop := {
  asr_vertex : ar_vertex r2 = f (ar_vertex r1);
  asr_path_length : ar_path_length r2 = ar_path_length r1;
  asr_depth : ar_depth r2 = ar_depth r1;
  asr_distances : same_dmap DM1 DM2 (ar_distances r1) (ar_distances r2);
  asr_pred : same_map f PM1 PM2 (ar_pred r1) (ar_pred r2);
  asr_labels : same_map (fun l => l) LM1 LM2 (ar_labels r1) (ar_labels r2)
}.

Lemma ast_store_sim s1 s2 v n nw l : ast_same_state s1 s2 ->
  ast_same_state (ast_store vid1 WT DM1 PM1 LM1 cfg s1 v n nw l) (ast_store vid2 WT DM2 PM2 LM2 cfg s2 (f v) (f n) nw l).
Proof.
  intros H. constructor; simpl; auto; try apply H; rewrite Hvid.
  - apply same_dmap_set; auto. apply H.
  - destruct (ac_build_paths cfg); [apply same_map_set; auto; apply H|apply H].
  - destruct (_ && _); [apply (same_map_set I_dec (fun x : L => x)); apply H|apply H].
Qed.

Lemma ast_push_sim s1 s2 v w k n g rest : ast_same_state s1 s2 ->
  ast_same_state (ast_push vid1 WT DM1 PM1 LM1 cfg s1 v w k n g rest)
                 (ast_push vid2 WT DM2 PM2 LM2 cfg s2 (f v) w k (f n) g (map fwe rest)).
Proof.
  intros H. constructor; simpl; auto; try apply H; try rewrite Hvid.
  - rewrite (ass_heap _ _ H), (ass_no _ _ H). rewrite <- heappush_map. reflexivity.
  - now rewrite (ass_no _ _ H).
  - destruct (ac_is_tree cfg); [apply H|apply same_dmap_set; auto; apply H].
Qed.

Lemma ast_export_sim s1 s2 v k h : ast_same_state s1 s2 ->
  ast_same_state (ast_export vid1 WT DM1 PM1 LM1 (a_set_heap WT DM1 PM1 LM1 s1 h) v k)
    (ast_export vid2 WT DM2 PM2 LM2 (a_set_heap WT DM2 PM2 LM2 s2 (map (entry_map WT fp) h)) (f v) k).
Proof.
  intros H. constructor; simpl; auto; try apply H. rewrite Hvid. symmetry. apply (ass_distances _ _ H).
Qed.

Lemma ast_step_sim s1 s2 : ast_same_state s1 s2 ->
  step_rel ast_same_state ast_same_report
    (ast_step vid1 WT DM1 PM1 LM1 next1 cfg h1 s1) (ast_step vid2 WT DM2 PM2 LM2 next2 cfg h2 s2).
Proof.
  intros H. unfold ast_step. rewrite (ass_pc _ _ H), (ass_heap _ _ H).
  destruct (a_pc s1) as [|v w k [|[[n ew] l] rest]] eqn:Hpc; cbn [apc_map map].
  - destruct (a_heap s1) as [|[[w no] [v k]] h] eqn:Hh; cbn [map].
    + simpl. auto.
    + unfold entry_map at 1. cbn [fst snd DijkstraSim.fp]. rewrite Hvid, (ass_guesses _ _ H (vid1 v)).
      destruct (negb (ac_is_tree cfg) && _).
      * simpl. split; auto. destruct H; constructor; simpl; auto; congruence.
      * cbv zeta. assert (H1 := ast_export_sim s1 s2 v k h H).
        set (t1 := ast_export vid1 WT DM1 PM1 LM1 _ v k) in *. set (t2 := ast_export vid2 WT DM2 PM2 LM2 _ (f v) k) in *.
        rewrite (ass_limit _ _ H1).
        assert (HO : Forall2 ast_same_report
                  (if 0 <? k then [ast_observe WT DM1 PM1 LM1 v t1] else [])
                  (if 0 <? k then [ast_observe WT DM2 PM2 LM2 (f v) t2] else [])).
        { destruct (0 <? k); constructor; [|constructor]. constructor; simpl; auto; apply H1. }
        clearbody t1 t2.
        destruct (limit_check (a_limit t1)); simpl.
        -- split; auto. destruct H1; constructor; simpl; auto; [now rewrite Hnext, ass_path_length0|congruence].
        -- auto.
  - simpl. split; auto. destruct H; constructor; simpl; auto.
  - unfold DijkstraSim.fwe at 1. cbn [fst snd]. cbv zeta. destruct (w_leb WT (w_inf WT) _).
    + simpl. auto.
    + rewrite Hvid, (ass_distances _ _ H (vid1 n)). destruct (negb (ac_is_tree cfg) && _).
      * simpl. split; auto. destruct H; constructor; simpl; auto.
      * assert (H1 := ast_store_sim s1 s2 v n (w_add WT ew w) l H). rewrite Hheur.
        destruct (w_eqb WT (h1 n) (w_inf WT)).
        { simpl. split; auto. now apply ast_push_sim. }
        destruct (w_leb WT (w_inf WT) (w_add WT (w_add WT ew w) (h1 n))); simpl; auto.
        split; auto. now apply ast_push_sim.
Qed.

Lemma ast_start_entries_map d1 d2 : same_dmap DM1 DM2 d1 d2 -> forall l no,
  ast_start_entries vid2 WT DM2 no d2 (map f l) = map (entry_map WT fp) (ast_start_entries vid1 WT DM1 no d1 l).
Proof.
  intros Hd. induction l as [|v l IH]; intros no; simpl; auto. rewrite IH, Hvid, (Hd (vid1 v)). reflexivity.
Qed.

Lemma ast_sim starts k1 k2 g1 g2 lim n : same_option (same_dmap DM1 DM2) k1 k2 -> same_option (same_dmap DM1 DM2) g1 g2 ->
  Forall2 ast_same_report (fst (ast_run vid1 WT DM1 PM1 LM1 next1 cfg h1 starts k1 g1 lim n))
                          (fst (ast_run vid2 WT DM2 PM2 LM2 next2 cfg h2 (map f starts) k2 g2 lim n)) /\
  outcome_rel ast_same_state (snd (ast_run vid1 WT DM1 PM1 LM1 next1 cfg h1 starts k1 g1 lim n))
                          (snd (ast_run vid2 WT DM2 PM2 LM2 next2 cfg h2 (map f starts) k2 g2 lim n)).
Proof.
  intros Hk Hg. apply run_sim with (R := ast_same_state); [exact ast_step_sim|].
  assert (HD : same_dmap DM1 DM2
    (define_distances WT DM1 k1 (map (fun v => (vid1 v, w_zero WT)) starts) false)
    (define_distances WT DM2 k2 (map (fun v => (vid2 v, w_zero WT)) (map f starts)) false)).
  { replace (map (fun v => (vid2 v, w_zero WT)) (map f starts)) with (map (fun v => (vid1 v, w_zero WT)) starts).
    - now apply same_define_distances.
    - rewrite map_map. apply map_ext. intros. now rewrite Hvid. }
  unfold ast_init. cbv zeta.
  set (d1 := define_distances WT DM1 k1 (map (fun v => (vid1 v, w_zero WT)) starts) false) in *.
  set (d2 := define_distances WT DM2 k2 (map (fun v => (vid2 v, w_zero WT)) (map f starts)) false) in *.
  assert (HG : same_dmap DM1 DM2
    (define_distances WT DM1 g1 (map (fun v => (vid1 v, w_add WT (dm_get DM1 (vid1 v) d1) (h1 v))) starts) (ac_is_tree cfg))
    (define_distances WT DM2 g2 (map (fun v => (vid2 v, w_add WT (dm_get DM2 (vid2 v) d2) (h2 v))) (map f starts)) (ac_is_tree cfg))).
  { replace (map (fun v => (vid2 v, w_add WT (dm_get DM2 (vid2 v) d2) (h2 v))) (map f starts))
      with (map (fun v => (vid1 v, w_add WT (dm_get DM1 (vid1 v) d1) (h1 v))) starts).
    - now apply same_define_distances.
    - rewrite map_map. apply map_ext. intros v. now rewrite Hvid, Hheur, (HD (vid1 v)). }
  constructor; simpl; auto.
  - rewrite (ast_start_entries_map _ _ HG). apply heapify_map.
  - now rewrite map_length.
  - apply same_predecessors; auto.
  - apply same_map_empty.
Qed.
End AStarSim.

Lemma ast_gear {V I L : Type} (I_dec : forall a b : I, {a = b} + {a <> b}) (vid : V -> I) (WT : Weights)
    (DM1 DM2 : DMap I (w_t WT) (w_inf WT)) (PM1 PM2 : PMap I V) (LM1 LM2 : PMap I L)
    (next : V -> list (V * w_t WT * L)) (cfg : ast_cfg) (heuristic : V -> w_t WT) (starts : list V) k1 k2 g1 g2 lim n :
  same_option (same_dmap DM1 DM2) k1 k2 -> same_option (same_dmap DM1 DM2) g1 g2 ->
  let p1 := ast_run vid WT DM1 PM1 LM1 next cfg heuristic starts k1 g1 lim n in
  let p2 := ast_run vid WT DM2 PM2 LM2 next cfg heuristic starts k2 g2 lim n in
  Forall2 (ast_same_report (fun v => v) WT DM1 DM2 PM1 PM2 LM1 LM2) (fst p1) (fst p2) /\
  outcome_rel (ast_same_state (fun v => v) WT DM1 DM2 PM1 PM2 LM1 LM2) (snd p1) (snd p2).
Proof.
  intros Hk Hg p1 p2.
  assert (Hn : forall v : V, next v = map (fwe (fun v : V => v) WT) (next v)).
  { intros v. rewrite <- (map_id (next v)) at 1. apply map_ext. now intros [[a b] c]. }
  pose proof (ast_sim I_dec (fun v : V => v) vid vid (fun v => eq_refl) WT DM1 DM2 PM1 PM2 LM1 LM2
                next next Hn cfg heuristic heuristic (fun v => eq_refl) starts k1 k2 g1 g2 lim n Hk Hg) as H.
  rewrite map_id in H. exact H.
Qed.

Lemma ast_ids_only {V I L : Type} (I_dec : forall a b : I, {a = b} + {a <> b}) (vid : V -> I) (WT : Weights)
    (DM : DMap I (w_t WT) (w_inf WT)) (PM : PMap I V) (PMI : PMap I I) (LM : PMap I L)
    (next : V -> list (V * w_t WT * L)) (next_id : I -> list (I * w_t WT * L)) (cfg : ast_cfg)
    (heuristic : V -> w_t WT) (heuristic_id : I -> w_t WT) (starts : list V) known kg lim n :
  (forall v, next_id (vid v) = map (fun e => (vid (fst (fst e)), snd (fst e), snd e)) (next v)) ->
  (forall v, heuristic_id (vid v) = heuristic v) ->
  let p1 := ast_run vid WT DM PM LM next cfg heuristic starts known kg lim n in
  let p2 := ast_run (fun i => i) WT DM PMI LM next_id cfg heuristic_id (map vid starts) known kg lim n in
  Forall2 (ast_same_report vid WT DM DM PM PMI LM LM) (fst p1) (fst p2) /\
  outcome_rel (ast_same_state vid WT DM DM PM PMI LM LM) (snd p1) (snd p2).
Proof.
  intros Hn Hh p1 p2.
  apply (ast_sim I_dec vid vid (fun i : I => i) (fun v => eq_refl) WT DM DM PM PMI LM LM
                next next_id Hn cfg heuristic heuristic_id Hh starts known known kg kg lim n).
  - destruct known; simpl; auto. intros i. reflexivity.
  - destruct kg; simpl; auto. intros i. reflexivity.
Qed.
