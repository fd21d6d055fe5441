(** Dijkstra's algorithm on related graphs, with different gears, proceeds in lock step. *)
From Coq Require Import List ZArith Bool.
From Verif Require Import Machine MachineSim GearSpec Common BFSSim Weight HeapModel HeapProofs DijkstraModel.
Import ListNotations.

(** Distance mappings with equal content. *)
Definition same_dmap {I W} {dflt : W} (DM1 DM2 : DMap I W dflt) (m1 : dm_t DM1) (m2 : dm_t DM2) : Prop :=
  forall i, dm_get DM1 i m1 = dm_get DM2 i m2.

Section SameD.
Context {I : Type}.
Variable I_dec : forall a b : I, {a = b} + {a <> b}.
Context {W : Type} {dflt : W}.
Variables DM1 DM2 : DMap I W dflt.

Lemma same_dmap_empty : same_dmap DM1 DM2 (dm_empty DM1) (dm_empty DM2).
Proof. intros i. now rewrite !dm_get_empty. Qed.

Lemma same_dmap_set i w m1 m2 : same_dmap DM1 DM2 m1 m2 ->
  same_dmap DM1 DM2 (dm_set DM1 i w m1) (dm_set DM2 i w m2).
Proof using I_dec.
  intros H j. destruct (I_dec j i) as [->|Hne].
  - now rewrite !dm_get_set_same.
  - now rewrite !dm_get_set_other.
Qed.
End SameD.

Definition same_option {A B} (R : A -> B -> Prop) (a : option A) (b : option B) : Prop :=
  match a, b with None, None => True | Some x, Some y => R x y | _, _ => False end.

Lemma same_define_distances {I} (I_dec : forall a b : I, {a = b} + {a <> b}) (WT : Weights)
    (DM1 DM2 : DMap I (w_t WT) (w_inf WT)) k1 k2 starts t :
  same_option (same_dmap DM1 DM2) k1 k2 ->
  same_dmap DM1 DM2 (define_distances WT DM1 k1 starts t) (define_distances WT DM2 k2 starts t).
Proof.
  intros H. unfold define_distances. destruct k1 as [m1|], k2 as [m2|]; try contradiction.
  - destruct t; auto. simpl in H. revert m1 m2 H. induction starts as [|p l IH]; simpl; auto.
    intros m1 m2 H. apply IH. unfold dm_setdefault. rewrite (H (fst p)).
    destruct (w_eqb WT _ _); auto. now apply same_dmap_set.
  - assert (H0 := same_dmap_empty DM1 DM2). revert H0. generalize (dm_empty DM1), (dm_empty DM2).
    induction starts as [|p l IH]; simpl; auto. intros m1 m2 Hm. apply IH. now apply same_dmap_set.
Qed.

Section DijkstraSim.
Context {V1 V2 I L : Type}.
Variable I_dec : forall a b : I, {a = b} + {a <> b}.
Variable f : V1 -> V2.
Variable vid1 : V1 -> I.
Variable vid2 : V2 -> I.
Hypothesis Hvid : forall v, vid2 (f v) = vid1 v.
Variable WT : Weights.
Notation W := (w_t WT).
Variables DM1 DM2 : DMap I W (w_inf WT).
Variable PM1 : PMap I V1.
Variable PM2 : PMap I V2.
Variables LM1 LM2 : PMap I L.
Definition fwe (e : V1 * W * L) : V2 * W * L := (f (fst (fst e)), snd (fst e), snd e).
Variable next1 : V1 -> list (V1 * W * L).
Variable next2 : V2 -> list (V2 * W * L).
Hypothesis Hnext : forall v, next2 (f v) = map fwe (next1 v).
Variable cfg : dij_cfg.

Definition dpc_map (p : @dij_pc V1 L WT) : @dij_pc V2 L WT :=
  match p with DLoop _ => DLoop WT | DEdges _ v w k r => DEdges WT (f v) w k (map fwe r) end.
Definition fp (p : V1 * nat) : V2 * nat := (f (fst p), snd p).

Record dij_same_state (s1 : dij_state WT DM1 PM1 LM1) (s2 : dij_state WT DM2 PM2 LM2) : Prop := {
  dss_pc : d_pc s2 = dpc_map (d_pc s1);
  dss_heap : d_heap s2 = map (entry_map WT fp) (d_heap s1);
  dss_no : d_no s2 = d_no s1;
  dss_distances : same_dmap DM1 DM2 (d_distances s1) (d_distances s2);
  dss_pred : same_map f PM1 PM2 (d_pred s1) (d_pred s2);
  dss_labels : same_map (fun l => l) LM1 LM2 (d_labels s1) (d_labels s2);
  dss_distance : d_distance s2 = d_distance s1;
  dss_depth : d_depth s2 = d_depth s1;
  dss_limit : d_limit s2 = d_limit s1;
  dss_calls : d_calls s2 = map (fun x => (f (fst (fst x)), snd (fst x), snd x)) (d_calls s1)
}.

(** Reports with the same observable content. *)
Record dij_same_report (r1 : dij_report WT DM1 PM1 LM1) (r2 : dij_report WT DM2 PM2 LM2) : Prop := {
  dsr_vertex : dr_vertex r2 = f (dr_vertex r1);
  dsr_distance : dr_distance r2 = dr_distance r1;
  dsr_depth : dr_depth r2 = dr_depth r1;
  dsr_distances : same_dmap DM1 DM2 (dr_distances r1) (dr_distances r2);
  dsr_pred : same_map f PM1 PM2 (dr_pred r1) (dr_pred r2);
  dsr_labels : same_map (fun l => l) LM1 LM2 (dr_labels r1) (dr_labels r2)
}.

Lemma dij_step_sim s1 s2 : dij_same_state s1 s2 ->
  step_rel dij_same_state dij_same_report
    (dij_step vid1 WT DM1 PM1 LM1 next1 cfg s1) (dij_step vid2 WT DM2 PM2 LM2 next2 cfg s2).
Proof.
  intros H. unfold dij_step. rewrite (dss_pc _ _ H), (dss_heap _ _ H).
  destruct (d_pc s1) as [|v w k [|[[n ew] l] rest]] eqn:Hpc; cbn [dpc_map map].
  - destruct (d_heap s1) as [|[[w no] [v k]] h] eqn:Hh; cbn [map].
    + simpl. auto.
    + unfold entry_map at 1. cbn [fst snd fp]. rewrite Hvid, (dss_distances _ _ H (vid1 v)).
      destruct (negb (dc_is_tree cfg) && _).
      * simpl. split; auto. destruct H; constructor; simpl; auto; congruence.
      * cbv zeta. cbn [d_limit dij_settle d_set_heap]. rewrite (dss_limit _ _ H).
        assert (HD : same_dmap DM1 DM2
                  (if dc_is_tree cfg || dc_keep_distances cfg then d_distances s1 else dm_set DM1 (vid1 v) (w_zero WT) (d_distances s1))
                  (if dc_is_tree cfg || dc_keep_distances cfg then d_distances s2 else dm_set DM2 (vid2 (f v)) (w_zero WT) (d_distances s2))).
        { rewrite Hvid. destruct (_ || _); [apply H|apply same_dmap_set; auto; apply H]. }
        assert (HO : Forall2 dij_same_report
                  (if 0 <? k then [dij_observe WT DM1 PM1 LM1 v (dij_settle vid1 WT DM1 PM1 LM1 cfg (d_set_heap WT DM1 PM1 LM1 s1 h) v w k)] else [])
                  (if 0 <? k then [dij_observe WT DM2 PM2 LM2 (f v) (dij_settle vid2 WT DM2 PM2 LM2 cfg (d_set_heap WT DM2 PM2 LM2 s2 (map (entry_map WT fp) h)) (f v) w k)] else [])).
        { destruct (0 <? k); constructor; [|constructor]. constructor; simpl; auto; apply H. }
        destruct (limit_check (d_limit s1)); simpl.
        -- split; auto. destruct H; constructor; simpl; auto; [now rewrite Hnext|congruence].
        -- split; auto. split; auto. destruct H; constructor; simpl; auto; congruence.
  - simpl. split; auto. destruct H; constructor; simpl; auto.
  - unfold fwe at 1. cbn [fst snd]. cbv zeta. destruct (w_leb WT (w_inf WT) _).
    + simpl. auto.
    + rewrite Hvid, (dss_distances _ _ H (vid1 n)). destruct (negb (dc_is_tree cfg) && _).
      * simpl. split; auto. destruct H; constructor; simpl; auto.
      * simpl. split; auto. constructor; simpl; auto; try apply H; try rewrite Hvid.
        -- rewrite (dss_heap _ _ H), (dss_no _ _ H). rewrite <- heappush_map. reflexivity.
        -- now rewrite (dss_no _ _ H).
        -- destruct (dc_is_tree cfg); [apply H|apply same_dmap_set; auto; apply H].
        -- destruct (dc_build_paths cfg); [apply same_map_set; auto; apply H|apply H].
        -- destruct (_ && _); [apply (same_map_set I_dec (fun x : L => x)); apply H|apply H].
Qed.

Lemma start_entries_map d1 d2 : same_dmap DM1 DM2 d1 d2 -> forall l no,
  start_entries vid2 WT DM2 no d2 (map f l) = map (entry_map WT fp) (start_entries vid1 WT DM1 no d1 l).
Proof.
  intros Hd. induction l as [|v l IH]; intros no; simpl; auto. rewrite IH, Hvid, (Hd (vid1 v)). reflexivity.
Qed.

Lemma dij_sim starts k1 k2 lim n : same_option (same_dmap DM1 DM2) k1 k2 ->
  Forall2 dij_same_report (fst (dij_run vid1 WT DM1 PM1 LM1 next1 cfg starts k1 lim n))
                          (fst (dij_run vid2 WT DM2 PM2 LM2 next2 cfg (map f starts) k2 lim n)) /\
  outcome_rel dij_same_state (snd (dij_run vid1 WT DM1 PM1 LM1 next1 cfg starts k1 lim n))
                          (snd (dij_run vid2 WT DM2 PM2 LM2 next2 cfg (map f starts) k2 lim n)).
Proof.
  intros Hk. apply run_sim with (R := dij_same_state); [exact dij_step_sim|].
  assert (HD : same_dmap DM1 DM2
    (define_distances WT DM1 k1 (map (fun v => (vid1 v, w_zero WT)) starts) (dc_is_tree cfg))
    (define_distances WT DM2 k2 (map (fun v => (vid2 v, w_zero WT)) (map f starts)) (dc_is_tree cfg))).
  { replace (map (fun v => (vid2 v, w_zero WT)) (map f starts)) with (map (fun v => (vid1 v, w_zero WT)) starts).
    - now apply same_define_distances.
    - rewrite map_map. apply map_ext. intros. now rewrite Hvid. }
  constructor; simpl; auto.
  - rewrite (start_entries_map _ _ HD). apply heapify_map.
  - now rewrite map_length.
  - apply same_predecessors; auto.
  - apply same_map_empty.
Qed.
End DijkstraSim.

Lemma dij_gear {V I L : Type} (I_dec : forall a b : I, {a = b} + {a <> b}) (vid : V -> I) (WT : Weights)
    (DM1 DM2 : DMap I (w_t WT) (w_inf WT)) (PM1 PM2 : PMap I V) (LM1 LM2 : PMap I L)
    (next : V -> list (V * w_t WT * L)) (cfg : dij_cfg) (starts : list V) k1 k2 lim n :
  same_option (same_dmap DM1 DM2) k1 k2 ->
  let p1 := dij_run vid WT DM1 PM1 LM1 next cfg starts k1 lim n in
  let p2 := dij_run vid WT DM2 PM2 LM2 next cfg starts k2 lim n in
  Forall2 (dij_same_report (fun v => v) WT DM1 DM2 PM1 PM2 LM1 LM2) (fst p1) (fst p2) /\
  outcome_rel (dij_same_state (fun v => v) WT DM1 DM2 PM1 PM2 LM1 LM2) (snd p1) (snd p2).
Proof.
  intros Hk p1 p2.
  assert (Hn : forall v : V, next v = map (fwe (fun v : V => v) WT) (next v)).
  { intros v. rewrite <- (map_id (next v)) at 1. apply map_ext. now intros [[a b] c]. }
  pose proof (dij_sim I_dec (fun v : V => v) vid vid (fun v => eq_refl) WT DM1 DM2 PM1 PM2 LM1 LM2
                next next Hn cfg starts k1 k2 lim n Hk) as H.
  rewrite map_id in H. exact H.
Qed.

Lemma dij_ids_only {V I L : Type} (I_dec : forall a b : I, {a = b} + {a <> b}) (vid : V -> I) (WT : Weights)
    (DM : DMap I (w_t WT) (w_inf WT)) (PM : PMap I V) (PMI : PMap I I) (LM : PMap I L)
    (next : V -> list (V * w_t WT * L)) (next_id : I -> list (I * w_t WT * L)) (cfg : dij_cfg)
    (starts : list V) known lim n :
  (forall v, next_id (vid v) = map (fun e => (vid (fst (fst e)), snd (fst e), snd e)) (next v)) ->
  let p1 := dij_run vid WT DM PM LM next cfg starts known lim n in
  let p2 := dij_run (fun i => i) WT DM PMI LM next_id cfg (map vid starts) known lim n in
  Forall2 (dij_same_report vid WT DM DM PM PMI LM LM) (fst p1) (fst p2) /\
  outcome_rel (dij_same_state vid WT DM DM PM PMI LM LM) (snd p1) (snd p2).
Proof.
  intros Hn p1 p2.
  apply (dij_sim I_dec vid vid (fun i : I => i) (fun v => eq_refl) WT DM DM PM PMI LM LM
                next next_id Hn cfg starts known known lim n).
  destruct known; simpl; auto. intros i. reflexivity.
Qed.
