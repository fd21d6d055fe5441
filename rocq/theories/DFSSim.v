(** Two depth-first searches in lock-step: other gear, other vertices with the same ids. *)
From Coq Require Import List ZArith Bool.
From Verif Require Import Machine MachineSim GearSpec Common BFSSim DijkstraSim DFSProofs DFSModel.
Import ListNotations.

Section DFSSim.
Context {V1 V2 I L : Type}.
Variable V1_dec : forall a b : V1, {a = b} + {a <> b}.
Variable V2_dec : forall a b : V2, {a = b} + {a <> b}.
Variable f : V1 -> V2.
Variable vid1 : V1 -> I.
Variable vid2 : V2 -> I.
Hypothesis Hvid : forall v, vid2 (f v) = vid1 v.
Variables VS1 VS2 : VSet I.
Variable PM1 : PMap I V1.
Variable PM2 : PMap I V2.
Variables LM1 LM2 : PMap I L.
Variables XM1 XM2 : DMap I Z 0%Z.
Variable next1 : V1 -> list (V1 * L).
Variable next2 : V2 -> list (V2 * L).
Hypothesis Hnext : forall v, next2 (f v) = map (fe f) (next1 v).
Variable cfg : dfs_cfg.
Hypothesis Hgaps : dc_build_paths cfg = true -> marks_gaps PM1 /\ marks_gaps PM2.
Variable skip : nat -> bool.
Let I_dec := vs_dec VS1.

(** The only places that compare vertices instead of ids compare with the start vertex. [J], [Jw]: invariants of the first run for which this makes no difference. *)
Definition tells_start (s : option V1) (v : V1) : Prop := forall u, s = Some u -> f v = f u -> v = u.
Definition dfs_blocked (s : dfs_state VS1 PM1 LM1 XM1) (v : V1) : bool :=
  negb (dc_is_tree cfg) && negb (is_all_walks (dc_mode cfg)) &&
  (if is_dfs_tree (dc_mode cfg) then vs_mem VS1 (vid1 v) (f_visited s) else vs_mem VS1 (vid1 v) (f_on_trace s)).
Variable J : dfs_state VS1 PM1 LM1 XM1 -> Prop.
Hypothesis J_step : forall s o s', J s -> dfs_step V1_dec vid1 VS1 PM1 LM1 XM1 next1 cfg skip s = Go o s' -> J s'.
Hypothesis J_start : forall s b m v t, J s -> f_pc s = FLoop b -> f_markers s = false :: m -> dfs_pop VS1 PM1 LM1 XM1 cfg s m = Some (v, t) ->
  dfs_blocked t v = false -> tells_start (f_start t) v.
Variable Jw : dfw_state VS1 PM1 LM1 -> Prop.
Hypothesis Jw_step : forall s o s', Jw s -> dfw_step V1_dec vid1 VS1 PM1 LM1 XM1 next1 cfg skip s = Go o s' -> Jw s'.
Hypothesis Jw_start : forall s, Jw s ->
  match w_pc s with
  | WStarts => True
  | WLoop => forall v q, w_to_visit s = v :: q -> negb (dc_is_tree cfg) && vs_mem VS1 (vid1 v) (w_visited s) = false -> tells_start (w_start s) v
  | WEdges v _ => tells_start (w_start s) v
  end.

Record dfs_same_state (s1 : dfs_state VS1 PM1 LM1 XM1) (s2 : dfs_state VS2 PM2 LM2 XM2) : Prop := {
  fss_pc : f_pc s2 = f_pc s1;
  fss_starts : f_starts s2 = map f (f_starts s1);
  fss_start : f_start s2 = option_map f (f_start s1);
  fss_tv : f_to_visit s2 = map f (f_to_visit s1);
  fss_tvl : f_to_visit_labels s2 = f_to_visit_labels s1;
  fss_markers : f_markers s2 = f_markers s1;
  fss_vl : f_var_labels s2 = f_var_labels s1;
  fss_trace : f_trace s2 = map f (f_trace s1);
  fss_tl : f_trace_labels s2 = f_trace_labels s1;
  fss_on : same_set VS1 VS2 (f_on_trace s1) (f_on_trace s2);
  fss_index : same_dmap XM1 XM2 (f_index s1) (f_index s2);
  fss_time : f_time s2 = f_time s1;
  fss_depth : f_depth s2 = f_depth s1;
  fss_event : f_event s2 = f_event s1;
  fss_visited : same_set VS1 VS2 (f_visited s1) (f_visited s2);
  fss_pred : same_map f PM1 PM2 (f_pred s1) (f_pred s2);
  fss_labels : same_map (fun l => l) LM1 LM2 (f_labels s1) (f_labels s2);
  fss_limit : f_limit s2 = f_limit s1;
  fss_count : f_count s2 = f_count s1;
  fss_calls : f_calls s2 = map (fun x => (f (fst x), snd x)) (f_calls s1)
}.

(** Reports with the same observable content. *)
Record dfs_same_report (r1 : dfs_report VS1 PM1 LM1 XM1) (r2 : dfs_report VS2 PM2 LM2 XM2) : Prop := {
  fsr_vertex : fr_vertex r2 = f (fr_vertex r1);
  fsr_event : fr_event r2 = fr_event r1;
  fsr_depth : fr_depth r2 = fr_depth r1;
  fsr_trace : fr_trace r2 = map f (fr_trace r1);
  fsr_trace_labels : fr_trace_labels r2 = fr_trace_labels r1;
  fsr_on_trace : same_set VS1 VS2 (fr_on_trace r1) (fr_on_trace r2);
  fsr_index : same_dmap XM1 XM2 (fr_index r1) (fr_index r2);
  fsr_visited : same_set VS1 VS2 (fr_visited r1) (fr_visited r2);
  fsr_pred : same_map f PM1 PM2 (fr_pred r1) (fr_pred r2);
  fsr_labels : same_map (fun l => l) LM1 LM2 (fr_labels r1) (fr_labels r2)
}.

Lemma observe_same s1 s2 v : dfs_same_state s1 s2 -> dfs_same_report (dfs_observe VS1 PM1 LM1 XM1 v s1) (dfs_observe VS2 PM2 LM2 XM2 (f v) s2).
Proof. intros []. constructor; simpl; auto; try congruence. rewrite fss_trace0, map_rev. reflexivity. Qed.

Ltac st := intros; match goal with H : dfs_same_state _ _ |- _ => destruct H; constructor; simpl; auto; try congruence end.

Lemma begin_same s1 s2 v rest : dfs_same_state s1 s2 -> dfs_same_state (dfs_begin VS1 PM1 LM1 XM1 s1 v rest) (dfs_begin VS2 PM2 LM2 XM2 s2 (f v) (map f rest)).
Proof. st. Qed.
Lemma finish_same s1 s2 : dfs_same_state s1 s2 -> dfs_same_state (dfs_finish VS1 PM1 LM1 XM1 s1) (dfs_finish VS2 PM2 LM2 XM2 s2).
Proof. st. Qed.
Lemma show_same s1 s2 ev tr trl : dfs_same_state s1 s2 -> dfs_same_state (dfs_show VS1 PM1 LM1 XM1 s1 ev tr trl) (dfs_show VS2 PM2 LM2 XM2 s2 ev (map f tr) trl).
Proof. st. Qed.
Lemma left_same s1 s2 b v m t tl k : dfs_same_state s1 s2 ->
  dfs_same_state (dfs_left vid1 VS1 PM1 LM1 XM1 cfg s1 b v m t tl k) (dfs_left vid2 VS2 PM2 LM2 XM2 cfg s2 b (f v) m (map f t) tl k).
Proof. st. destruct (dc_compute_on_trace cfg); auto. rewrite Hvid. apply same_set_discard; auto. destruct (dc_compute_depth cfg); congruence. Qed.
Lemma reported_same s1 s2 ev : dfs_same_state s1 s2 -> dfs_same_state (dfs_reported VS1 PM1 LM1 XM1 s1 ev) (dfs_reported VS2 PM2 LM2 XM2 s2 ev).
Proof. st. Qed.
Lemma count_same s1 s2 k : dfs_same_state s1 s2 -> dfs_same_state (dfs_count VS1 PM1 LM1 XM1 s1 k) (dfs_count VS2 PM2 LM2 XM2 s2 k).
Proof. st. Qed.

Lemma expand_same s1 s2 v lim k : dfs_same_state s1 s2 ->
  dfs_same_state (dfs_expand VS1 PM1 LM1 XM1 next1 cfg s1 v lim k) (dfs_expand VS2 PM2 LM2 XM2 next2 cfg s2 (f v) lim k).
Proof.
  intros H. assert (H1 : map fst (next2 (f v)) = map f (map fst (next1 v))) by (rewrite Hnext, !map_map; apply map_ext; intros [a b]; reflexivity).
  assert (H2 : map snd (next2 (f v)) = map snd (next1 v)) by (rewrite Hnext, !map_map; apply map_ext; intros [a b]; reflexivity).
  destruct H. constructor; simpl; auto; try congruence.
  - rewrite H1, fss_tv0, map_app, map_rev. reflexivity.
  - rewrite H2, fss_tvl0. reflexivity.
  - rewrite fss_markers0, Hnext, map_map. reflexivity.
  - rewrite Hnext, <- map_rev. destruct (dc_labeled cfg); auto. destruct (rev (next1 v)) as [|[a b] l]; simpl; auto.
Qed.

Lemma start_same s1 s2 v : dfs_same_state s1 s2 -> tells_start (f_start s1) v -> is_current_start V2_dec VS2 PM2 LM2 XM2 s2 (f v) = is_current_start V1_dec VS1 PM1 LM1 XM1 s1 v.
Proof.
  intros [] Hc. unfold is_current_start. rewrite fss_start0. destruct (f_start s1) as [u|]; simpl; auto.
  destruct (V2_dec (f v) (f u)) as [E|E], (V1_dec v u) as [E'|E']; auto; [exfalso; apply E', Hc; auto|congruence].
Qed.

Lemma pred_same s1 s2 v : dfs_same_state s1 s2 -> same_map f PM1 PM2 (dfs_pred vid1 VS1 PM1 LM1 XM1 cfg s1 v) (dfs_pred vid2 VS2 PM2 LM2 XM2 cfg s2 (f v)).
Proof.
  intros []. unfold dfs_pred. pose proof Hgaps as HG. rewrite fss_trace0, fss_start0. destruct (dc_build_paths cfg) eqn:Eb; auto. destruct (HG eq_refl) as (Hg1 & Hg2). destruct (f_trace s1) as [|p t]; cbn [map].
  - destruct (f_start s1) as [u|]; cbn [option_map]; auto. rewrite Hvid, (marks_gaps_if PM1 Hg1), (marks_gaps_if PM2 Hg2). pose proof (fss_pred0 (vid1 u)) as Hp. cbv beta in Hp.
    destruct (pm_get PM1 (vid1 u) (f_pred s1)); rewrite <- Hp; cbn; auto. apply same_map_set; auto.
  - rewrite Hvid. apply same_map_set; auto.
Qed.
Lemma labels_same s1 s2 v : dfs_same_state s1 s2 ->
  same_map (fun l => l) LM1 LM2 (dfs_labels vid1 VS1 PM1 LM1 XM1 cfg s1 v) (dfs_labels vid2 VS2 PM2 LM2 XM2 cfg s2 (f v)).
Proof.
  intros []. unfold dfs_labels. rewrite fss_trace0, fss_vl0, Hvid. destruct (f_trace s1); cbn [map]; auto. destruct (f_var_labels s1); auto.
  destruct (_ && _); auto. apply (same_map_set I_dec (fun x : L => x)); auto.
Qed.

Lemma enter_same s1 s2 v : dfs_same_state s1 s2 -> tells_start (f_start s1) v ->
  dfs_same_state (dfs_enter V1_dec vid1 VS1 PM1 LM1 XM1 cfg s1 v) (dfs_enter V2_dec vid2 VS2 PM2 LM2 XM2 cfg s2 (f v)).
Proof.
  intros H Hc. pose proof (start_same s1 s2 v H Hc) as Hst. pose proof (pred_same s1 s2 v H) as Hp. pose proof (labels_same s1 s2 v H) as Hl.
  destruct H. constructor; cbn [dfs_enter f_pc f_starts f_start f_to_visit f_to_visit_labels f_markers f_var_labels f_trace f_trace_labels f_on_trace f_index f_time f_depth f_event f_visited f_pred f_labels f_limit f_count f_calls]; auto; try congruence.
  all: rewrite ?Hvid, ?fss_time0, ?fss_depth0, ?fss_trace0, ?fss_vl0, ?fss_tl0, ?Hst; auto.
  - destruct (f_trace s1); reflexivity.
  - destruct (_ && _); auto. apply same_set_add; auto.
  - destruct (dc_compute_index cfg); auto. apply same_dmap_set; auto.
  - destruct (_ && _); auto. apply same_set_add; auto.
Qed.

Lemma classify_same s1 s2 v b : dfs_same_state s1 s2 -> dfs_classify vid2 VS2 PM2 LM2 XM2 cfg s2 (f v) b = dfs_classify vid1 VS1 PM1 LM1 XM1 cfg s1 v b.
Proof.
  intros []. unfold dfs_classify. rewrite Hvid, (fss_on0 (vid1 v)), fss_trace0. destruct (f_trace s1) as [|p t]; cbn [map]; auto.
  rewrite Hvid, (fss_index0 (vid1 p)), (fss_index0 (vid1 v)). reflexivity.
Qed.

Notation SR := (step_rel (X := exn) dfs_same_state dfs_same_report).
Lemma visit_same s1 s2 v : dfs_same_state s1 s2 -> tells_start (f_start s1) v ->
  SR (dfs_visit V1_dec vid1 VS1 PM1 LM1 XM1 next1 cfg skip s1 v) (dfs_visit V2_dec vid2 VS2 PM2 LM2 XM2 next2 cfg skip s2 (f v)).
Proof.
  intros H Hc. unfold dfs_visit. pose proof (enter_same _ _ v H Hc) as He.
  rewrite (start_same _ _ v H Hc), (fss_trace _ _ H), (fss_vl _ _ H), (fss_count _ _ H).
  change (f_limit (dfs_enter V1_dec vid1 VS1 PM1 LM1 XM1 cfg s1 v)) with (f_limit s1).
  change (f_limit (dfs_enter V2_dec vid2 VS2 PM2 LM2 XM2 cfg s2 (f v))) with (f_limit s2). rewrite (fss_limit _ _ H).
  set (e1 := dfs_enter V1_dec vid1 VS1 PM1 LM1 XM1 cfg s1 v) in *. set (e2 := dfs_enter V2_dec vid2 VS2 PM2 LM2 XM2 cfg s2 (f v)) in *.
  set (show := dc_report cfg _).
  assert (Ho : Forall2 dfs_same_report (if show then [dfs_observe VS1 PM1 LM1 XM1 v e1] else []) (if show then [dfs_observe VS2 PM2 LM2 XM2 (f v) e2] else [])).
  { destruct show; constructor; auto. apply observe_same; auto. }
  assert (Hlen : length (if show then [dfs_observe VS2 PM2 LM2 XM2 (f v) e2] else []) = length (if show then [dfs_observe VS1 PM1 LM1 XM1 v e1] else [])) by (destruct show; reflexivity).
  rewrite Hlen.
  assert (K : SR (if show && skip (f_count s1) then Go (if show then [dfs_observe VS1 PM1 LM1 XM1 v e1] else []) (dfs_count VS1 PM1 LM1 XM1 e1 (length (if show then [dfs_observe VS1 PM1 LM1 XM1 v e1] else [])))
      else match limit_check (f_limit s1) with
           | None => Raise (if show then [dfs_observe VS1 PM1 LM1 XM1 v e1] else []) RuntimeErrorLimit (dfs_count VS1 PM1 LM1 XM1 e1 (length (if show then [dfs_observe VS1 PM1 LM1 XM1 v e1] else [])))
           | Some lim => Go (if show then [dfs_observe VS1 PM1 LM1 XM1 v e1] else []) (dfs_expand VS1 PM1 LM1 XM1 next1 cfg e1 v lim (length (if show then [dfs_observe VS1 PM1 LM1 XM1 v e1] else [])))
           end)
     (if show && skip (f_count s1) then Go (if show then [dfs_observe VS2 PM2 LM2 XM2 (f v) e2] else []) (dfs_count VS2 PM2 LM2 XM2 e2 (length (if show then [dfs_observe VS1 PM1 LM1 XM1 v e1] else [])))
      else match limit_check (f_limit s1) with
           | None => Raise (if show then [dfs_observe VS2 PM2 LM2 XM2 (f v) e2] else []) RuntimeErrorLimit (dfs_count VS2 PM2 LM2 XM2 e2 (length (if show then [dfs_observe VS1 PM1 LM1 XM1 v e1] else [])))
           | Some lim => Go (if show then [dfs_observe VS2 PM2 LM2 XM2 (f v) e2] else []) (dfs_expand VS2 PM2 LM2 XM2 next2 cfg e2 (f v) lim (length (if show then [dfs_observe VS1 PM1 LM1 XM1 v e1] else [])))
           end)).
  { destruct (_ && _); cbn [step_rel]; [split; auto; apply count_same; auto|]. destruct (limit_check _); cbn [step_rel].
    - split; auto. apply expand_same; auto.
    - split; auto. split; auto. apply count_same; auto. }
  destruct (f_trace s1); cbn [map]; auto. destruct (dc_labeled cfg); auto. destruct (f_var_labels s1); auto. cbn [step_rel]. auto.
Qed.

Lemma revisit_same s1 s2 v b : dfs_same_state s1 s2 ->
  SR (dfs_revisit vid1 VS1 PM1 LM1 XM1 cfg s1 v b) (dfs_revisit vid2 VS2 PM2 LM2 XM2 cfg s2 (f v) b).
Proof.
  intros H. unfold dfs_revisit. rewrite (classify_same _ _ v b H), (fss_trace _ _ H), (fss_vl _ _ H), (fss_tl _ _ H).
  destruct (f_trace s1) as [|p t] eqn:Ht; cbn [map].
  - destruct (dc_report cfg SKIPPING_START); cbn [step_rel]; split; auto; [|apply reported_same; auto].
    constructor; auto. apply observe_same. apply (show_same _ _ _ [v]). auto.
  - destruct (dfs_classify _ _ _ _ _ _ _ _ _) as [ev|]; [|cbn [step_rel]; auto].
    destruct (dc_labeled cfg); [destruct (f_var_labels s1)|]; cbn [step_rel]; auto; (split; [|apply reported_same; auto]);
    (constructor; auto; apply observe_same; apply (show_same _ _ _ (v :: p :: t)); auto).
Qed.

Lemma leave_same s1 s2 b m : dfs_same_state s1 s2 -> SR (dfs_leave vid1 VS1 PM1 LM1 XM1 cfg s1 b m) (dfs_leave vid2 VS2 PM2 LM2 XM2 cfg s2 b m).
Proof.
  intros H. unfold dfs_leave. rewrite (fss_trace _ _ H), (fss_tl _ _ H). destruct (f_trace s1) as [|v t] eqn:Ht; cbn [map].
  - cbn [step_rel]. auto.
  - assert (Hs : forall ev, dfs_same_state (dfs_show VS1 PM1 LM1 XM1 s1 ev (v :: t) (f_trace_labels s1)) (dfs_show VS2 PM2 LM2 XM2 s2 ev (f v :: map f t) (f_trace_labels s1))).
    { intros ev. apply (show_same _ _ _ (v :: t)). auto. }
    pose proof (fss_tl _ _ H) as Htl.
    destruct m as [|x m].
    + destruct (dc_report cfg LEAVING_START); cbn [step_rel]; (split; [constructor; auto; apply observe_same; auto|]);
      cbn [dfs_show f_trace_labels]; rewrite ?Htl; apply left_same; auto.
    + destruct (dc_report cfg LEAVING_SUCCESSOR), b; cbn [andb negb dfs_show f_trace_labels]; rewrite ?Htl;
      (destruct (dc_labeled cfg); [destruct (f_trace_labels s1)|]); cbn [step_rel length]; try (split; [constructor; auto; apply observe_same; auto|]); auto;
      try (apply left_same; auto).
Qed.

Lemma pop_same s1 s2 m : dfs_same_state s1 s2 ->
  match dfs_pop VS1 PM1 LM1 XM1 cfg s1 m, dfs_pop VS2 PM2 LM2 XM2 cfg s2 m with
  | None, None => True
  | Some (v, t1), Some (w, t2) => w = f v /\ dfs_same_state t1 t2
  | _, _ => False
  end.
Proof.
  intros H. unfold dfs_pop. rewrite (fss_tv _ _ H), (fss_tvl _ _ H). destruct (f_to_visit s1) as [|v [|u q]]; cbn [map]; auto.
  - destruct (dc_labeled cfg); (split; [reflexivity|]); destruct H; constructor; simpl; auto; congruence.
  - destruct (dc_labeled cfg); [destruct (f_to_visit_labels s1); auto|]; (split; [reflexivity|]); destruct H; constructor; simpl; auto; congruence.
Qed.

Lemma dfs_step_sim s1 s2 : dfs_same_state s1 s2 -> J s1 ->
  SR (dfs_step V1_dec vid1 VS1 PM1 LM1 XM1 next1 cfg skip s1) (dfs_step V2_dec vid2 VS2 PM2 LM2 XM2 next2 cfg skip s2).
Proof.
  intros H HJ. pose proof (J_start s1) as HS. unfold dfs_step. rewrite (fss_pc _ _ H), (fss_starts _ _ H), (fss_markers _ _ H). destruct (f_pc s1) as [|nl] eqn:Epc.
  - destruct (f_starts s1); cbn [map step_rel]; [auto|]. split; auto. apply begin_same; auto.
  - destruct (f_markers s1) as [|[|] m] eqn:Em.
    + cbn [step_rel]. split; auto. apply finish_same; auto.
    + apply leave_same; auto.
    + pose proof (pop_same _ _ m H) as Hp. specialize (HS nl m). destruct (dfs_pop VS1 PM1 LM1 XM1 cfg s1 m) as [(v & t1)|], (dfs_pop VS2 PM2 LM2 XM2 cfg s2 m) as [(w & t2)|];
      try contradiction; [|cbn [step_rel]; auto]. destruct Hp as (-> & Ht).
      specialize (HS v t1 HJ eq_refl eq_refl eq_refl). unfold dfs_blocked in HS. rewrite (fss_visited _ _ Ht (vid1 v)), (fss_on _ _ Ht (vid1 v)) in HS.
      rewrite Hvid, (fss_visited _ _ Ht (vid1 v)), (fss_on _ _ Ht (vid1 v)).
      destruct (negb (dc_is_tree cfg) && negb (is_all_walks (dc_mode cfg))); cbn [andb] in HS; [|apply visit_same; auto]. destruct (is_dfs_tree _).
      * destruct (vs_mem VS2 (vid1 v) (f_visited t2)); [apply revisit_same|apply visit_same]; auto.
      * destruct (vs_mem VS2 (vid1 v) (f_on_trace t2)); [apply revisit_same|apply visit_same]; auto.
Qed.

(** The implementation without trace. *)
Definition wpc_map (p : @dfw_pc V1 L) : @dfw_pc V2 L :=
  match p with WStarts => WStarts | WLoop => WLoop | WEdges v r => WEdges (f v) (map (fe f) r) end.
Record dfw_same_state (s1 : dfw_state VS1 PM1 LM1) (s2 : dfw_state VS2 PM2 LM2) : Prop := {
  wss_pc : w_pc s2 = wpc_map (w_pc s1);
  wss_starts : w_starts s2 = map f (w_starts s1);
  wss_start : w_start s2 = option_map f (w_start s1);
  wss_tv : w_to_visit s2 = map f (w_to_visit s1);
  wss_markers : w_markers s2 = w_markers s1;
  wss_ld : w_loop_depth s2 = w_loop_depth s1;
  wss_depth : w_depth s2 = w_depth s1;
  wss_event : w_event s2 = w_event s1;
  wss_visited : same_set VS1 VS2 (w_visited s1) (w_visited s2);
  wss_pred : same_map f PM1 PM2 (w_pred s1) (w_pred s2);
  wss_labels : same_map (fun l => l) LM1 LM2 (w_labels s1) (w_labels s2);
  wss_limit : w_limit s2 = w_limit s1;
  wss_count : w_count s2 = w_count s1;
  wss_calls : w_calls s2 = map (fun x => (f (fst x), snd x)) (w_calls s1)
}.
Lemma wobserve_same s1 s2 v : dfw_same_state s1 s2 -> dfs_same_report (dfw_observe VS1 PM1 LM1 XM1 v s1) (dfw_observe VS2 PM2 LM2 XM2 (f v) s2).
Proof. intros []. constructor; simpl; auto; try congruence; [apply same_set_empty|apply same_dmap_empty]. Qed.
Lemma wstart_same s1 s2 v : dfw_same_state s1 s2 -> tells_start (w_start s1) v -> dfw_is_start V2_dec VS2 PM2 LM2 s2 (f v) = dfw_is_start V1_dec VS1 PM1 LM1 s1 v.
Proof.
  intros [] Hc. unfold dfw_is_start. rewrite wss_start0. destruct (w_start s1) as [u|]; simpl; auto.
  destruct (V2_dec (f v) (f u)) as [E|E], (V1_dec v u) as [E'|E']; auto; [exfalso; apply E', Hc; auto|congruence].
Qed.
Lemma wset_same s1 s2 pc q m d : dfw_same_state s1 s2 -> dfw_same_state (dfw_set VS1 PM1 LM1 s1 pc q m d) (dfw_set VS2 PM2 LM2 s2 (wpc_map pc) (map f q) m d).
Proof. intros []. constructor; simpl; auto. Qed.
Lemma wenter_same s1 s2 v : dfw_same_state s1 s2 -> tells_start (w_start s1) v ->
  dfw_same_state (dfw_enter V1_dec vid1 VS1 PM1 LM1 cfg s1 v) (dfw_enter V2_dec vid2 VS2 PM2 LM2 cfg s2 (f v)).
Proof.
  intros H Hc. pose proof (wstart_same _ _ v H Hc) as Hst. destruct H.
  constructor; cbn [dfw_enter w_pc w_starts w_start w_to_visit w_markers w_loop_depth w_depth w_event w_visited w_pred w_labels w_limit w_count w_calls]; auto; try congruence.
  all: rewrite ?Hvid, ?wss_ld0, ?wss_depth0, ?wss_markers0, ?Hst, ?wss_event0; auto.
  destruct (dc_is_tree cfg); auto. apply same_set_add; auto.
Qed.
Lemma wexpand_same s1 s2 v lim k : dfw_same_state s1 s2 ->
  dfw_same_state (dfw_expand VS1 PM1 LM1 next1 s1 v lim k) (dfw_expand VS2 PM2 LM2 next2 s2 (f v) lim k).
Proof. intros []. constructor; simpl; auto; try congruence. Qed.
Lemma wcontinue_same s1 s2 v k : dfw_same_state s1 s2 -> tells_start (w_start s1) v ->
  dfw_same_state (dfw_continue V1_dec VS1 PM1 LM1 s1 v k) (dfw_continue V2_dec VS2 PM2 LM2 s2 (f v) k).
Proof. intros H Hc. pose proof (wstart_same _ _ v H Hc) as Hst. destruct H. constructor; cbn [dfw_continue w_pc w_starts w_start w_to_visit w_markers w_loop_depth w_depth w_event w_visited w_pred w_labels w_limit w_count w_calls]; auto; rewrite ?Hst, ?wss_event0; congruence. Qed.

Notation WR := (step_rel (X := exn) dfw_same_state dfs_same_report).
Lemma wvisit_same s1 s2 v : dfw_same_state s1 s2 -> tells_start (w_start s1) v ->
  WR (dfw_visit V1_dec vid1 VS1 PM1 LM1 XM1 next1 cfg skip s1 v) (dfw_visit V2_dec vid2 VS2 PM2 LM2 XM2 next2 cfg skip s2 (f v)).
Proof.
  intros H Hc. unfold dfw_visit. pose proof (wenter_same _ _ v H Hc) as He. rewrite (wstart_same _ _ v H Hc), (wss_count _ _ H).
  change (w_limit (dfw_enter V1_dec vid1 VS1 PM1 LM1 cfg s1 v)) with (w_limit s1).
  change (w_limit (dfw_enter V2_dec vid2 VS2 PM2 LM2 cfg s2 (f v))) with (w_limit s2). rewrite (wss_limit _ _ H).
  destruct (dc_report cfg _); cbn [andb].
  - destruct (skip (w_count s1)); cbn [step_rel length].
    + split; [constructor; auto; apply wobserve_same; auto|]. apply wcontinue_same; auto.
    + destruct (limit_check _); cbn [step_rel]; (split; [constructor; auto; apply wobserve_same; auto|]); auto. apply wexpand_same; auto.
  - destruct (limit_check _); cbn [step_rel]; (split; [constructor; auto|]); auto. apply wexpand_same; auto.
Qed.

Lemma dfw_step_sim s1 s2 : dfw_same_state s1 s2 -> Jw s1 ->
  WR (dfw_step V1_dec vid1 VS1 PM1 LM1 XM1 next1 cfg skip s1) (dfw_step V2_dec vid2 VS2 PM2 LM2 XM2 next2 cfg skip s2).
Proof.
  intros H HJ. pose proof (Jw_start s1 HJ) as HS. unfold dfw_step. rewrite (wss_pc _ _ H), (wss_starts _ _ H), (wss_markers _ _ H), (wss_ld _ _ H), (wss_tv _ _ H).
  destruct (w_pc s1) as [| |v [|(n, l) rest]]; cbn [wpc_map map fe fst snd].
  - destruct (w_starts s1) eqn:Hs; cbn [map step_rel]; split; auto.
    + destruct H; constructor; simpl; auto.
    + pose proof (wss_pred _ _ H) as Hp0. pose proof H as H'. destruct H'. constructor; simpl; auto; try congruence; rewrite ?Hvid, ?wss_markers0; auto.
      pose proof Hgaps as HG. destruct (dc_build_paths cfg); auto. destruct (HG eq_refl) as (Hg1 & Hg2).
      rewrite (marks_gaps_if PM1 Hg1), (marks_gaps_if PM2 Hg2). specialize (Hp0 (vid1 v)). cbv beta in Hp0.
      destruct (pm_get PM1 (vid1 v) (w_pred s1)); rewrite <- Hp0; cbn; auto. apply same_map_set; auto.
  - destruct (if dc_compute_depth cfg then _ else _) as [m d]. destruct (w_to_visit s1) as [|v q] eqn:Etv; cbn [map].
    + cbn [step_rel]. split; auto. apply (wset_same _ _ WStarts []). auto.
    + change (w_visited (dfw_set VS1 PM1 LM1 s1 WLoop q m d)) with (w_visited s1).
      change (w_visited (dfw_set VS2 PM2 LM2 s2 WLoop (map f q) m d)) with (w_visited s2).
      specialize (HS v q eq_refl). rewrite (wss_visited _ _ H (vid1 v)) in HS.
      rewrite Hvid, (wss_visited _ _ H (vid1 v)). assert (Hs := wset_same _ _ WLoop q m d H).
      destruct (_ && _); [cbn [step_rel]; auto|]. apply wvisit_same; auto.
  - cbn [step_rel]. split; auto. apply wcontinue_same; auto.
  - rewrite Hvid, (wss_visited _ _ H (vid1 n)). destruct (_ && _); cbn [step_rel]; split; auto.
    + apply (wset_same _ _ (WEdges v rest)). auto.
    + destruct H; constructor; simpl; auto; try congruence; rewrite ?wss_markers0; auto.
      * rewrite Hvid. destruct (dc_build_paths cfg); auto. apply same_map_set; auto.
      * rewrite Hvid. destruct (_ && _); auto. apply (same_map_set I_dec (fun x : L => x)); auto.
Qed.

Lemma weak_of {S1 S2 O1 O2 : Type} (R : S1 -> S2 -> Prop) (RO : O1 -> O2 -> Prop) (K : S1 -> Prop) (r1 : step_result S1 O1 exn) (r2 : step_result S2 O2 exn) :
  step_rel R RO r1 r2 -> (forall o s, r1 = Go o s -> K s) -> step_rel_weak (fun a b => R a b /\ K a) R RO r1 r2.
Proof. intros H HK. destruct r1, r2; cbn in *; try contradiction; try tauto. destruct H. eauto. Qed.
Lemma dfs_step_weak s1 s2 : dfs_same_state s1 s2 /\ J s1 ->
  step_rel_weak (fun a b => dfs_same_state a b /\ J a) dfs_same_state dfs_same_report (dfs_step V1_dec vid1 VS1 PM1 LM1 XM1 next1 cfg skip s1) (dfs_step V2_dec vid2 VS2 PM2 LM2 XM2 next2 cfg skip s2).
Proof. intros [H HJ]. apply weak_of; [apply dfs_step_sim; auto|]. intros o s E. exact (J_step _ _ _ HJ E). Qed.
Lemma dfw_step_weak s1 s2 : dfw_same_state s1 s2 /\ Jw s1 ->
  step_rel_weak (fun a b => dfw_same_state a b /\ Jw a) dfw_same_state dfs_same_report (dfw_step V1_dec vid1 VS1 PM1 LM1 XM1 next1 cfg skip s1) (dfw_step V2_dec vid2 VS2 PM2 LM2 XM2 next2 cfg skip s2).
Proof. intros [H HJ]. apply weak_of; [apply dfw_step_sim; auto|]. intros o s E. exact (Jw_step _ _ _ HJ E). Qed.

Lemma dfs_sim starts av1 av2 lim n :
  (dfs_uses_trace cfg = true -> J (dfs_init vid1 VS1 PM1 LM1 XM1 cfg starts av1 lim)) -> (dfs_uses_trace cfg = false -> Jw (dfw_init vid1 VS1 PM1 LM1 cfg starts av1 lim)) ->
  match av1, av2 with None, None => True | Some a, Some b => same_set VS1 VS2 a b | _, _ => False end ->
  let p1 := dfs_traverse V1_dec vid1 VS1 PM1 LM1 XM1 next1 cfg skip starts av1 lim n in
  let p2 := dfs_traverse V2_dec vid2 VS2 PM2 LM2 XM2 next2 cfg skip (map f starts) av2 lim n in
  Forall2 dfs_same_report (fst p1) (fst p2) /\ snd p2 = outcome_map (map (fun x => (f (fst x), snd x))) (snd p1).
Proof.
  intros HJ0 HJw0 Hav. cbv zeta. unfold dfs_traverse. destruct (dfs_uses_trace cfg).
  - assert (K : Forall2 dfs_same_report (fst (dfs_run V1_dec vid1 VS1 PM1 LM1 XM1 next1 cfg skip starts av1 lim n)) (fst (dfs_run V2_dec vid2 VS2 PM2 LM2 XM2 next2 cfg skip (map f starts) av2 lim n)) /\
        outcome_rel dfs_same_state (snd (dfs_run V1_dec vid1 VS1 PM1 LM1 XM1 next1 cfg skip starts av1 lim n)) (snd (dfs_run V2_dec vid2 VS2 PM2 LM2 XM2 next2 cfg skip (map f starts) av2 lim n))).
    { apply run_sim_weak with (R := fun a b => dfs_same_state a b /\ J a); [intros ? ? [Q _]; exact Q|apply dfs_step_weak|split; [|apply HJ0; reflexivity]]. constructor; simpl; auto; try apply same_set_empty; try apply same_dmap_empty; try apply same_map_empty.
      - apply same_define_visited. auto.
      - apply (same_predecessors I_dec f vid1 vid2 PM1 PM2 _ []); auto. }
    destruct (dfs_run _ _ _ _ _ _ _ _ _ starts _ _ _) as [o1 r1], (dfs_run _ _ _ _ _ _ _ _ _ (map f starts) _ _ _) as [o2 r2].
    cbn in *. destruct K as (K1 & K2). split; auto. destruct r1, r2; cbn in *; try contradiction; try (destruct K2 as (-> & K2)); rewrite (fss_calls _ _ K2); auto.
  - assert (K : Forall2 dfs_same_report (fst (dfw_run V1_dec vid1 VS1 PM1 LM1 XM1 next1 cfg skip starts av1 lim n)) (fst (dfw_run V2_dec vid2 VS2 PM2 LM2 XM2 next2 cfg skip (map f starts) av2 lim n)) /\
        outcome_rel dfw_same_state (snd (dfw_run V1_dec vid1 VS1 PM1 LM1 XM1 next1 cfg skip starts av1 lim n)) (snd (dfw_run V2_dec vid2 VS2 PM2 LM2 XM2 next2 cfg skip (map f starts) av2 lim n))).
    { apply run_sim_weak with (R := fun a b => dfw_same_state a b /\ Jw a); [intros ? ? [Q _]; exact Q|apply dfw_step_weak|split; [|apply HJw0; reflexivity]]. constructor; simpl; auto; try apply same_map_empty.
      - apply same_define_visited. auto.
      - apply (same_predecessors I_dec f vid1 vid2 PM1 PM2 _ []); auto. }
    destruct (dfw_run _ _ _ _ _ _ _ _ _ starts _ _ _) as [o1 r1], (dfw_run _ _ _ _ _ _ _ _ _ (map f starts) _ _ _) as [o2 r2].
    cbn in *. destruct K as (K1 & K2). split; auto. destruct r1, r2; cbn in *; try contradiction; try (destruct K2 as (-> & K2)); rewrite (wss_calls _ _ K2); auto.
Qed.
End DFSSim.

Lemma dfs_gear {V I L : Type} (V_dec : forall a b : V, {a = b} + {a <> b}) (vid : V -> I)
    (VS1 VS2 : VSet I) (PM1 PM2 : PMap I V) (LM1 LM2 : PMap I L) (XM1 XM2 : DMap I Z 0%Z)
    (next : V -> list (V * L)) (cfg : dfs_cfg) (skip : nat -> bool) (starts : list V) av1 av2 lim n :
  (dc_build_paths cfg = true -> marks_gaps PM1 /\ marks_gaps PM2) ->
  match av1, av2 with None, None => True | Some a, Some b => same_set VS1 VS2 a b | _, _ => False end ->
  let p1 := dfs_traverse V_dec vid VS1 PM1 LM1 XM1 next cfg skip starts av1 lim n in
  let p2 := dfs_traverse V_dec vid VS2 PM2 LM2 XM2 next cfg skip starts av2 lim n in
  Forall2 (dfs_same_report (fun v => v) VS1 VS2 PM1 PM2 LM1 LM2 XM1 XM2) (fst p1) (fst p2) /\ snd p2 = snd p1.
Proof.
  intros Hgaps Hav p1 p2.
  assert (Hn : forall v : V, next v = map (fe (fun v : V => v)) (next v)).
  { intros v. rewrite <- (map_id (next v)) at 1. apply map_ext. now intros [a b]. }
  assert (Ht : forall (s : option V) v, tells_start (fun v : V => v) s v) by (intros s v u _ E; exact E).
  assert (Hw : forall s : dfw_state VS1 PM1 LM1,
    match w_pc s with
    | WStarts => True
    | WLoop => forall v q, w_to_visit s = v :: q -> negb (dc_is_tree cfg) && vs_mem VS1 (vid v) (w_visited s) = false -> tells_start (fun v : V => v) (w_start s) v
    | WEdges v _ => tells_start (fun v : V => v) (w_start s) v
    end) by (intros s; destruct (w_pc s); auto).
  pose proof (dfs_sim V_dec V_dec (fun v : V => v) vid vid (fun v => eq_refl) VS1 VS2 PM1 PM2 LM1 LM2 XM1 XM2
                next next Hn cfg Hgaps skip (fun _ => True) (fun _ _ _ _ _ => Logic.I) (fun _ _ _ _ _ _ _ _ _ _ => Ht _ _) (fun _ => True) (fun _ _ _ _ _ => Logic.I)
                (fun s _ => Hw s)
                starts av1 av2 lim n (fun _ => Logic.I) (fun _ => Logic.I) Hav) as H.
  rewrite map_id in H. fold p1 p2 in H. destruct H as (H1 & H2). split; auto. rewrite H2.
  assert (Hm : forall c : list (V * Z), map (fun x => (fst x, snd x)) c = c) by (intros c; rewrite <- (map_id c) at 2; apply map_ext; now intros [a b]).
  destruct (snd p1); cbn; rewrite Hm; reflexivity.
Qed.
