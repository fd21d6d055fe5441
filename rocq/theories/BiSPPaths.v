(** The bidirectional search of shortest paths: the stored paths. *)
From Coq Require Import List ZArith Bool Lia Arith.
From Verif Require Import Machine GearSpec Spec TraversalSpec Common CommonProofs PathsModel PathsSpec PathsProofs PathsExact PathModel PathSpec PathProofs
  Weight WeightSpec HeapModel HeapProofs DijkstraModel BiSPModel BiSPSpec BiSPSide BiSPProofs BiSPMore.
Import ListNotations.

Section Back.
Context {V I L : Type}.
Variable vid : V -> I.
Variable WT : Weights.
Hypothesis Hex : exact_addition WT.
Notation W := (w_t WT).

(** The edges of a chain of the backward search, in the direction of the graph. *)
Fixpoint back (g : V) (p : list (V * W * L)) : list (W * V) :=
  match p with [] => [] | (n, w, l) :: r => back n r ++ [(w, g)] end.
Fixpoint back_edges (g : V) (p : list (V * W * L)) : list (V * V * L) :=
  match p with [] => [] | (n, w, l) :: r => back_edges n r ++ [(n, g, l)] end.
Definition forth (p : list (V * W * L)) : list (W * V) := map (fun e => (snd (fst e), fst (fst e))) p.

Lemma forth_walk next E : presents_weighted WT vid next E -> forall s p v, chain next s p v -> wwalk WT (fun u w x => E (vid u) w (vid x)) s (forth p) v.
Proof.
  intros HE s p v H. induction H as [s|s n w l p v Hin Hc IH]; simpl; econstructor; eauto. apply HE. apply in_map_iff. exists (n, w, l). auto.
Qed.

Lemma forth_weight p : walk_weight WT (forth p) = chain_weight WT (w_zero WT) p.
Proof. unfold walk_weight, chain_weight. generalize (w_zero WT). induction p as [|e p IH]; simpl; intros; auto. Qed.

Lemma forth_vertices p : map snd (forth p) = map (fun e => fst (fst e)) p.
Proof. unfold forth. rewrite map_map. reflexivity. Qed.

Lemma back_walk_from next (E B : I -> W -> I -> Prop) goals : presents_weighted WT vid next B -> faithful vid WT E B goals ->
  forall g0 g p v, chain next g p v -> forall q, is_start vid goals g0 -> wwalk WT B g0 q (vid g) -> wwalk WT (fun u w x => E (vid u) w (vid x)) v (back g p) g.
Proof.
  intros HB Hsub g0 g p v H. induction H as [s|s n w l p v Hin Hc IH]; intros q Hg Hq; simpl; [constructor|].
  assert (HBn : B (vid s) w (vid n)) by (apply HB; apply in_map_iff; exists (n, w, l); auto).
  eapply wwalk_snoc; [eapply IH; eauto; eapply wwalk_snoc; eauto|]. eapply Hsub; eauto.
Qed.

Lemma back_weight p : forall g, walk_weight WT (back g p) = chain_weight WT (w_zero WT) p.
Proof.
  intros g. rewrite <- forth_weight. revert g. induction p as [|[[n w] l] p IH]; intros g; simpl; auto.
  rewrite walk_weight_snoc, IH. rewrite (walk_weight_cons WT Hex). reflexivity.
Qed.

Lemma back_vertices next : forall g p v, chain next g p v -> v :: map snd (back g p) = rev (chain_vertices g p).
Proof.
  intros g p v H. induction H as [s|s n w l p v Hin Hc IH]; simpl; auto.
  unfold chain_vertices in *. simpl in *. rewrite map_app. simpl. rewrite app_comm_cons, IH. reflexivity.
Qed.

Lemma pairs_snoc (l : list V) a b : pairs (l ++ [a; b]) = pairs (l ++ [a]) ++ [(a, b)].
Proof.
  induction l as [|x l IH]; simpl; auto. destruct l as [|y l]; simpl in *; auto. now rewrite IH.
Qed.

Lemma pairs_snoc' (x : V) (l : list V) a b : x :: l = rev (a :: b) -> forall g, pairs (x :: l ++ [g]) = pairs (x :: l) ++ [(a, g)].
Proof.
  intros H g. simpl in H. rewrite app_comm_cons, H, <- app_assoc. simpl. apply pairs_snoc.
Qed.

Lemma back_edges_pairs next : forall g p v, chain next g p v -> map fst (back_edges g p) = pairs (v :: map snd (back g p)).
Proof.
  intros g p v H. induction H as [s|s n w l p v Hin Hc IH]; [reflexivity|].
  cbn [back_edges back]. rewrite !map_app, IH. cbn [map fst snd].
  pose proof (back_vertices _ _ _ _ Hc) as Hv. unfold chain_vertices in Hv. rewrite (pairs_snoc' _ _ _ _ Hv). reflexivity.
Qed.

Lemma back_edges_in p : forall g u x d, In (u, x, d) (back_edges g p) -> exists w, In (u, w, d) p.
Proof.
  induction p as [|[[n w] l] p IH]; simpl; intros g u x d Hin; [contradiction|].
  apply in_app_or in Hin. destruct Hin as [Hin|[Heq|[]]].
  - destruct (IH _ _ _ _ Hin) as (w' & Hw'). eauto.
  - injection Heq as <- <- <-. eauto.
Qed.

Lemma edges_determined2 (lab : V -> option L) : forall (es es' : list (V * V * L)),
  map fst es = map fst es' ->
  (forall u w d, In (u, w, d) es -> lab u = Some d) ->
  (forall u w d, In (u, w, d) es' -> lab u = Some d) -> es = es'.
Proof.
  induction es as [|[[u w] d] es IH]; intros [|[[u' w'] d'] es'] Hm H1 H2; try discriminate; auto.
  simpl in Hm. injection Hm as -> -> Hm.
  assert (d = d').
  { assert (Some d = Some d') by (rewrite <- (H1 u' w' d), <- (H2 u' w' d') by (simpl; auto); auto). congruence. }
  subst. f_equal. apply IH; auto; intros; [eapply H1|eapply H2]; right; eauto.
Qed.

Lemma forth_labels (next_f next_b : V -> list (V * W * L)) : forall s p v, chain next_f s p v ->
  Forall2 (fun a e => snd a = snd (fst e) /\ (In (snd a, fst a, snd e) (next_f (fst (fst e))) \/ In (fst (fst e), fst a, snd e) (next_b (snd a)))) (forth p) (chain_edges s p).
Proof. intros s p v H. induction H as [s|s n w l p v Hin Hc IH]; simpl; constructor; auto. Qed.

Lemma back_labels (next_f next_b : V -> list (V * W * L)) : forall g p v, chain next_b g p v ->
  Forall2 (fun a e => snd a = snd (fst e) /\ (In (snd a, fst a, snd e) (next_f (fst (fst e))) \/ In (fst (fst e), fst a, snd e) (next_b (snd a)))) (back g p) (back_edges g p).
Proof. intros g p v H. induction H as [s|s n w l p v Hin Hc IH]; simpl; [constructor|]. apply Forall2_app; auto. Qed.

Lemma chain_last (next : V -> list (V * W * L)) : forall s p v, chain next s p v -> exists a, chain_vertices s p = a ++ [v] /\ length a = length p.
Proof.
  intros s p v H. induction H as [s|s n w l p v Hin Hc (a & Ha & Hl)]; [exists []; auto|].
  exists (s :: a). unfold chain_vertices in *. simpl in *. rewrite Ha. auto.
Qed.
End Back.

Section Paths.
Context {V I L : Type}.
Variable V_dec : forall a b : V, {a = b} + {a <> b}.
Variable I_dec : forall a b : I, {a = b} + {a <> b}.
Variable vid : V -> I.
Hypothesis Hinj : forall u w, vid u = vid w -> u = w.
Variable WT : Weights.
Hypothesis Hex : exact_addition WT.
Notation W := (w_t WT).
Notation leb := (w_leb WT).
Notation ltb := (w_ltb WT).
Notation add := (w_add WT).
Notation zero := (w_zero WT).
Notation inf := (w_inf WT).
Variable DM : DMap I W inf.
Variable PM : PMap I V.
Variable LM : PMap I L.
Notation "D @ i" := (dm_get DM i D) (at level 10).
Variable next_f next_b : V -> list (V * W * L).
Variables labeled silent : bool.
Notation build := true (only parsing).
Variables E B : I -> W -> I -> Prop.
Hypothesis Hf : presents_weighted WT vid next_f E.
Hypothesis Hb : presents_weighted WT vid next_b B.
Hypothesis HnnE : nonnegative WT E.
Hypothesis HnnB : nonnegative WT B.
Variables starts goals : list V.

Notation state := (@b2_state V I L WT DM PM LM).
Notation side := (@b2_side V I L WT DM PM LM).
Notation next_of := (next_of WT next_f next_b).
Notation E_of := (E_of WT E B).
Notation starts_of := (starts_of starts goals).
Notation SI f := (SInv vid WT DM (next_of f) (E_of f) (starts_of f)).
Notation GI := (GI vid WT DM PM LM next_f next_b E B starts goals).
Notation pres_of := (pres_of vid WT next_f next_b E B Hf Hb).
Notation nn_of := (nn_of WT E B HnnE HnnB).
Notation init first := (b2_init vid WT DM PM LM build first starts goals).
Notation moved := (moved vid WT DM PM LM next_f next_b labeled build).
Notation side_of := (side_of WT DM PM LM).

(** For every vertex with a distance, a chain of edges of this weight is stored. *)
Definition stored (f : bool) (b : side) : Prop := forall v, b2_dist b @ (vid v) <> inf ->
  exists s0 p, In s0 (starts_of f) /\ chain (next_of f) s0 p v /\ chain_weight WT zero p = b2_dist b @ (vid v) /\
    ppath vid PM (b2_pred b) v (rev (chain_vertices s0 p)) /\
    (forall u, In u (chain_vertices s0 p) -> u <> v -> exists w, In (u, w) (b2_calls b)) /\
    (labeled = true -> forall n ew l, In (n, ew, l) p -> pm_get LM (vid n) (b2_labels b) = Some l).

Lemma stored_moved s s' : GI s -> moved s s' -> (forall f, stored f (side_of f s)) -> forall f, stored f (side_of f s').
Proof.
  intros G Hmv. apply (both_sides vid WT DM PM LM next_f next_b labeled build E B starts goals stored s s' G Hmv).
  - intros f b w no v h HI Hh Hst HS u Hu. exact (HS u Hu).
  - intros f b w no v h lim HI Hh Hst _ _ _ _ _ HS u Hu. destruct (HS u Hu) as (s0 & p & H1 & H2 & H3 & H4 & H5 & H6). exists s0, p.
    repeat (split; [assumption|]). split; auto. intros x Hx Hne. destruct (H5 x Hx Hne) as (wx & Hwx). exists wx. now right.
  - intros f b v w n ew l rest HI Hov Hle HS u Hu.
    destruct (s_op _ _ _ _ _ _ _ _ _ _ HI _ _ _ eq_refl) as (HvX & Hinc & Hmax & Hk).
    pose proof (improve_unsettled vid WT DM _ _ (pres_of f) (nn_of f) _ _ _ _ _ _ _ _ _ _ HI Hle) as Hun.
    cbn [b2_improved b2_dist b2_pred b2_labels b2_calls] in *.
    assert (Hkeep : forall x s0 (p : list (V * W * L)), (forall y, In y (chain_vertices s0 p) -> vid y <> vid n) -> ppath vid PM (b2_pred b) x (rev (chain_vertices s0 p)) ->
       (labeled = true -> forall m ew l, In (m, ew, l) p -> pm_get LM (vid m) (b2_labels b) = Some l) ->
       ppath vid PM (pm_set PM (vid n) v (b2_pred b)) x (rev (chain_vertices s0 p)) /\
       (labeled = true -> forall m ew l0, In (m, ew, l0) p -> pm_get LM (vid m) (if true && labeled then pm_set LM (vid n) l (b2_labels b) else b2_labels b) = Some l0)).
    { intros x s0 p Hall Hpp Hlab. split.
      - eapply ppath_ext; [exact Hpp|]. intros y Hy. apply in_rev in Hy. apply pm_get_set_other. intros C. now apply (Hall y).
      - intros Hl m ew' l' Hin. rewrite Hl. simpl. rewrite pm_get_set_other; [eauto|]. intros C. apply (Hall m); auto. right. apply in_map_iff. exists (m, ew', l'). auto. }
    destruct (I_dec (vid u) (vid n)) as [Heq|Hne].
    + apply Hinj in Heq. subst u. rewrite dm_get_set_same in *.
      destruct (s_X _ _ _ _ _ _ _ _ _ _ HI v w HvX) as [Hd Hdi].
      destruct (HS v) as (s0 & p & H1 & H2 & H3 & H4 & H5 & H6); [rewrite Hd; now apply lt_neq|].
      assert (Hall : forall y, In y (chain_vertices s0 p) -> vid y <> vid n).
      { intros y Hy. destruct (V_dec y v) as [->|Hyv]; [eapply Hun; eauto|]. destruct (H5 y Hy Hyv) as (wy & Hwy). eapply Hun; eauto. }
      destruct (Hkeep v s0 p Hall H4 H6) as [H4' H6'].
      exists s0, (p ++ [(n, ew, l)]). split; auto. split; [eapply chain_snoc; eauto; apply Hinc; now left|].
      split; [rewrite chain_weight_snoc, H3, Hd; reflexivity|].
      rewrite chain_vertices_snoc. cbn [fst]. split.
      * rewrite rev_app_distr. simpl. eapply pp_step with (u := v); auto.
        -- apply pm_get_set_same.
        -- intros C. apply (Hun v w HvX). now rewrite C.
      * split.
        -- intros y Hy Hyn. apply in_app_or in Hy. destruct Hy as [Hy|[Hy|[]]]; [|congruence].
           destruct (V_dec y v) as [->|Hyv]; [eauto|]. eauto.
        -- intros Hl m ew' l' Hin. apply in_app_or in Hin. destruct Hin as [Hin|[Heq|[]]]; [eapply H6'; eauto|]. injection Heq as <- <- <-.
           rewrite Hl. simpl. apply pm_get_set_same.
    + rewrite dm_get_set_other in * by auto. destruct (HS u Hu) as (s0 & p & H1 & H2 & H3 & H4 & H5 & H6).
      assert (Hall : forall y, In y (chain_vertices s0 p) -> vid y <> vid n).
      { intros y Hy. destruct (V_dec y u) as [->|Hyv]; auto. destruct (H5 y Hy Hyv) as (wy & Hwy). eapply Hun; eauto. }
      destruct (Hkeep u s0 p Hall H4 H6) as [H4' H6']. exists s0, p. repeat (split; [assumption|]). auto.
Qed.

Lemma stored_init first lim : forall f, stored f (side_of f (init first lim)).
Proof.
  assert (H : forall f l, starts_of f = l -> stored f (b2_start vid WT DM PM LM build l lim)).
  { intros f l <- v Hv. cbn [b2_start b2_dist b2_pred b2_calls b2_labels] in *.
    destruct (in_dec I_dec (vid v) (map vid (starts_of f))) as [Hs|Hn]; [|exfalso; apply Hv; now apply D0_other].
    assert (Hin : In v (starts_of f)). { apply in_map_iff in Hs. destruct Hs as (u & Hu & Hin). apply Hinj in Hu. now subst. }
    exists v, []. split; auto. split; [constructor|]. split; [rewrite (D0_start I_dec vid WT DM); auto|]. split.
    - apply pp_start. apply create_predecessors_start; auto.
    - split; [intros u [<-|[]]; congruence|]. intros _ n ew l []. }
  intros [|]; unfold BiSPMore.side_of; simpl; apply H; reflexivity.
Qed.

(** What the returned path object shows. *)
Definition good_path (x : @b2_result V L WT) : Prop :=
  exists s p g es, In s starts /\ In g goals /\ wwalk WT (fun u w v => E (vid u) w (vid v)) s p g /\ walk_weight WT p = b2_length x /\
    shows (b2_path x) (S (length p)) (s :: map snd p) es /\ po_labeled (b2_path x) = labeled /\
    (labeled = true -> Forall2 (fun a e => snd a = snd (fst e) /\
       (In (snd a, fst a, snd e) (next_f (fst (fst e))) \/ In (fst (fst e), fst a, snd e) (next_b (snd a)))) p es).

Lemma back_length (p : list (V * W * L)) : forall g, length (back WT g p) = length p.
Proof. induction p as [|[[n w] l] p IH]; intros g; simpl; auto. rewrite app_length, IH. simpl. lia. Qed.

Lemma found_path s : faithful vid WT E B goals -> GI s -> (forall f, stored f (side_of f s)) -> b2_best s <> inf -> good_path (b2_found V_dec vid WT DM PM LM labeled build s).
Proof.
  intros Hfaith G HS Hne. destruct (g_best_node _ _ _ _ _ _ _ _ _ _ _ s G) as [?|(H1 & H2 & H3 & H4)]; [contradiction|].
  set (v := b2_node s) in *.
  set (bf := if b2_forwards s then b2_current s else b2_other s). set (bb := if b2_forwards s then b2_other s else b2_current s).
  assert (Hbf : stored true bf) by (pose proof (HS true) as H; unfold BiSPMore.side_of in H; unfold bf; destruct (b2_forwards s); exact H).
  assert (Hbb : stored false bb) by (pose proof (HS false) as H; unfold BiSPMore.side_of in H; unfold bb; destruct (b2_forwards s); exact H).
  assert (Hfin : b2_dist bf @ (vid v) <> inf /\ b2_dist bb @ (vid v) <> inf) by (unfold bf, bb; destruct (b2_forwards s); split; now apply lt_neq).
  assert (Hsum : b2_best s = add (b2_dist bf @ (vid v)) (b2_dist bb @ (vid v))).
  { unfold bf, bb. destruct (b2_forwards s); auto. rewrite (ea_comm WT Hex). exact H4. }
  destruct Hfin as [Hfin1 Hfin2].
  destruct (Hbf v Hfin1) as (a & p & Ha & Hp & Hpw & Hpp & _ & Hpl). destruct (Hbb v Hfin2) as (g & q & Hg & Hq & Hqw & Hqp & _ & Hql).
  simpl in Ha, Hp, Hg, Hq. clear H1 H2 H3 H4.
  destruct (chain_last WT _ _ _ _ Hp) as (la & Hla & Hlal). destruct (chain_last WT _ _ _ _ Hq) as (lb & Hlb & Hlbl).
  rewrite Hla in Hpp. rewrite Hlb in Hqp.
  assert (Hlab1 : labeled = true -> forall u x d, In (u, x, d) (chain_edges a p) -> pm_get LM (vid x) (b2_labels bf) = Some d).
  { intros Hl u x d Hin. destruct (chain_edges_in WT _ _ _ _ _ Hin) as (w & Hw). eapply Hpl; eauto. }
  assert (Hlab2 : labeled = true -> forall u x d, In (u, x, d) (chain_edges g q) -> pm_get LM (vid x) (b2_labels bb) = Some d).
  { intros Hl u x d Hin. destruct (chain_edges_in WT _ _ _ _ _ Hin) as (w & Hw). eapply Hql; eauto. }
  assert (HDf : delivers V_dec vid PM LM (b2_pred bf) (b2_labels bf) labeled (fun u x d => pm_get LM (vid x) (b2_labels bf) = Some d) v (la ++ [v])).
  { rewrite <- (rev_involutive (la ++ [v])). apply ppath_delivers; auto. intros Hl u x Hin. rewrite edges_to_start_pairs, rev_involutive in Hin.
    apply in_rev in Hin. rewrite <- Hla, <- chain_edges_fst in Hin. apply in_map_iff in Hin. destruct Hin as ([[u' x'] d] & Heq & Hin). simpl in Heq. injection Heq as -> ->. exists d. eauto. }
  assert (HDb : delivers V_dec vid PM LM (b2_pred bb) (b2_labels bb) labeled (fun u x d => pm_get LM (vid x) (b2_labels bb) = Some d) v (lb ++ [v])).
  { rewrite <- (rev_involutive (lb ++ [v])). apply ppath_delivers; auto. intros Hl u x Hin. rewrite edges_to_start_pairs, rev_involutive in Hin.
    apply in_rev in Hin. rewrite <- Hlb, <- chain_edges_fst in Hin. apply in_map_iff in Hin. destruct Hin as ([[u' x'] d] & Heq & Hin). simpl in Heq. injection Heq as -> ->. exists d. eauto. }
  destruct (joined_shows V_dec vid PM LM labeled _ _ _ _ _ _ v la lb HDf HDb) as (es & Hsh & Hes).
  pose proof (back_vertices WT _ _ _ _ Hq) as Hbv. rewrite Hlb, rev_app_distr in Hbv. simpl in Hbv. injection Hbv as Hbv.
  exists a, (forth WT p ++ back WT g q), g, es. split; auto. split; auto. split; [|split; [|split; [|split]]].
  - eapply wwalk_app; [exact (forth_walk vid WT _ _ Hf _ _ _ Hp)|exact (back_walk_from vid WT _ _ _ _ Hb Hfaith (vid g) _ _ _ Hq [] (in_map vid _ _ Hg) (wwalk_nil _ _ _))].
  - rewrite (walk_weight_app WT Hex), (forth_weight WT), (back_weight WT Hex), Hpw, Hqw. symmetry. exact Hsum.
  - replace (a :: map snd (forth WT p ++ back WT g q)) with (la ++ v :: rev lb).
    + replace (S (length (forth WT p ++ back WT g q))) with (S (length la + length lb)).
      * unfold b2_found. simpl. fold bf bb. exact Hsh.
      * rewrite app_length, back_length. unfold forth. rewrite map_length. lia.
    + rewrite map_app, Hbv, forth_vertices. change (a :: map (fun e => fst (fst e)) p ++ rev lb) with (chain_vertices a p ++ rev lb). rewrite Hla, <- app_assoc. reflexivity.
  - reflexivity.
  - intros Hl. destruct (Hes Hl) as (es1 & es2 & -> & Hm1 & Hm2 & Hq1 & Hq2).
    assert (es1 = chain_edges a p) as ->.
    { apply (edges_determined (fun x => pm_get LM (vid x) (b2_labels bf))); [|exact Hq1|exact (Hlab1 Hl)]. rewrite Hm1, <- Hla. symmetry. apply chain_edges_fst. }
    assert (es2 = back_edges WT g q) as ->.
    { apply (edges_determined2 (fun x => pm_get LM (vid x) (b2_labels bb))).
      - rewrite Hm2, (back_edges_pairs WT _ _ _ _ Hq), Hbv. reflexivity.
      - intros u x d Hin. exact (Hq2 u x d Hin).
      - intros u x d Hin. destruct (back_edges_in WT _ _ _ _ _ Hin) as (w & Hw). eapply Hql; eauto. }
    apply Forall2_app; [exact (forth_labels WT _ _ _ _ _ Hp)|exact (back_labels WT _ _ _ _ _ Hq)].
Qed.
End Paths.
