(** Proofs about the model of Dijkstra's algorithm: shortest distances and paths. *)
From Coq Require Import List ZArith Bool Lia Sorted Arith Permutation.
From Verif Require Import Machine MachineMore GearSpec Spec TraversalSpec Common CommonProofs PathsModel PathsSpec PathsProofs
  PathsExact Weight WeightSpec HeapModel HeapProofs DijkstraModel BFSProofs DijkstraProofs DijkstraPaths DijkstraMore
  GoModel GoProofs BFSMore.
Import ListNotations.
Set Default Proof Using "All".

Section DijkstraPlain.
Context {V I L : Type}.
Variable I_dec : forall a b : I, {a = b} + {a <> b}.
Variable vid : V -> I.
Variable WT : Weights.
Notation W := (w_t WT).
Notation leb := (w_leb WT).
Notation ltb := (w_ltb WT).
Notation add := (w_add WT).
Notation zero := (w_zero WT).
Notation inf := (w_inf WT).
Variable DM : DMap I W inf.
Variable PM : PMap I V.
Variable LM : PMap I L.
Variable next : V -> list (V * W * L).
Variable cfg : dij_cfg.
Hypothesis Htree : dc_is_tree cfg = false.
Variable E : I -> W -> I -> Prop.
Hypothesis Hnext : presents_weighted WT vid next E.
Hypothesis Hnn : nonnegative WT E.
Variable starts : list V.
Notation d0 := (d0 vid WT DM cfg starts None).
Notation imp := (imp vid WT DM cfg E starts None).
Notation state := (@dij_state V I L WT DM PM LM).
Notation report := (@dij_report V I L WT DM PM LM).
Notation step := (dij_step vid WT DM PM LM next cfg).
Notation init lim := (dij_init vid WT DM PM LM cfg starts None lim).
Notation St := (is_start vid starts).
Notation settled := (settled vid WT).
Notation Inv := (Inv vid WT DM next cfg E starts None).
Notation PInv := (PInv vid WT DM PM LM next cfg starts None).
Notation wpath := (wpath vid WT DM PM LM next cfg starts None).
Notation rx := (rx WT DM PM LM).
Notation xpos := (xpos WT).
Notation run_ lim n := (dij_run vid WT DM PM LM next cfg starts None lim n).

Lemma d0_fold (l : list V) : forall m i,
  dm_get DM i (fold_left (fun m p => dm_set DM (fst p) (snd p) m) (map (fun v => (vid v, zero)) l) m)
  = if In_dec I_dec i (map vid l) then zero else dm_get DM i m.
Proof.
  induction l as [|v l IH]; intros m i; simpl; auto. rewrite IH.
  destruct (I_dec (vid v) i) as [->|Hne].
  - destruct (In_dec _ i _); auto. apply dm_get_set_same.
  - destruct (In_dec _ i _); auto. apply dm_get_set_other. congruence.
Qed.

Lemma d0_start i : St i -> d0 i = zero.
Proof.
  intros Hs. unfold DijkstraProofs.d0, D0, define_distances. rewrite d0_fold.
  destruct (In_dec _ _ _); auto. contradiction.
Qed.

Lemma d0_other i : ~ St i -> d0 i = inf.
Proof.
  intros Hs. unfold DijkstraProofs.d0, D0, define_distances. rewrite d0_fold.
  destruct (In_dec _ _ _); [contradiction|]. apply dm_get_empty.
Qed.

Lemma start_dec i : St i \/ ~ St i.
Proof. unfold is_start. destruct (In_dec I_dec i (map vid starts)); auto. Qed.

Lemma zero_lt_inf : ltb zero inf = true.
Proof. apply w_ltb_lt. apply w_zero_inf. Qed.

Lemma Hd0 : forall i, St i -> leb zero (d0 i) = true.
Proof. intros i Hs. rewrite d0_start; auto. apply w_leb_refl. Qed.

Lemma imp_lt_inf i k d : imp i k d -> ltb d inf = true.
Proof.
  intros H. destruct k.
  - apply imp_0 in H; auto. destruct H as [-> Hs]. rewrite d0_start; auto. apply zero_lt_inf.
  - apply imp_S in H. eapply w_lt_le_trans; [exact H|]. destruct (start_dec i).
    + rewrite d0_start by auto. apply w_lt_le, zero_lt_inf.
    + rewrite d0_other by auto. apply w_leb_refl.
Qed.

Lemma imp_start_zero i k d : imp i k d -> St i -> k = 0 /\ d = zero.
Proof.
  intros H Hs. assert (Hn := imp_nonneg vid WT DM cfg E Hnn starts None Hd0 _ _ _ H). destruct k.
  - apply imp_0 in H; auto. destruct H as [-> _]. rewrite d0_start; auto.
  - apply imp_S in H. rewrite d0_start in H by auto. destruct (w_le_lt_contra _ _ _ Hn H).
Qed.

Lemma imp_walk i k d : imp i k d -> exists s p, St s /\ wwalk WT E s p i /\ walk_weight WT p = d /\ length p = k.
Proof.
  induction 1 as [i Hs|i k d w j Hi IH He Hl].
  - exists i, []. rewrite d0_start; auto. repeat split; auto. constructor.
  - destruct IH as (s & p & Hs & Hw & Hd & Hk). exists s, (p ++ [(w, j)]).
    split; auto. split; [eapply wwalk_snoc; eauto|]. rewrite walk_weight_snoc, Hd, app_length, Hk.
    split; auto. simpl. lia.
Qed.

Lemma walk_imp p : forall s i, St s -> wwalk WT E s p i ->
  leb inf (walk_weight WT p) = true \/ exists k d, imp i k d /\ leb d (walk_weight WT p) = true.
Proof.
  induction p as [|[w x] p IH] using rev_ind; intros s i Hs Hw.
  - inversion Hw; subst. right. exists 0, (d0 i). split; [now constructor|]. rewrite d0_start; auto. apply w_leb_refl.
  - apply wwalk_snoc_inv in Hw. destruct Hw as (j & Hw & He & ->). rewrite walk_weight_snoc.
    destruct (IH s j Hs Hw) as [Hinf|(k & d & Hi & Hd)].
    + left. eapply w_leb_trans; [exact Hinf|]. apply w_add_infl. eapply Hnn; eauto.
    + assert (Hm : leb (add w d) (add w (walk_weight WT p)) = true) by (now apply w_add_mono).
      destruct (ltb (add w d) (d0 x)) eqn:Hlt.
      * right. exists (S k), (add w d). split; auto. econstructor; eauto.
      * apply w_ltb_ge in Hlt. destruct (start_dec x) as [Hsx|Hsx].
        -- right. exists 0, (d0 x). split; [now constructor|]. eapply w_leb_trans; eauto.
        -- left. rewrite d0_other in Hlt by auto. eapply w_leb_trans; eauto.
Qed.

Lemma imp_min_distance i k d : imp i k d -> (forall k' d', imp i k' d' -> leb d d' = true) ->
  is_distance WT E St i d.
Proof.
  intros Hi Hm. split.
  - destruct (imp_walk _ _ _ Hi) as (s & p & Hs & Hw & Hd & _). eauto.
  - intros s p Hs Hw. destruct (walk_imp p s i Hs Hw) as [Hinf|(k' & d' & Hi' & Hd')].
    + eapply w_leb_trans; [|exact Hinf]. apply w_lt_le. eapply imp_lt_inf; eauto.
    + eapply w_leb_trans; [eapply Hm; eauto|auto].
Qed.

Lemma settled_distance X pc H D i w : Inv X pc H D -> settled X i w -> is_distance WT E St i w.
Proof.
  intros HI Hs. pose proof Hs as (v & k & Hin & <-). eapply imp_min_distance.
  - eapply (i_impX _ _ _ _ _ _ _ _ _ _ _ _ HI); eauto.
  - intros k' d' Hi. eapply (i_min _ _ _ _ _ _ _ _ _ _ _ _ HI); eauto.
Qed.

Lemma settled_lt_inf X pc H D i w : Inv X pc H D -> settled X i w -> ltb w inf = true.
Proof.
  intros HI (v & k & Hin & <-). eapply imp_lt_inf. eapply (i_impX _ _ _ _ _ _ _ _ _ _ _ _ HI); eauto.
Qed.

(** At the end of a run, each reachable vertex is settled. *)
Lemma ended_settled X D : Inv X (DLoop WT) [] D -> forall s p i, St s -> wwalk WT E s p i ->
  exists w, settled X i w.
Proof.
  intros HI s p. revert s. induction p as [|[w x] p IH] using rev_ind; intros s i Hs Hw.
  - inversion Hw; subst. destruct (i_start _ _ _ _ _ _ _ _ _ _ _ _ HI i Hs) as (w & [Hw'|(e & [] & _)] & _). eauto.
  - apply wwalk_snoc_inv in Hw. destruct Hw as (j & Hw & He & ->).
    destruct (IH s j Hs Hw) as (wj & Hj).
    destruct (i_closed _ _ _ _ _ _ _ _ _ _ _ _ HI _ _ _ _ Hj He) as [(v0 & k0 & r & Hq & _)|[Hlt Hc]]; [discriminate|].
    destruct Hc as [Hc|(w2 & [Hw2|(e & [] & _)] & _)]; eauto.
    destruct (start_dec x) as [Hx|Hx].
    + destruct (i_start _ _ _ _ _ _ _ _ _ _ _ _ HI x Hx) as (w' & [Hw'|(e & [] & _)] & _). eauto.
    + rewrite d0_other in Hc by auto. destruct (w_le_lt_contra _ _ _ Hc Hlt).
Qed.

Lemma start_distance i : St i -> is_distance WT E St i zero.
Proof.
  intros Hs. apply (imp_min_distance i 0 zero).
  - rewrite <- (d0_start i Hs). now constructor.
  - intros k d H. eapply imp_nonneg; eauto using Hd0.
Qed.

(** Distances stored in a state. *)
Lemma dist_start X pc H D i : Inv X pc H D -> St i -> dm_get DM i D = zero.
Proof.
  intros HI Hs. destruct (settled_dec I_dec vid WT X i) as [(w & Hw)|Hn].
  - rewrite (i_dX _ _ _ _ _ _ _ _ _ _ _ _ HI i w Hw). destruct (dc_keep_distances cfg); auto.
    eapply is_distance_unique; [eapply settled_distance; eauto|now apply start_distance].
  - destruct (i_dH _ _ _ _ _ _ _ _ _ _ _ _ HI i Hn) as (_ & _ & [->|(e & He & Hv & <-)]).
    + now apply d0_start.
    + assert (Hi := i_impH _ _ _ _ _ _ _ _ _ _ _ _ HI e He). rewrite Hv in Hi.
      apply imp_start_zero in Hi; tauto.
Qed.

Lemma dist_below X pc H D i : Inv X pc H D -> dm_get DM i D = inf \/ ltb (dm_get DM i D) inf = true.
Proof.
  intros HI. destruct (settled_dec I_dec vid WT X i) as [(w & Hw)|Hn].
  - right. rewrite (i_dX _ _ _ _ _ _ _ _ _ _ _ _ HI i w Hw).
    destruct (dc_keep_distances cfg); [eapply settled_lt_inf; eauto|apply zero_lt_inf].
  - destruct (i_dH _ _ _ _ _ _ _ _ _ _ _ _ HI i Hn) as (_ & _ & [->|(e & He & Hv & <-)]).
    + destruct (start_dec i) as [Hs|Hs]; [rewrite d0_start by auto; right; apply zero_lt_inf|left; now apply d0_other].
    + right. eapply imp_lt_inf. apply (i_impH _ _ _ _ _ _ _ _ _ _ _ _ HI e He).
Qed.

Section Run.
Variable lim : option Z.
Variables (n : nat) (os : list report) (r : outcome state exn).
Hypothesis HR : run_ lim n = (os, r).
Notation any := (dij_any I_dec vid WT DM PM LM next cfg Htree E Hnext Hnn starts None lim Hd0 n os r HR).
Notation sound := (dij_sound I_dec vid WT DM PM LM next cfg Htree E Hnext Hnn starts None Hd0 lim n os r HR).

(** C20 *)
Lemma dij_distances :
  (forall rep, In rep os -> is_distance WT E St (vid (dr_vertex rep)) (dr_distance rep)) /\
  StronglySorted (fun a b => leb (dr_distance a) (dr_distance b) = true) os.
Proof.
  destruct sound as (_ & HS & H). split; auto. intros rep Hin. destruct (H rep Hin) as (_ & Hi & Hm).
  eapply imp_min_distance; eauto.
Qed.

(** C21 *)
Lemma dij_reported :
  NoDup (dij_ids vid os) /\
  (forall rep, In rep os -> ~ St (vid (dr_vertex rep)) /\ wreachable WT E St (vid (dr_vertex rep))) /\
  (forall s', r = Ended s' -> forall i, wreachable WT E St i -> St i \/ In i (dij_ids vid os)).
Proof.
  destruct sound as (Hnd & _ & H). split; auto. split.
  - intros rep Hin. destruct (H rep Hin) as (Hk & Hi & _). split.
    + intros Hs. apply imp_start_zero in Hi; auto. lia.
    + apply imp_walk in Hi. destruct Hi as (s & p & ? & ? & _). exists s, p. auto.
  - intros s' Hr i (s & p & Hs & Hw).
    destruct any as (X & pc & HB & He). rewrite Hr in HB, He. simpl in HB, He. destruct He as (HX & Hpc & Hh).
    destruct HB as [HI _ Ho _]. rewrite Hh, Hpc in HI.
    destruct (start_dec i) as [Hi|Hi]; auto. right.
    destruct (ended_settled _ _ HI s p i Hs Hw) as (w & v & k & Hin & Hv).
    destruct k as [|k].
    + exfalso. apply Hi. assert (Hx := i_impX _ _ _ _ _ _ _ _ _ _ _ _ HI _ _ _ Hin).
      apply imp_0 in Hx; auto. rewrite Hv in Hx. tauto.
    + assert (Hx : In (v, w, S k) (map rx os)).
      { rewrite Ho. apply in_rev. rewrite rev_involutive. apply filter_In. auto. }
      apply in_map_iff in Hx. destruct Hx as (rep & Heq & Hrep). injection Heq as Heq _ _. unfold dij_ids. apply in_map_iff. exists rep. split; [now rewrite Heq|auto].
Qed.

(** C24 *)
Lemma dij_overflow :
  (forall rep, In rep os -> ltb (dr_distance rep) inf = true /\
     forall i, dm_get DM i (dr_distances rep) = inf \/ ltb (dm_get DM i (dr_distances rep)) inf = true) /\
  (forall i, dm_get DM i (d_distances (outcome_state r)) = inf \/
             ltb (dm_get DM i (d_distances (outcome_state r))) inf = true) /\
  (forall s', r = Raised OverflowErrorDistance s' ->
     exists i d w j, is_distance WT E St i d /\ E i w j /\ leb inf (add w d) = true) /\
  (forall s', r = Ended s' ->
     forall i d w j, is_distance WT E St i d -> E i w j -> ltb (add w d) inf = true).
Proof.
  destruct any as (X & pc & HB & He). simpl in HB. destruct HB as [HI HP Ho Hh]. split; [|split; [|split]].
  - intros rep Hin. split.
    + destruct sound as (_ & _ & H). destruct (H rep Hin) as (_ & Hi & _). eapply imp_lt_inf; eauto.
    + intros i. apply in_split in Hin. destruct Hin as (o1 & o2 & Heq).
      destruct (Hh o1 rep o2 Heq) as (X1 & pc1 & H1 & HI1 & _). eapply dist_below; eauto.
  - intros i. eapply dist_below; eauto.
  - intros s' Hr. rewrite Hr in He. destruct He as [(Hx & _)|(_ & HX & v & w & k & nn & ew & lb & rest & Hpc & Hinf)]; [discriminate|].
    subst pc. destruct (edge_in vid WT DM next cfg E Hnext starts None _ _ _ _ _ _ _ _ _ _ HI) as (H1 & _ & H3).
    exists (vid v), w, ew, (vid nn). split; [|auto]. eapply settled_distance; eauto. exists v, k. eauto.
  - intros s' Hr i d w j Hd HE. rewrite Hr in He. simpl in He. destruct He as (HX & Hpc & Hhp).
    rewrite Hr in HI. simpl in HI. rewrite Hhp, Hpc in HI.
    pose proof Hd as [(s & p & Hs & Hw & _) _].
    destruct (ended_settled _ _ HI s p i Hs Hw) as (w' & Hw').
    assert (d = w') by (eapply is_distance_unique; [exact Hd|eapply settled_distance; eauto]). subst w'.
    destruct (i_closed _ _ _ _ _ _ _ _ _ _ _ _ HI _ _ _ _ Hw' HE) as [(v0 & k0 & q & Hq & _)|[Hlt _]]; [discriminate|auto].
Qed.

(** C23 *)
Lemma dij_keep : dc_keep_distances cfg = true ->
  (forall o1 rep o2 rep', os = o1 ++ rep :: o2 -> In rep' (o1 ++ [rep]) ->
     dm_get DM (vid (dr_vertex rep')) (dr_distances rep) = dr_distance rep') /\
  (forall rep, In rep os -> dm_get DM (vid (dr_vertex rep)) (d_distances (outcome_state r)) = dr_distance rep) /\
  (forall i, St i -> dm_get DM i (d_distances (outcome_state r)) = zero /\
     forall rep, In rep os -> dm_get DM i (dr_distances rep) = zero) /\
  (forall s', r = Ended s' -> forall i,
     (wreachable WT E St i -> is_distance WT E St i (dm_get DM i (d_distances s'))) /\
     (~ wreachable WT E St i -> dm_get DM i (d_distances s') = inf)).
Proof.
  intros Hk. destruct any as (X & pc & HB & He). simpl in HB. destruct HB as [HI HP Ho Hh].
  split; [|split; [|split]].
  - intros o1 rep o2 rep' Heq Hin. destruct (Hh o1 rep o2 Heq) as (X1 & pc1 & H1 & HI1 & _ & _ & _ & Hos & _).
    assert (Hx : In (rx rep') (map rx (o1 ++ [rep]))) by now apply in_map.
    rewrite Hos in Hx. apply in_rev, filter_In in Hx. destruct Hx as [Hx _].
    rewrite (i_dX _ _ _ _ _ _ _ _ _ _ _ _ HI1 _ (dr_distance rep')); [now rewrite Hk|].
    exists (dr_vertex rep'), (dr_depth rep'). auto.
  - intros rep Hin. assert (Hx : In (rx rep) (map rx os)) by now apply in_map.
    rewrite Ho in Hx. apply in_rev, filter_In in Hx. destruct Hx as [Hx _].
    rewrite (i_dX _ _ _ _ _ _ _ _ _ _ _ _ HI _ (dr_distance rep)); [now rewrite Hk|].
    exists (dr_vertex rep), (dr_depth rep). auto.
  - intros i Hs. split; [eapply dist_start; eauto|]. intros rep Hin. apply in_split in Hin.
    destruct Hin as (o1 & o2 & Heq). destruct (Hh o1 rep o2 Heq) as (X1 & pc1 & H1 & HI1 & _). eapply dist_start; eauto.
  - intros s' Hr i. rewrite Hr in He, HI. simpl in He, HI. destruct He as (HX & Hpc & Hhp). rewrite Hhp, Hpc in HI. split.
    + intros (s & p & Hs & Hw). destruct (ended_settled _ _ HI s p i Hs Hw) as (w & Hw').
      rewrite (i_dX _ _ _ _ _ _ _ _ _ _ _ _ HI _ _ Hw'), Hk. eapply settled_distance; eauto.
    + intros Hn. assert (Hns : forall w, ~ settled X i w).
      { intros w Hw. apply Hn. destruct (settled_distance _ _ _ _ _ _ HI Hw) as [(s & p & H1 & H2 & _) _]. exists s, p. auto. }
      destruct (i_dH _ _ _ _ _ _ _ _ _ _ _ _ HI i Hns) as (_ & _ & [->|(e & [] & _)]).
      apply d0_other. intros Hs. apply Hn. exists i, []. split; auto. constructor.
Qed.

(** C22 *)
Lemma dij_paths (V_dec : forall a b : V, {a = b} + {a <> b}) : dc_build_paths cfg = true -> starts_distinct vid starts ->
  (forall rep, In rep os -> exists s0 p, In s0 starts /\ chain next s0 p (dr_vertex rep) /\
     chain_weight WT zero p = dr_distance rep /\ length p = dr_depth rep /\
     delivers_exactly V_dec vid PM LM (dr_pred rep) (dr_labels rep) (dc_labeled cfg) (dr_vertex rep)
       (chain_vertices s0 p) (chain_edges s0 p) /\
     delivers_exactly V_dec vid PM LM (d_pred (outcome_state r)) (d_labels (outcome_state r)) (dc_labeled cfg)
       (dr_vertex rep) (chain_vertices s0 p) (chain_edges s0 p)) /\
  (forall v, In v starts ->
     delivers_exactly V_dec vid PM LM (d_pred (outcome_state r)) (d_labels (outcome_state r)) (dc_labeled cfg) v [v] []).
Proof.
  intros Hb Hsd. destruct any as (X & pc & HB & _). simpl in HB. destruct HB as [HI HP Ho Hh].
  specialize (HP Hb). split.
  - intros rep Hin. apply in_split in Hin. destruct Hin as (o1 & o2 & Heq).
    destruct (Hh o1 rep o2 Heq) as (X1 & pc1 & H1 & HI1 & HP1 & (X2 & HX1) & _ & _ & Hsame).
    specialize (HP1 Hb).
    destruct (p_path _ _ _ _ _ _ _ _ _ _ _ _ _ _ HP1 Hsd (dr_vertex rep) (dr_distance rep) (dr_depth rep))
      as (s0 & p & Hs0 & Hc & Hw & Hk & Hpp & Hset & Hlab).
    { rewrite HX1. now left. }
    exists s0, p. rewrite d0_start in Hw by (now apply in_map). repeat (split; [assumption|]).
    assert (Hset' : forall u, In u (rev (chain_vertices s0 p)) ->
      pm_get PM (vid u) (d_pred (outcome_state r)) = pm_get PM (vid u) (dr_pred rep)).
    { intros u Hu. apply in_rev in Hu. destruct (Hset u Hu) as (wu & Hwu). now apply (Hsame _ _ Hwu). }
    split; apply ppath_delivers_exactly; auto.
    + apply chain_edges_fst.
    + intros Hl u x d Hin. apply chain_edges_in in Hin. destruct Hin as (w & Hin). eapply (Hlab Hl); eauto.
    + eapply ppath_ext; eauto.
    + apply chain_edges_fst.
    + intros Hl u x d Hin. apply chain_edges_in in Hin. destruct Hin as (w & Hin).
      assert (Hx : In x (chain_vertices s0 p)).
      { unfold chain_vertices. right. apply in_map_iff. exists (x, w, d). auto. }
      destruct (Hset x Hx) as (wx & Hwx). destruct (Hsame _ _ Hwx) as [_ ->]. eapply (Hlab Hl); eauto.
  - intros v Hv. apply ppath_delivers_exactly; [|reflexivity|intros _ u x d []]. simpl. apply pp_start.
    assert (HP0 : pm_get PM (vid v) (create_predecessors vid PM (dc_build_paths cfg) starts) = Some v).
    { rewrite Hb. apply create_predecessors_start; auto. }
    destruct (settled_dec I_dec vid WT X (vid v)) as [(w & u & k & Hin & Hu)|Hn].
    + assert (Hi := i_impX _ _ _ _ _ _ _ _ _ _ _ _ HI _ _ _ Hin).
      apply imp_start_zero in Hi; [|rewrite Hu; now apply in_map]. destruct Hi as [-> _].
      assert (Hus : In u starts) by (apply (i_v0X _ _ _ _ _ _ _ _ _ _ _ _ HI _ Hin); reflexivity).
      assert (u = v) by (apply Hsd; auto). subst u.
      destruct (p_path _ _ _ _ _ _ _ _ _ _ _ _ _ _ HP Hsd _ _ _ Hin) as (s0 & p & _ & Hc & _ & Hk & Hpp & _).
      destruct p; [|discriminate]. inversion Hc; subst. simpl in Hpp. inversion Hpp; subst; auto. 
      exfalso. match goal with H : ppath _ _ _ _ [] |- _ => inversion H end.
    + destruct (p_pend _ _ _ _ _ _ _ _ _ _ _ _ _ _ HP (vid v) Hn) as [[_ ->]|(e & u & wu & ku & ew & l & He & Hv' & _ & _ & _ & Hek & _)]; auto.
      exfalso. assert (Hi := i_impH _ _ _ _ _ _ _ _ _ _ _ _ HI e He). rewrite Hv' in Hi.
      apply imp_start_zero in Hi; [|now apply in_map]. destruct Hi as [Hi _]. rewrite Hek in Hi. discriminate.
Qed.

(** C25 *)
Lemma dij_distance_range : forall (k : nat) (start stop : W) e,
  let l := skipn k os in
  let in_range := filter (fun rep => leb start (dr_distance rep) && ltb (dr_distance rep) stop) l in
  let res := go_for_range (fun rep => leb start (dr_distance rep))
                          (fun rep => ltb (dr_distance rep) stop) l e in
  fst res = in_range /\
  (forall rest, snd res = Stopped rest -> exists below lost,
      l = below ++ in_range ++ lost ++ rest /\
      (forall rep, In rep below -> ltb (dr_distance rep) start = true) /\
      (forall rep, In rep (lost ++ rest) -> leb stop (dr_distance rep) = true) /\
      1 <= length lost <= 2 /\ (in_range <> [] -> length lost = 1)).
Proof.
  intros k start stop e l ir res.
  destruct dij_distances as (_ & HS).
  destruct (go_for_range_spec dr_distance (fun a b => leb a b = true) (w_leb_trans WT) start stop
    (fun rep => leb start (dr_distance rep)) (fun rep => ltb (dr_distance rep) stop)
    (fun o => conj (fun x => x) (fun x => x)) (fun o => w_ltb_ge WT (dr_distance o) stop) e l) as [H1 H2].
  { apply sorted_map. apply sorted_skipn. exact HS. }
  split; [exact H1|]. intros rest Hrest. fold res in H2. rewrite Hrest in H2.
  destruct H2 as (below & lost & Ha & Hb & Hc & Hd & He). exists below, lost.
  split; [exact Ha|]. split; [|split; [|split; [exact Hd|exact He]]].
  - intros rep Hin. specialize (Hb rep Hin). cbv beta in Hb. now apply w_ltb_lt.
  - intros rep Hin. specialize (Hc rep Hin). cbv beta in Hc. now apply w_ltb_ge.
Qed.
End Run.

(** Liveness and termination *)
Lemma dij_plain_live i d l : is_distance WT E St i d -> ltb d inf = true -> ~ St i ->
  (forall s p j, St s -> wwalk WT E s p j -> leb (walk_weight WT p) d = true -> In j l) ->
  exists n, (exists s, snd (run_ None n) = Raised OverflowErrorDistance s) \/
            In i (dij_ids vid (fst (run_ None n))).
Proof.
  intros Hi Hd Hs Hl.
  destruct (dij_live I_dec vid WT DM PM LM next cfg Htree E Hnext Hnn starts None Hd0 d l)
    as (n & os & r & HR & H).
  { intros j k e Hj He. destruct (imp_walk _ _ _ Hj) as (s & p & Hs' & Hw & Hp & _). apply (Hl s p j); auto.
    now rewrite Hp. }
  exists n. unfold dij_run. rewrite HR. simpl. destruct H as [?|H]; auto. right.
  destruct Hi as [(s & p & Hs' & Hw & Hp) _]. destruct (walk_imp p s i Hs' Hw) as [Hinf|(k & e & He & Hle)].
  - rewrite Hp in Hinf. destruct (w_le_lt_contra _ _ _ Hinf Hd).
  - destruct k as [|k].
    + apply imp_0 in He; auto. tauto.
    + destruct (H i k e He) as (rep & Hr & Hv); [now rewrite <- Hp|]. unfold dij_ids. rewrite <- Hv. now apply in_map with (f := fun rep => vid (dr_vertex rep)).
Qed.

Lemma dij_plain_terminates l : (forall i, wreachable WT E St i -> In i l) ->
  exists n os s, run_ None n = (os, Ended s) \/ run_ None n = (os, Raised OverflowErrorDistance s).
Proof.
  intros Hl. apply (dij_terminates I_dec vid WT DM PM LM next cfg Htree E Hnext Hnn starts None Hd0 l).
  intros i k d Hi. apply Hl. destruct (imp_walk _ _ _ Hi) as (s & p & ? & ? & _). exists s, p. auto.
Qed.
End DijkstraPlain.

(** ** Known distances *)
Section DijkstraKnown.
Context {V I L : Type}.
Variable I_dec : forall a b : I, {a = b} + {a <> b}.
Variable vid : V -> I.
Variable WT : Weights.
Notation W := (w_t WT).
Notation leb := (w_leb WT).
Notation ltb := (w_ltb WT).
Notation zero := (w_zero WT).
Notation inf := (w_inf WT).
Variable DM : DMap I W inf.
Variable PM : PMap I V.
Variable LM : PMap I L.
Variable next : V -> list (V * W * L).
Variable cfg : dij_cfg.
Hypothesis Htree : dc_is_tree cfg = false.
Variable E : I -> W -> I -> Prop.
Hypothesis Hnext : presents_weighted WT vid next E.
Hypothesis Hnn : nonnegative WT E.
Variable starts : list V.
Variable known : dm_t DM.
Notation St := (is_start vid starts).
Variable ini : I -> W.
Hypothesis Hini : initial_distances WT St (fun i => dm_get DM i known) ini.
Hypothesis Hpos : forall i, St i -> leb zero (ini i) = true.
Notation d0 := (d0 vid WT DM cfg starts (Some known)).
Notation imp := (imp vid WT DM cfg E starts (Some known)).
Notation improving := (improving WT E St ini).
Notation report := (@dij_report V I L WT DM PM LM).
Notation state := (@dij_state V I L WT DM PM LM).
Notation run_ lim n := (dij_run vid WT DM PM LM next cfg starts (Some known) lim n).

Lemma w_eqb_spec a b : reflect (a = b) (w_eqb WT a b).
Proof.
  unfold w_eqb. destruct (leb a b) eqn:E1; simpl.
  - destruct (leb b a) eqn:E2; constructor; [now apply w_leb_antisym|]. intros ->. rewrite w_leb_refl in E2. discriminate.
  - constructor. intros ->. rewrite w_leb_refl in E1. discriminate.
Qed.

Lemma known_fold (l : list V) : forall m i,
  dm_get DM i (fold_left (fun m p => dm_setdefault (w_eqb WT) DM m (fst p) (snd p)) (map (fun v => (vid v, zero)) l) m)
  = if In_dec I_dec i (map vid l) then (if w_eqb WT (dm_get DM i m) inf then zero else dm_get DM i m) else dm_get DM i m.
Proof.
  assert (Hz : w_eqb WT zero inf = false).
  { unfold w_eqb. rewrite w_zero_inf. apply andb_false_r. }
  induction l as [|v l IH]; intros m i; simpl; auto. rewrite IH. unfold dm_setdefault.
  destruct (I_dec (vid v) i) as [->|Hne].
  - destruct (w_eqb_spec (dm_get DM i m) inf) as [He|He].
    + rewrite dm_get_set_same, Hz. destruct (In_dec _ _ _); auto.
    + destruct (w_eqb_spec (dm_get DM i m) inf); [contradiction|]. destruct (In_dec _ _ _); auto.
  - assert (Hg : dm_get DM i (if w_eqb WT (dm_get DM (vid v) m) inf then dm_set DM (vid v) zero m else m) = dm_get DM i m).
    { destruct (w_eqb WT (dm_get DM (vid v) m) inf); auto. apply dm_get_set_other. congruence. }
    rewrite Hg. destruct (In_dec I_dec i (map vid l)); reflexivity.
Qed.

Lemma d0_ini i : d0 i = ini i.
Proof.
  unfold DijkstraProofs.d0, D0, define_distances. rewrite Htree, known_fold.
  destruct (Hini i) as [H1 H2]. destruct (In_dec I_dec i (map vid starts)) as [Hs|Hs].
  - destruct (w_eqb_spec (dm_get DM i known) inf) as [He|He]; symmetry; auto.
  - symmetry. auto.
Qed.

Lemma imp_improving i k d : imp i k d <-> improving i k d.
Proof.
  split; induction 1.
  - rewrite d0_ini. now constructor.
  - econstructor; eauto. now rewrite <- d0_ini.
  - rewrite <- d0_ini. now constructor.
  - econstructor; eauto. now rewrite d0_ini.
Qed.

Lemma Hd0k : forall i, St i -> leb zero (d0 i) = true.
Proof. intros i Hs. rewrite d0_ini. auto. Qed.

Lemma dij_known lim n os r : run_ lim n = (os, r) ->
  NoDup (dij_ids vid os) /\
  StronglySorted (fun a b => leb (dr_distance a) (dr_distance b) = true) os /\
  (forall rep, In rep os -> 0 < dr_depth rep /\
     improving (vid (dr_vertex rep)) (dr_depth rep) (dr_distance rep) /\
     forall k d, improving (vid (dr_vertex rep)) k d -> leb (dr_distance rep) d = true) /\
  (forall s', r = Ended s' -> forall i k d, improving i (S k) d -> In i (dij_ids vid os)).
Proof.
  intros HR.
  destruct (dij_sound I_dec vid WT DM PM LM next cfg Htree E Hnext Hnn starts (Some known) Hd0k lim n os r HR) as (H1 & H2 & H3).
  split; [exact H1|split; [exact H2|split]].
  - intros rep Hin. destruct (H3 rep Hin) as (Ha & Hb & Hc). split; auto. split; [now apply imp_improving|].
    intros k d Hi. apply (Hc k d). now apply imp_improving.
  - intros s' Hr i k d Hi. apply imp_improving in Hi.
    destruct (dij_complete I_dec vid WT DM PM LM next cfg Htree E Hnext Hnn starts (Some known) Hd0k lim n os r HR s' Hr i k d Hi)
      as (rep & Hin & <-). unfold dij_ids. now apply in_map with (f := fun rep => vid (dr_vertex rep)).
Qed.

Lemma dij_known_terminates l : (forall i k d, improving i k d -> In i l) ->
  exists n os s, run_ None n = (os, Ended s) \/ run_ None n = (os, Raised OverflowErrorDistance s).
Proof.
  intros Hl. apply (dij_terminates I_dec vid WT DM PM LM next cfg Htree E Hnext Hnn starts (Some known) Hd0k l).
  intros i k d Hi. apply (Hl i k d). now apply imp_improving.
Qed.
End DijkstraKnown.
