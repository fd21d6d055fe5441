(** Neighbor functions that look at the search, for A* and for bidirectional searches: each id is asked for at most once (per direction), and what a pass depends on. *)
From Coq Require Import List Bool Arith ZArith Lia Permutation.
From Verif Require Import Machine MachineMore Common CommonProofs GearSpec GearProofs Spec TraversalSpec Weight WeightSpec BFSModel AStarModel AStarSpec AStarProofs AStarFinal ReadSpec ReadProofs HeapModel HeapProofs DijkstraModel
  BiBFSModel BiSPModel BiSPSpec BiSPSide BiSPProofs BiSPMore AwareModel AwareSpec AwareProofs AwareOnce AwareMore AwareInst AwareBiModel.
Import ListNotations.

Lemma nodup_app_intro {A} (l r : list A) : NoDup l -> NoDup r -> (forall x, In x l -> In x r -> False) -> NoDup (l ++ r).
Proof.
  induction l as [|a l IH]; simpl; intros H1 H2 H; auto. inversion H1; subst. constructor; [|apply IH; auto; intros x Hx; apply H; now right].
  intros Hi. apply in_app_or in Hi. destruct Hi as [Hi|Hi]; [auto|]. apply (H a); auto.
Qed.

(** *** A* *)
Section AStar.
Context {V I L : Type}.
Variable V_dec : forall a b : V, {a = b} + {a <> b}.
Variable I_dec : forall a b : I, {a = b} + {a <> b}.
Variable vid : V -> I.
Variable WT : Weights.
Variable DM : DMap I (w_t WT) (w_inf WT).
Variable PM : PMap I V.
Variable LM : PMap I L.
Variable cfg : ast_cfg.
Variable heuristic : V -> w_t WT.
Notation step f := (ast_step vid WT DM PM LM f cfg heuristic).
Notation cids s := (map vid (map (fun x => fst (fst x)) (a_calls s))).

Lemma ast_local f g s : (forall v, In v (ast_asks vid WT cfg s) -> f v = g v) -> step f s = step g s.
Proof.
  unfold ast_step, ast_asks. destruct (a_pc s); auto. destruct (a_heap s) as [|[[w no] [v k]] h]; auto.
  destruct (negb (ac_is_tree cfg) && w_ltb WT (dm_get DM (vid v) (a_guesses s)) w); auto.
  cbv zeta. change (a_limit (ast_export vid WT DM PM LM (a_set_heap WT DM PM LM s h) v k)) with (a_limit s). destruct (limit_check (a_limit s)); auto.
  intros H. unfold ast_expand. rewrite (H v); [reflexivity|now left].
Qed.

Lemma ast_called f s o s' : step f s = Go o s' -> cids s' = rev (map vid (ast_asks vid WT cfg s)) ++ cids s.
Proof.
  unfold ast_step, ast_asks. intros H. destruct (a_pc s) as [|v w k rest].
  - destruct (a_heap s) as [|[[w no] [v k]] h]; [discriminate|].
    destruct (negb (ac_is_tree cfg) && w_ltb WT (dm_get DM (vid v) (a_guesses s)) w); [destruct (limit_check (a_limit s)); inversion H; subst; reflexivity|].
    cbv zeta in H. change (a_limit (ast_export vid WT DM PM LM (a_set_heap WT DM PM LM s h) v k)) with (a_limit s) in H. destruct (limit_check (a_limit s)); [|discriminate].
    inversion H; subst. reflexivity.
  - destruct rest as [|[[x ew] l] rest]; [inversion H; subst; reflexivity|]. cbv zeta in H.
    destruct (w_leb WT (w_inf WT) (w_add WT ew w)); [discriminate|]. destruct (negb _ && _); [inversion H; subst; reflexivity|].
    destruct (w_eqb WT (heuristic x) (w_inf WT)); [inversion H; subst; reflexivity|].
    destruct (w_leb WT (w_inf WT) _); inversion H; subst; reflexivity.
Qed.

Lemma ast_asked_go f s : ast_asks vid WT cfg s <> [] -> exists o s', step f s = Go o s'.
Proof.
  unfold ast_step, ast_asks. destruct (a_pc s); try tauto. destruct (a_heap s) as [|[[w no] [v k]] h]; try tauto. destruct (limit_check (a_limit s)) eqn:E; try tauto.
  destruct (negb (ac_is_tree cfg) && w_ltb WT (dm_get DM (vid v) (a_guesses s)) w); try tauto.
  cbv zeta. change (a_limit (ast_export vid WT DM PM LM (a_set_heap WT DM PM LM s h) v k)) with (a_limit s). rewrite E. eauto.
Qed.

Hypothesis Htree : ac_is_tree cfg = false.
Hypothesis Hex : exact WT.
Variable h : I -> w_t WT.
Hypothesis Hh : forall v, heuristic v = h (vid v).
Hypothesis Hfin : finite_estimates WT h.

Definition ast_good (i : I) (es : list (V * w_t WT * L)) : Prop :=
  forall e, In e es -> w_leb WT (w_zero WT) (snd (fst e)) = true /\ w_leb WT (h i) (w_add WT (snd (fst e)) (h (vid (fst (fst e))))) = true.

Lemma ast_once T starts lim n os s : (forall i, ast_good i (T i)) -> NoDup (map vid starts) ->
  run (step (fun v => T (vid v))) n (ast_init vid WT DM PM LM cfg heuristic starts None None lim) = (os, Running s) -> NoDup (cids s).
Proof using V_dec I_dec Htree Hex Hh Hfin.
  intros HT Hs HR.
  set (E := fun i w j => In (w, j) (map (fun e => (snd (fst e), vid (fst (fst e)))) (T i))).
  assert (Hnext : presents_weighted WT vid (fun v => T (vid v)) E) by apply table_presents_weighted.
  assert (Hnn : nonnegative WT E).
  { intros i w j Hin. unfold E in Hin. rewrite in_map_iff in Hin. destruct Hin as (e & Heq & Hin). inversion Heq; subst. exact (proj1 (HT i e Hin)). }
  assert (Hc : consistent WT E h).
  { intros i w j Hin. unfold E in Hin. rewrite in_map_iff in Hin. destruct Hin as (e & Heq & Hin). inversion Heq; subst. exact (proj2 (HT i e Hin)). }
  destruct (ast_consistent_all V_dec I_dec vid WT DM PM LM (fun v => T (vid v)) cfg Htree E Hnext Hnn Hex heuristic h Hh starts lim n os (Running s) HR Hc Hfin) as (N1 & _).
  destruct (ast_asked vid WT DM PM LM (fun v => T (vid v)) cfg heuristic starts None None lim n os (Running s) HR) as ((extra & He & _ & Hne) & others & HP).
  destruct extra as [|x extra]; [|destruct Hne as (s' & Hs'); [discriminate|discriminate]]. rewrite app_nil_r in He. cbn [outcome_state] in *.
  pose proof (proj1 (ast_any_all I_dec vid WT DM PM LM (fun v => T (vid v)) cfg Htree E Hnext Hnn Hex heuristic h Hh starts) lim n os (Running s) HR) as (Hst & _).
  set (C := a_calls s) in *. set (vs := fun l : list (V * w_t WT * nat) => map vid (map (fun x => fst (fst x)) l)).
  change (NoDup (vs C)).
  assert (HA : Permutation (vs C) (vs (filter positive_depth C) ++ vs (filter (fun c => snd c =? 0) C))).
  { clear. unfold vs. rewrite <- !map_app. apply Permutation_map, Permutation_map. induction C as [|[c k] C IH]; simpl; auto. unfold positive_depth at 1. simpl.
    destruct k as [|k]; simpl; [etransitivity; [apply perm_skip; exact IH|apply Permutation_middle]|now apply perm_skip]. }
  apply (Permutation_NoDup (Permutation_sym HA)).
  assert (Hpos : Permutation (vs (filter positive_depth C)) (ast_ids vid os)).
  { unfold vs. etransitivity; [apply Permutation_map, Permutation_map, ReadProofs.filter_perm, Permutation_rev|]. rewrite <- He, map_map, map_map. apply Permutation_refl. }
  assert (Hz : forall i, In i (vs (filter (fun c => snd c =? 0) C)) -> is_start vid starts i).
  { intros i Hi. unfold vs in Hi. apply in_map_iff in Hi. destruct Hi as (v & <- & Hv). apply in_map. apply (Permutation_in _ (Permutation_sym HP)). apply in_or_app. now left. }
  apply nodup_app_intro.
  - apply (Permutation_NoDup (Permutation_sym Hpos)). exact N1.
  - apply (Permutation_map vid) in HP. apply (Permutation_NoDup HP) in Hs. rewrite map_app in Hs. exact (NoDup_before _ _ Hs).
  - intros i H1 H2. apply Hz in H2. apply (Permutation_in _ Hpos) in H1. apply in_map_iff in H1. destruct H1 as (rep & <- & Hin). exact (proj1 (Hst rep Hin) H2).
Qed.

Lemma ast_aware starts lim (answer : nat -> @ast_state V I L WT DM PM LM -> V -> exn + list (V * w_t WT * L)) n : NoDup (map vid starts) ->
  (forall i s v es e, answer i s v = inr es -> In e es -> w_leb WT (w_zero WT) (snd (fst e)) = true /\ w_leb WT (h (vid v)) (w_add WT (snd (fst e)) (h (vid (fst (fst e))))) = true) ->
  let init := ast_init vid WT DM PM LM cfg heuristic starts None None lim in
  exists T, (forall i, ast_good i (T i)) /\ runs_like (fun f => ast_step vid WT DM PM LM f cfg heuristic) (ast_asks vid WT cfg) [] answer (fun v => T (vid v)) n init /\
    table_of_answers (fun f => ast_step vid WT DM PM LM f cfg heuristic) (ast_asks vid WT cfg) [] answer vid n init T.
Proof using V_dec I_dec Htree Hex Hh Hfin.
  intros HN Hpos init.
  apply (aware_table_gen I_dec vid (fun f => ast_step vid WT DM PM LM f cfg heuristic) (ast_asks vid WT cfg) [] answer (fun s => cids s) ast_good init
    ast_local (fun f s o s' H => eq_ind_r (fun c => Permutation c _) (Permutation_refl _) (ast_called f s o s' H)) ast_asked_go (fun T n os s HT HR => ast_once T starts lim n os s HT HN HR) eq_refl).
  - intros i e [].
  - intros i s v e He. unfold edges_of in He. destruct (answer i s v) as [x|es] eqn:Ea; [destruct He|]. exact (Hpos i s v es e Ea He).
Qed.

Lemma ast_aware_reports starts lim (answer : nat -> @ast_state V I L WT DM PM LM -> V -> exn + list (V * w_t WT * L)) n os r : NoDup (map vid starts) ->
  (forall i s v es e, answer i s v = inr es -> In e es -> w_leb WT (w_zero WT) (snd (fst e)) = true /\ w_leb WT (h (vid v)) (w_add WT (snd (fst e)) (h (vid (fst (fst e))))) = true) ->
  let step f := ast_step vid WT DM PM LM f cfg heuristic in let init := ast_init vid WT DM PM LM cfg heuristic starts None None lim in
  let E := weighted_edge_of_answers step (ast_asks vid WT cfg) answer vid n init in
  aware_run step (ast_asks vid WT cfg) [] answer 0 n init = (os, r) ->
  NoDup (ast_ids vid os) /\
  (forall rep, In rep os -> is_distance WT E (is_start vid starts) (vid (ar_vertex rep)) (ar_path_length rep)).
Proof using V_dec I_dec Htree Hex Hh Hfin.
  intros HN Hpos step init E HR. destruct (ast_aware starts lim answer n HN Hpos) as (T & HG & HL & HT).
  pose proof (table_weighted_edges vid WT _ _ _ _ _ _ HT) as HE.
  assert (HG' : forall i w j, E i w j -> w_leb WT (w_zero WT) w = true /\ w_leb WT (h i) (w_add WT w (h j)) = true).
  { intros i w j (k & v & es & u & l & Ha & Hv & Hin & Hj). destruct HT as [HT _]. rewrite <- (HT _ _ _ Ha) in Hin. subst i j. exact (HG _ _ Hin). }
  apply (aware_reports vid step (ast_asks vid WT cfg) [] answer init n T (fun os => NoDup (ast_ids vid os) /\
     (forall rep, In rep os -> is_distance WT E (is_start vid starts) (vid (ar_vertex rep)) (ar_path_length rep))) os r HL); [|exact HR].
  intros m. destruct (run (step (fun v => T (vid v))) m init) as [os1 r1] eqn:E1. cbn [fst].
  destruct (ast_consistent_all V_dec I_dec vid WT DM PM LM (fun v => T (vid v)) cfg Htree E HE (fun i w j H => proj1 (HG' i w j H)) Hex heuristic h Hh starts lim m os1 r1 E1 (fun i w j H => proj2 (HG' i w j H)) Hfin) as (H1 & H2 & _).
  auto.
Qed.
End AStar.

(** *** Bidirectional breadth first search *)
Section BiBFS.
Context {V I L : Type}.
Variable V_dec : forall a b : V, {a = b} + {a <> b}.
Variable vid : V -> I.
Variable VS : VSet I.
Variable PM : PMap I V.
Variable LM : PMap I L.
Variables labeled build silent : bool.
Notation state := (@bb_state V I L VS PM LM).
Notation pass f := (bb_pass V_dec vid VS PM LM labeled build silent f).
Notation cfg := (bb_cfg labeled build).
Notation bstep f := (bfs_step vid VS PM LM f cfg).
Notation sids d b := (map (did vid) (map (pair d) (b_calls (bs_state b)))).
Definition bb_called (s : state) : list (bool * I) := sids (bb_forwards s) (bb_current s) ++ sids (negb (bb_forwards s)) (bb_other s).

Lemma bb_fun (f : bool * V -> list (V * L)) (d : bool) : (if d then fun v => f (true, v) else fun v => f (false, v)) = fun v => f (d, v).
Proof. now destruct d. Qed.

Lemma bb_local f g s : (forall v, In v (bb_asks s) -> f v = g v) -> pass f s = pass g s.
Proof.
  intros H. unfold bb_pass, bb_step. rewrite !bb_fun.
  rewrite (bfs_local vid VS PM LM cfg (fun v => f (bb_forwards s, v)) (fun v => g (bb_forwards s, v)) (bs_state (bb_current s))); [reflexivity|].
  intros v Hv. apply H. unfold bb_asks. now apply in_map.
Qed.

(** A pass that asks reports nothing. *)
Lemma bfs_asks_silent f b : bfs_asks b <> [] -> exists b', bstep f b = Go [] b'.
Proof. unfold bfs_step, bfs_asks. destruct (b_pc b); try tauto. destruct (b_to_expand b); try tauto. destruct (limit_check (b_limit b)); try tauto. eauto. Qed.

Lemma bb_consume_go s reports o s' : bb_consume V_dec vid VS PM LM labeled build s reports = Go o s' ->
  (bb_forwards s' = bb_forwards s /\ bs_state (bb_current s') = bs_state (bb_current s) /\ bs_state (bb_other s') = bs_state (bb_other s)) \/
  (bb_forwards s' = negb (bb_forwards s) /\ bs_state (bb_current s') = bs_state (bb_other s) /\ bs_state (bb_other s') = bs_state (bb_current s)).
Proof.
  revert s. induction reports as [|r rest IH]; intros s H; cbn [bb_consume] in H.
  - inversion H; subst. auto.
  - cbv zeta in H. match type of H with (if ?c then _ else _) = _ => destruct c end.
    + inversion H; subst. right. auto.
    + destruct (vs_mem VS _ _); [discriminate|]. apply IH in H. cbn [bb_set_current bb_forwards bb_current bb_other bs_state] in H. exact H.
Qed.

(** What a pass does with the two traversals. *)
Lemma bb_pass_go f s o s' : pass f s = Go o s' -> exists ob b, bstep (fun v => f (bb_forwards s, v)) (bs_state (bb_current s)) = Go ob b /\
  ((bb_forwards s' = bb_forwards s /\ bs_state (bb_current s') = b /\ bs_state (bb_other s') = bs_state (bb_other s)) \/
   (bb_forwards s' = negb (bb_forwards s) /\ bs_state (bb_current s') = bs_state (bb_other s) /\ bs_state (bb_other s') = b)).
Proof.
  unfold bb_pass, bb_step. rewrite bb_fun. intros H. destruct (bfs_step _ _ _ _ _ _ _) as [ob b|ob b|ob x b]; [|unfold bb_fail in H; destruct silent; discriminate|discriminate].
  exists ob, b. split; [reflexivity|]. apply bb_consume_go in H. exact H.
Qed.

Lemma bb_called_go f s o s' : pass f s = Go o s' -> Permutation (bb_called s') (rev (map (did vid) (bb_asks s)) ++ bb_called s).
Proof.
  intros H. destruct (bb_pass_go _ _ _ _ H) as (ob & b & Hb & Hc). pose proof (bfs_called vid VS PM LM cfg _ _ _ _ Hb) as HC.
  assert (HD : forall d, map (did vid) (map (pair d) (b_calls b)) = rev (map (did vid) (map (pair d) (bfs_asks (bs_state (bb_current s))))) ++ sids d (bb_current s)).
  { intros d. apply (f_equal (map (pair d))) in HC. rewrite map_app, map_rev in HC. rewrite !map_map in *. exact HC. }
  unfold bb_called, bb_asks. destruct Hc as [(-> & -> & ->)|(-> & -> & ->)].
  - rewrite HD, app_assoc. apply Permutation_refl.
  - etransitivity; [apply Permutation_app_comm|]. rewrite negb_involutive, HD, <- app_assoc. apply Permutation_refl.
Qed.

Lemma bb_asked_go f s : bb_asks s <> [] -> exists o s', pass f s = Go o s'.
Proof.
  intros H. assert (HB : bfs_asks (bs_state (bb_current s)) <> []) by (intros C; apply H; unfold bb_asks; now rewrite C).
  unfold bb_pass, bb_step. rewrite bb_fun. destruct (bfs_asks_silent (fun v => f (bb_forwards s, v)) _ HB) as (b' & ->). cbn [bb_consume]. eauto.
Qed.

Lemma bb_once T starts goals lim n os s : NoDup (map vid starts) -> NoDup (map vid goals) ->
  run (pass (fun v => T (did vid v))) n (bb_init vid VS PM LM labeled build starts goals lim) = (os, Running s) -> NoDup (bb_called s).
Proof.
  intros H1 H2 HR.
  set (R := fun (d : bool) (b : @bfs_state V I L VS PM LM) => exists m os,
     run (bstep (fun v => T (did vid (d, v)))) m (bfs_init vid VS PM LM cfg (if d then starts else goals) None lim) = (os, Running b)).
  assert (HRgo : forall d b ob b', R d b -> bstep (fun v => T (did vid (d, v))) b = Go ob b' -> R d b').
  { intros d b ob b' (m & os1 & HR1) Hs. exists (m + 1), (os1 ++ ob). rewrite run_add, HR1. cbn [run]. rewrite Hs. cbn. now rewrite app_nil_r. }
  assert (HRn : forall d b, R d b -> NoDup (map (did vid) (map (pair d) (b_calls b)))).
  { intros d b (m & os1 & HR1). apply bfs_once in HR1; [|reflexivity|destruct d; assumption]. rewrite map_map.
    replace (map (fun x => did vid (d, x)) (b_calls b)) with (map (pair d) (map vid (b_calls b))) by now rewrite map_map.
    apply FinFun.Injective_map_NoDup; [|exact HR1]. intros x y Hxy. now inversion Hxy. }
  assert (HP : R (bb_forwards s) (bs_state (bb_current s)) /\ R (negb (bb_forwards s)) (bs_state (bb_other s))).
  { eapply (run_invariant (pass (fun v => T (did vid v))) (fun s => R (bb_forwards s) (bs_state (bb_current s)) /\ R (negb (bb_forwards s)) (bs_state (bb_other s)))); [| |exact HR].
    - intros s1 o s2 [P1 P2] Hs. destruct (bb_pass_go _ _ _ _ Hs) as (ob & b & Hb & [(-> & -> & ->)|(-> & -> & ->)]).
      + split; [eapply HRgo; eauto|exact P2].
      + rewrite negb_involutive. split; [exact P2|eapply HRgo; eauto].
    - split; exists 0, []; reflexivity. }
  destruct HP as [P1 P2]. apply nodup_app_intro; [apply HRn, P1|apply HRn, P2|].
  intros x Hx Hy. rewrite map_map, in_map_iff in Hx, Hy. destruct Hx as (v & <- & _), Hy as (u & Hu & _). unfold did in Hu. cbn in Hu. inversion Hu. destruct (bb_forwards s); discriminate.
Qed.

Variable I_dec : forall a b : I, {a = b} + {a <> b}.
Definition DI_dec : forall a b : bool * I, {a = b} + {a <> b}.
Proof. decide equality. apply bool_dec. Defined.

Lemma bb_aware starts goals lim (answer : nat -> state -> bool * V -> exn + list (V * L)) n : NoDup (map vid starts) -> NoDup (map vid goals) ->
  let init := bb_init vid VS PM LM labeled build starts goals lim in
  exists T, runs_like (bb_pass V_dec vid VS PM LM labeled build silent) bb_asks [] answer (fun v => T (did vid v)) n init /\
    table_of_answers (bb_pass V_dec vid VS PM LM labeled build silent) bb_asks [] answer (did vid) n init T.
Proof.
  intros H1 H2 init.
  destruct (aware_table_gen DI_dec (did vid) (bb_pass V_dec vid VS PM LM labeled build silent) bb_asks [] answer bb_called (fun _ _ => True) init
    bb_local bb_called_go bb_asked_go (fun T n os s _ HR => bb_once T starts goals lim n os s H1 H2 HR) eq_refl (fun _ => Logic.I) (fun _ _ _ => Logic.I) n) as (T & _ & H).
  exists T. exact H.
Qed.
End BiBFS.

(** *** Bidirectional search of shortest paths *)
Section BiSP.
Context {V I L : Type}.
Variable V_dec : forall a b : V, {a = b} + {a <> b}.
Variable I_dec : forall a b : I, {a = b} + {a <> b}.
Variable vid : V -> I.
Variable WT : Weights.
Hypothesis Hex : exact_addition WT.
Variable DM : DMap I (w_t WT) (w_inf WT).
Variable PM : PMap I V.
Variable LM : PMap I L.
Variables labeled build silent : bool.
Notation state := (@b2_state V I L WT DM PM LM).
Notation side := (@b2_side V I L WT DM PM LM).
Notation pass f := (b2_pass V_dec vid WT DM PM LM labeled build silent f).
Notation sids d b := (map (did vid) (map (pair d) (map fst (b2_calls b)))).
Definition b2_called (s : state) : list (bool * I) := sids (b2_forwards s) (b2_current s) ++ sids (negb (b2_forwards s)) (b2_other s).

Lemma b2_fun {A} (f : bool * V -> A) (d : bool) v : (if d then fun v => f (true, v) else fun v => f (false, v)) v = f (d, v).
Proof using. now destruct d. Qed.

Lemma b2_local f g s : (forall v, In v (b2_asks vid WT s) -> f v = g v) -> pass f s = pass g s.
Proof using.
  unfold b2_pass, b2_step, b2_asks. destruct (b2_pc_of s); auto. destruct (b2_heap (b2_current s)) as [|[[w no] v] h]; auto.
  cbv zeta. cbn [b2_popped b2_dist b2_limit]. destruct (w_ltb WT _ w); auto. destruct (negb _ && _); auto.
  destruct (limit_check (b2_limit (b2_current s))); auto. intros H. now rewrite !b2_fun, (H (b2_forwards s, v) (or_introl eq_refl)).
Qed.

Lemma b2_called_go f s o s' : pass f s = Go o s' -> Permutation (b2_called s') (rev (map (did vid) (b2_asks vid WT s)) ++ b2_called s).
Proof using.
  unfold b2_pass, b2_step, b2_asks, b2_called. intros H. destruct (b2_pc_of s) as [|v w rest].
  - destruct (b2_heap (b2_current s)) as [|[[w no] v] h]; [unfold b2_failed in H; destruct silent; discriminate|].
    cbv zeta in H. cbn [b2_popped b2_dist b2_limit] in H. destruct (w_ltb WT _ w).
    + inversion H; subst. cbn. rewrite negb_involutive. destruct (limit_check _); cbn [map rev app]; apply Permutation_app_comm.
    + destruct (negb _ && _); [discriminate|]. destruct (limit_check (b2_limit (b2_current s))); [|discriminate]. inversion H; subst. cbn. apply Permutation_refl.
  - destruct rest as [|[[x ew] l] rest].
    + inversion H; subst. cbn. rewrite negb_involutive. apply Permutation_app_comm.
    + cbv zeta in H. destruct (w_leb WT (w_inf WT) _); [discriminate|]. destruct (w_leb WT _ _); inversion H; subst; cbn; apply Permutation_refl.
Qed.

Lemma b2_asked_go f s : b2_asks vid WT s <> [] -> exists o s', pass f s = Go o s'.
Proof using.
  unfold b2_pass, b2_step, b2_asks. destruct (b2_pc_of s); try tauto. destruct (b2_heap (b2_current s)) as [|[[w no] v] h]; try tauto.
  destruct (limit_check (b2_limit (b2_current s))) eqn:El; try tauto.
  cbv zeta. cbn [b2_popped b2_dist b2_limit]. destruct (w_ltb WT _ w); try tauto. destruct (negb _ && _); try tauto. rewrite El. eauto.
Qed.

Definition b2_good (es : list (V * w_t WT * L)) : Prop := forall e, In e es -> w_leb WT (w_zero WT) (snd (fst e)) = true.

Lemma b2_once T starts goals first lim n os s : (forall i, b2_good (T i)) -> NoDup (map vid starts) -> NoDup (map vid goals) ->
  (forall i, is_start vid starts i -> is_start vid goals i -> False) ->
  run (pass (fun v => T (did vid v))) n (b2_init vid WT DM PM LM build first starts goals lim) = (os, Running s) -> NoDup (b2_called s).
Proof using Hex I_dec.
  intros HT H1 H2 Hdis HR.
  set (nf := fun v => T (did vid (true, v))). set (nb := fun v => T (did vid (false, v))).
  set (E := fun i w j => In (w, j) (map (fun e => (snd (fst e), vid (fst (fst e)))) (T (true, i)))).
  set (B := fun i w j => In (w, j) (map (fun e => (snd (fst e), vid (fst (fst e)))) (T (false, i)))).
  assert (Hf : presents_weighted WT vid nf E) by exact (table_presents_weighted WT vid (fun i => T (true, i))).
  assert (Hb : presents_weighted WT vid nb B) by exact (table_presents_weighted WT vid (fun i => T (false, i))).
  assert (HnE : nonnegative WT E).
  { intros i w j Hin. unfold E in Hin. rewrite in_map_iff in Hin. destruct Hin as (e & Heq & Hin). inversion Heq; subst. exact (HT _ e Hin). }
  assert (HnB : nonnegative WT B).
  { intros i w j Hin. unfold B in Hin. rewrite in_map_iff in Hin. destruct Hin as (e & Heq & Hin). inversion Heq; subst. exact (HT _ e Hin). }
  set (Q := fun (_ : bool) (b : side) => NoDup (entries_of vid WT DM PM LM b)).
  assert (HP : GI vid WT DM PM LM nf nb E B starts goals s /\ forall d, Q d (side_of WT DM PM LM d s)).
  { eapply (run_invariant (pass (fun v => T (did vid v))) (fun s => GI vid WT DM PM LM nf nb E B starts goals s /\ forall d, Q d (side_of WT DM PM LM d s))); [| |exact HR].
    - intros s1 o s2 [G HQ] Hs. change (b2_step V_dec vid WT DM PM LM nf nb labeled build silent s1 = Go o s2) in Hs.
      split; [exact (proj1 (GI_go V_dec I_dec vid WT Hex DM PM LM nf nb labeled build silent E B Hf Hb HnE HnB starts goals s1 o s2 G Hs))|].
      pose proof (moves V_dec vid WT DM PM LM nf nb labeled build silent s1 o s2 Hs) as Hmv.
      apply (both_sides vid WT DM PM LM nf nb labeled build E B starts goals Q s1 s2 G Hmv).
      + intros d b w no v h0 HI Hh _ HQb. unfold Q, entries_of in *. rewrite Hh in HQb. cbn [b2_popped b2_heap b2_calls map] in *. rewrite NoDup_mid in HQb. now inversion HQb.
      + intros d b w no v h0 l0 HI Hh _ _ _ _ _ _ HQb. unfold Q, entries_of in *. rewrite Hh in HQb. cbn [b2_popped b2_expanded b2_heap b2_calls map] in *. rewrite NoDup_mid in HQb. exact HQb.
      + intros d b v w x ew l rest HI Hov Hle HQb. unfold Q in *.
        assert (HP : Permutation (entries_of vid WT DM PM LM (b2_improved vid WT DM PM LM labeled build b v x (w_add WT ew w) l)) ((vid x, w_add WT ew w) :: entries_of vid WT DM PM LM b)).
        { unfold entries_of. cbn [b2_improved b2_heap b2_calls]. rewrite (Permutation_map _ (heappush_perm WT _ _)). simpl. symmetry. apply Permutation_middle. }
        apply (Permutation_NoDup (Permutation_sym HP)). constructor; auto.
        unfold entries_of. rewrite in_app_iff. intros [Hin|Hin]; apply in_map_iff in Hin.
        * destruct Hin as ([u wu] & Heq & Hin). simpl in Heq. injection Heq as Hu _.
          exact (improve_unsettled vid WT DM _ _ (pres_of vid WT nf nb E B Hf Hb d) (nn_of WT E B HnE HnB d) _ _ _ _ _ _ _ _ _ _ HI Hle u wu Hin Hu).
        * destruct Hin as (e & Heq & Hin). injection Heq as Hu Hk. destruct (s_heap _ _ _ _ _ _ _ _ _ _ HI e Hin) as [Hd _].
          rewrite Hu, Hk in Hd. congruence.
      + exact HQ.
    - split; [exact (GI_init I_dec vid WT Hex DM PM LM nf nb build E B starts goals Hdis first lim)|].
      assert (Hi : forall d l, NoDup (map vid l) -> Q d (b2_start vid WT DM PM LM build l lim)).
      { intros d l Hl. unfold Q, entries_of. cbn [b2_start b2_calls b2_heap map app]. set (D := define_distances WT DM None _ false).
        apply (NoDup_map_inv fst). rewrite map_map. cbn [fst].
        apply (Permutation_NoDup (Permutation_sym (Permutation_map (fun e => vid (e_val e)) (heapify_perm WT (b2_entries vid WT DM 256 D l))))).
        replace (map (fun e => vid (e_val e)) (b2_entries vid WT DM 256 D l)) with (map vid l); auto. clear. generalize D, 256%Z. clear D. intros D. induction l as [|a l IH]; simpl; intros no; auto. f_equal. apply IH. }
      intros [|]; unfold side_of; simpl; apply Hi; assumption. }
  destruct HP as [G HQ].
  assert (HS : forall d X op Hp D (b : side), SInv vid WT DM (next_of WT nf nb d) (E_of WT E B d) (starts_of starts goals d) X op Hp D -> X = b2_calls b -> NoDup (entries_of vid WT DM PM LM b) -> NoDup (sids d b)).
  { intros d X op Hp D b HI -> HN. unfold entries_of in HN. apply NoDup_app_l in HN.
    apply (NoDup_map_fst (fun i => dm_get DM i D)) in HN.
    - rewrite map_map in HN. cbn [fst] in HN. rewrite !map_map. 
      replace (map (fun x => did vid (d, fst x)) (b2_calls b)) with (map (pair d) (map (fun x => vid (fst x)) (b2_calls b))) by now rewrite map_map.
      apply FinFun.Injective_map_NoDup; [|exact HN]. intros x y Hxy. now inversion Hxy.
    - intros p Hp0. apply in_map_iff in Hp0. destruct Hp0 as ([v w] & <- & Hin). simpl. destruct (s_X _ _ _ _ _ _ _ _ _ _ HI v w Hin) as [-> _]. reflexivity. }
  apply nodup_app_intro.
  - eapply HS; [exact (g_cur _ _ _ _ _ _ _ _ _ _ _ _ G)|reflexivity|]. pose proof (HQ (b2_forwards s)) as K. unfold Q, side_of in K. rewrite eqb_reflx in K. exact K.
  - eapply HS; [exact (g_oth _ _ _ _ _ _ _ _ _ _ _ _ G)|reflexivity|]. pose proof (HQ (negb (b2_forwards s))) as K. unfold Q, side_of in K. destruct (b2_forwards s); exact K.
  - intros x Hx Hy. rewrite !map_map, in_map_iff in Hx, Hy. destruct Hx as (v & <- & _), Hy as (u & Hu & _). unfold did in Hu. cbn in Hu. inversion Hu. destruct (b2_forwards s); discriminate.
Qed.

Lemma b2_aware starts goals first lim (answer : nat -> state -> bool * V -> exn + list (V * w_t WT * L)) n : NoDup (map vid starts) -> NoDup (map vid goals) ->
  (forall i, is_start vid starts i -> is_start vid goals i -> False) ->
  (forall i s v es e, answer i s v = inr es -> In e es -> w_leb WT (w_zero WT) (snd (fst e)) = true) ->
  let init := b2_init vid WT DM PM LM build first starts goals lim in
  exists T, (forall i, b2_good (T i)) /\ runs_like (b2_pass V_dec vid WT DM PM LM labeled build silent) (b2_asks vid WT) [] answer (fun v => T (did vid v)) n init /\
    table_of_answers (b2_pass V_dec vid WT DM PM LM labeled build silent) (b2_asks vid WT) [] answer (did vid) n init T.
Proof using Hex I_dec.
  intros H1 H2 Hdis Hpos init.
  apply (aware_table_gen (DI_dec I_dec) (did vid) (b2_pass V_dec vid WT DM PM LM labeled build silent) (b2_asks vid WT) [] answer b2_called (fun _ => b2_good) init
    b2_local b2_called_go b2_asked_go (fun T n os s HT HR => b2_once T starts goals first lim n os s HT H1 H2 Hdis HR) eq_refl).
  - intros _ e [].
  - intros i s v e He. unfold edges_of in He. destruct (answer i s v) as [x|es] eqn:Ea; [destruct He|]. exact (Hpos i s v es e Ea He).
Qed.
End BiSP.
