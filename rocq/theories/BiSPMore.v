(** The bidirectional search of shortest paths: outdated heap entries, termination, whole runs. *)
From Coq Require Import List ZArith Bool Lia Arith Permutation.
From Verif Require Import Machine MachineMore GearSpec Spec TraversalSpec Common CommonProofs PathsModel PathModel Weight WeightSpec HeapModel HeapProofs DijkstraModel
  BiSPModel BiSPSpec BiSPSide BiSPProofs.
Import ListNotations.

Lemma filter_perm {A} (f : A -> bool) l l' : Permutation l l' -> Permutation (filter f l) (filter f l').
Proof.
  induction 1 as [|x l l' H IH|x y l|l l' l'' H1 IH1 H2 IH2]; simpl; auto.
  - destruct (f x); auto.
  - destruct (f x), (f y); auto. apply perm_swap.
  - now transitivity (filter f l').
Qed.

Lemma filter_le {A} (f : A -> bool) l : length (filter f l) <= length l.
Proof. induction l as [|x l IH]; simpl; auto. destruct (f x); simpl; lia. Qed.

Lemma NoDup_app_l {A} (a b : list A) : NoDup (a ++ b) -> NoDup a.
Proof. induction a as [|x a IH]; simpl; intros H; constructor; inversion H; subst; auto. intros C. apply H2. apply in_or_app. auto. Qed.

Lemma NoDup_map_fst {A B} (g : A -> B) (l : list (A * B)) : NoDup l -> (forall p, In p l -> snd p = g (fst p)) -> NoDup (map fst l).
Proof.
  induction l as [|x l IH]; simpl; intros HN HD; constructor; inversion HN; subst.
  - intros C. apply in_map_iff in C. destruct C as (y & Hy & Hin). apply H1. replace x with y; auto.
    destruct x as [xi xw], y as [yi yw]. simpl in Hy. subst. pose proof (HD (xi, xw) (or_introl eq_refl)). pose proof (HD (xi, yw) (or_intror Hin)). simpl in *. congruence.
  - apply IH; auto.
Qed.

Section More.
Context {V I L : Type}.
Variable V_dec : forall a b : V, {a = b} + {a <> b}.
Variable I_dec : forall a b : I, {a = b} + {a <> b}.
Variable vid : V -> I.
Variable WT : Weights.
Hypothesis Hex : exact_addition WT.
Notation W := (w_t WT).
Notation leb := (w_leb WT).
Notation ltb := (w_ltb WT).
Notation add := (w_add WT).
Notation zero := (w_zero WT).
Notation inf := (w_inf WT).
Variable DM : DMap I W inf.
Variable PM : PMap I V.
Variable LM : PMap I L.
Notation "D @ i" := (dm_get DM i D) (at level 10).
Variable next_f next_b : V -> list (V * W * L).
Variables labeled build silent : bool.
Variables E B : I -> W -> I -> Prop.
Hypothesis Hf : presents_weighted WT vid next_f E.
Hypothesis Hb : presents_weighted WT vid next_b B.
Hypothesis HnnE : nonnegative WT E.
Hypothesis HnnB : nonnegative WT B.
Variables starts goals : list V.

Notation state := (@b2_state V I L WT DM PM LM).
Notation side := (@b2_side V I L WT DM PM LM).
Notation step := (b2_step V_dec vid WT DM PM LM next_f next_b labeled build silent).
Notation next_of := (next_of WT next_f next_b).
Notation E_of := (E_of WT E B).
Notation starts_of := (starts_of starts goals).
Notation SI f := (SInv vid WT DM (next_of f) (E_of f) (starts_of f)).
Notation GI := (GI vid WT DM PM LM next_f next_b E B starts goals).
Notation pres_of := (pres_of vid WT next_f next_b E B Hf Hb).
Notation nn_of := (nn_of WT E B HnnE HnnB).
Notation init first := (b2_init vid WT DM PM LM build first starts goals).

Definition side_of (f : bool) (s : state) : side := if Bool.eqb (b2_forwards s) f then b2_current s else b2_other s.

(** ** How a pass changes the sides *)
Inductive moved (s : state) : state -> Prop :=
| mv_stale w no v h s' : b2_pc_of s = SLoop -> b2_heap (b2_current s) = (w, no, v) :: h -> ltb (b2_dist (b2_current s) @ (vid v)) w = true ->
    b2_pc_of s' = SLoop -> b2_forwards s' = negb (b2_forwards s) -> b2_current s' = b2_other s -> b2_other s' = b2_popped WT DM PM LM (b2_current s) h -> b2_outdated s' = true -> b2_others s' = b2_others s -> moved s s'
| mv_expand w no v h lim s' : b2_pc_of s = SLoop -> b2_heap (b2_current s) = (w, no, v) :: h -> ltb (b2_dist (b2_current s) @ (vid v)) w = false ->
    negb (w_eqb WT inf (b2_best s)) && leb (b2_best s) (add w (b2_others s)) = false ->
    limit_check (b2_limit (b2_current s)) = Some lim ->
    b2_pc_of s' = SEdges v w (next_of (b2_forwards s) v) -> b2_forwards s' = b2_forwards s ->
    b2_current s' = b2_expanded WT DM PM LM (b2_popped WT DM PM LM (b2_current s) h) lim v w -> b2_other s' = b2_other s -> b2_outdated s' = b2_outdated s -> b2_others s' = w -> moved s s'
| mv_done v w s' : b2_pc_of s = SEdges v w [] -> b2_pc_of s' = SLoop -> b2_forwards s' = negb (b2_forwards s) -> b2_current s' = b2_other s -> b2_other s' = b2_current s ->
    b2_outdated s' = b2_outdated s -> b2_others s' = b2_others s -> moved s s'
| mv_skip v w n ew l rest s' : b2_pc_of s = SEdges v w ((n, ew, l) :: rest) -> leb inf (add ew w) = false -> leb (b2_dist (b2_current s) @ (vid n)) (add ew w) = true ->
    b2_pc_of s' = SEdges v w rest -> b2_forwards s' = b2_forwards s -> b2_current s' = b2_current s -> b2_other s' = b2_other s -> b2_outdated s' = b2_outdated s -> b2_others s' = b2_others s -> moved s s'
| mv_improve v w n ew l rest s' : b2_pc_of s = SEdges v w ((n, ew, l) :: rest) -> leb inf (add ew w) = false -> leb (b2_dist (b2_current s) @ (vid n)) (add ew w) = false ->
    b2_pc_of s' = SEdges v w rest -> b2_forwards s' = b2_forwards s -> b2_current s' = b2_improved vid WT DM PM LM labeled build (b2_current s) v n (add ew w) l ->
    b2_other s' = b2_other s -> b2_outdated s' = b2_outdated s -> b2_others s' = b2_others s -> moved s s'.

Lemma moves s o s' : step s = Go o s' -> moved s s'.
Proof.
  unfold b2_step, b2_failed. intros Hs. destruct (b2_pc_of s) as [|v w [|[[n ew] l] rest]] eqn:Epc.
  - destruct (b2_heap (b2_current s)) as [|[[w no] v] h] eqn:Eh; [destruct silent; discriminate|].
    cbv zeta in Hs. cbn [b2_dist b2_popped b2_limit] in Hs.
    destruct (ltb (b2_dist (b2_current s) @ (vid v)) w) eqn:Est; [injection Hs as <- <-; eapply mv_stale; eauto|].
    destruct (negb _ && _) eqn:Ebr; [discriminate|]. destruct (limit_check (b2_limit (b2_current s))) as [lim|] eqn:El; [|discriminate].
    injection Hs as <- <-. eapply mv_expand; eauto.
  - injection Hs as <- <-. eapply mv_done; eauto.
  - destruct (leb inf (add ew w)) eqn:Eov; [discriminate|]. cbv zeta in Hs.
    destruct (leb (b2_dist (b2_current s) @ (vid n)) (add ew w)) eqn:Ele; injection Hs as <- <-; [eapply mv_skip|eapply mv_improve]; eauto.
Qed.

Lemma GI_go s o s' : GI s -> step s = Go o s' -> GI s' /\ o = [].
Proof.
  intros G Hs. pose proof (GI_step V_dec I_dec vid WT Hex DM PM LM next_f next_b labeled build silent E B Hf Hb HnnE HnnB starts goals s G) as H.
  rewrite Hs in H. destruct H as [-> H]. auto.
Qed.

(** A property of sides that holds for both sides, given what happens to them. *)
Lemma both_sides (Q : bool -> side -> Prop) s s' : GI s -> moved s s' ->
  (forall f b w no v h, SI f (b2_calls b) None ((w, no, v) :: h) (b2_dist b) -> b2_heap b = (w, no, v) :: h -> ltb (b2_dist b @ (vid v)) w = true -> Q f b -> Q f (b2_popped WT DM PM LM b h)) ->
  (forall f b w no v h lim, SI f (b2_calls b) None ((w, no, v) :: h) (b2_dist b) -> b2_heap b = (w, no, v) :: h -> ltb (b2_dist b @ (vid v)) w = false -> 
     b = b2_current s -> f = b2_forwards s -> limit_check (b2_limit b) = Some lim ->
     b2_pc_of s = SLoop -> negb (w_eqb WT inf (b2_best s)) && leb (b2_best s) (add w (b2_others s)) = false -> Q f b -> Q f (b2_expanded WT DM PM LM (b2_popped WT DM PM LM b h) lim v w)) ->
  (forall f b v w n ew l rest, SI f (b2_calls b) (Some (v, w, (n, ew, l) :: rest)) (b2_heap b) (b2_dist b) -> leb inf (add ew w) = false ->
     leb (b2_dist b @ (vid n)) (add ew w) = false -> Q f b -> Q f (b2_improved vid WT DM PM LM labeled build b v n (add ew w) l)) ->
  (forall f, Q f (side_of f s)) -> forall f, Q f (side_of f s').
Proof.
  intros G Hmv H1 H2 H3 HQ.
  assert (HQc : Q (b2_forwards s) (b2_current s)) by (pose proof (HQ (b2_forwards s)) as H; unfold side_of in H; rewrite eqb_reflx in H; exact H).
  assert (HQo : Q (negb (b2_forwards s)) (b2_other s)).
  { pose proof (HQ (negb (b2_forwards s))) as H; unfold side_of in H. destruct (b2_forwards s); exact H. }
  pose proof (g_cur _ _ _ _ _ _ _ _ _ _ _ s G) as HC.
  assert (Hend : forall c o f0, b2_forwards s' = f0 -> b2_current s' = c -> b2_other s' = o -> Q f0 c -> Q (negb f0) o -> forall f, Q f (side_of f s')).
  { intros c o f0 E1 E2 E3 Q1 Q2 f. unfold side_of. rewrite E1, E2, E3. destruct (Bool.eqb f0 f) eqn:Ef; [apply eqb_prop in Ef; subst; auto|].
    replace f with (negb f0) by (destruct f0, f; auto; discriminate). exact Q2. }
  destruct Hmv as [w no v h s' Hpc Hh Hst E1 E2 E3 E4 E5|w no v h lim s' Hpc Hh Hst Hbr Hl E1 E2 E3 E4 E5|v w s' Hpc E1 E2 E3 E4 E5|v w n ew l rest s' Hpc Hov Hle E1 E2 E3 E4 E5|v w n ew l rest s' Hpc Hov Hle E1 E2 E3 E4 E5];
    rewrite Hpc in HC; simpl in HC.
  - eapply Hend; eauto. rewrite negb_involutive. eapply H1; eauto. rewrite <- Hh. exact HC.
  - eapply Hend; eauto. eapply H2; eauto. rewrite <- Hh. exact HC.
  - eapply Hend; eauto. rewrite negb_involutive. exact HQc.
  - eapply Hend; eauto.
  - eapply Hend; eauto.
Qed.

(** ** No limit, no counter *)
Lemma limits s s' : GI s -> moved s s' -> (forall f, b2_limit (side_of f s) = None) -> forall f, b2_limit (side_of f s') = None.
Proof.
  intros G Hmv. apply (both_sides (fun _ b => b2_limit b = None) s s' G Hmv).
  - intros; auto.
  - intros f b w no v h lim _ _ _ _ _ Hl _ _ Hn. simpl. rewrite Hn in Hl. simpl in Hl. congruence.
  - intros; auto.
Qed.

(** ** Outdated entries *)

(** Every distance comes from an expanded vertex; every entry in the heap is up to date. *)
Definition fresh (f : bool) (b : side) : Prop :=
  (forall i, b2_dist b @ i <> inf -> is_start vid (starts_of f) i \/ exists v w ew, In (v, w) (b2_calls b) /\ E_of f (vid v) ew i /\ b2_dist b @ i = add ew w) /\
  (forall e, In e (b2_heap b) -> e_key e = b2_dist b @ (vid (e_val e))).

(** The graph is such that a better distance is never found. *)
Definition steady : Prop := (exists w0, forall f i w j, E_of f i w j -> w = w0) \/ forall f, path_independent WT (E_of f) (is_start vid (starts_of f)).

Lemma fresh_moved : steady -> forall s s', GI s -> moved s s' -> (forall f, fresh f (side_of f s)) -> b2_outdated s = false ->
  (forall f, fresh f (side_of f s')) /\ b2_outdated s' = false.
Proof.
  intros Hsteady s s' G Hmv HF Ho. split.
  - apply (both_sides fresh s s' G Hmv); auto.
    + intros f b w no v h HI Hh Hst [F1 F2]. split; [exact F1|]. intros e He. simpl in He. apply F2. rewrite Hh. now right.
    + intros f b w no v h lim HI Hh Hst _ _ _ _ _ [F1 F2]. split.
      * intros i Hi. destruct (F1 i Hi) as [?|(u & wu & ew & Hu & HE & Hd)]; auto. right. exists u, wu, ew. split; [now right|auto].
      * intros e He. simpl in He. apply F2. rewrite Hh. now right.
    + intros f b v w n ew l rest HI Hov Hle [F1 F2].
      destruct (s_op _ _ _ _ _ _ _ _ _ _ HI _ _ _ eq_refl) as (HvX & Hinc & Hmax & Hk).
      pose proof (next_E vid WT _ _ (pres_of f) _ _ _ _ (Hinc _ (or_introl eq_refl))) as HE.
      assert (Hinf : b2_dist b @ (vid n) = inf).
      { destruct (ltb (b2_dist b @ (vid n)) inf) eqn:El.
        2:{ apply (w_leb_antisym WT); [apply (s_le_inf _ _ _ _ _ _ _ _ _ _ HI)|]. now apply w_ltb_ge. }
        exfalso. assert (Hne : b2_dist b @ (vid n) <> inf) by (now apply lt_neq).
        assert (leb (b2_dist b @ (vid n)) (add ew w) = true); [|congruence].
        destruct Hsteady as [(w0 & Hw0)|Hw0].
        - destruct (F1 _ Hne) as [Hs|(u & wu & ew' & Hu & HE' & ->)].
          + rewrite (s_start _ _ _ _ _ _ _ _ _ _ HI _ Hs). apply (w_leb_trans WT) with w.
            * destruct (s_X _ _ _ _ _ _ _ _ _ _ HI v w HvX) as [<- _]. apply (s_nn _ _ _ _ _ _ _ _ _ _ HI).
            * apply w_add_infl. eapply (nn_of f); eauto.
          + rewrite (Hw0 _ _ _ _ HE), (Hw0 _ _ _ _ HE'). apply w_add_mono. eapply Hmax; eauto.
        - destruct (s_X _ _ _ _ _ _ _ _ _ _ HI v w HvX) as [Hd Hdi].
          destruct (s_real _ _ _ _ _ _ _ _ _ _ HI (vid v)) as (a & p & Ha & Hp & Hpw); [rewrite Hd; now apply lt_neq|].
          destruct (s_real _ _ _ _ _ _ _ _ _ _ HI (vid n) Hne) as (a' & p' & Ha' & Hp' & Hpw').
          rewrite <- Hpw'. rewrite (Hw0 f a' p' a (p ++ [(ew, vid n)]) (vid n)); auto.
          + rewrite walk_weight_snoc, Hpw, Hd. apply w_leb_refl.
          + eapply wwalk_snoc; eauto. }
      split; cbn [b2_dist b2_improved b2_heap b2_calls].
      * intros i Hi. destruct (I_dec i (vid n)) as [->|Hne].
        -- rewrite dm_get_set_same in *. right. exists v, w, ew. auto.
        -- rewrite dm_get_set_other in * by auto. auto.
      * intros e He. apply heappush_in in He. destruct He as [->|He]; [simpl; now rewrite dm_get_set_same|].
        rewrite dm_get_set_other; [now apply F2|]. intros C. pose proof (F2 e He) as Hk'. rewrite C, Hinf in Hk'.
        destruct (s_heap _ _ _ _ _ _ _ _ _ _ HI e He) as [_ Hlt]. rewrite Hk', w_lt_irrefl in Hlt. discriminate.
  - destruct Hmv as [w no v h s' Hpc Hh Hst E1 E2 E3 E4 E5|w no v h lim s' Hpc Hh Hst Hbr Hl E1 E2 E3 E4 E5|v w s' Hpc E1 E2 E3 E4 E5|v w n ew l rest s' Hpc Hov Hle E1 E2 E3 E4 E5|v w n ew l rest s' Hpc Hov Hle E1 E2 E3 E4 E5]; try congruence.
    exfalso. pose proof (HF (b2_forwards s)) as [_ F2]. unfold side_of in F2. rewrite eqb_reflx, Hh in F2.
    specialize (F2 (w, no, v) (or_introl eq_refl)). simpl in F2. rewrite <- F2, w_lt_irrefl in Hst. discriminate.
Qed.

Lemma fresh_init first lim : forall f, fresh f (side_of f (init first lim)).
Proof.
  assert (H : forall f l, starts_of f = l -> fresh f (b2_start vid WT DM PM LM build l lim)).
  { intros f l <-. split.
    - intros i Hi. left. destruct (in_dec I_dec i (map vid (starts_of f))) as [?|Hn]; auto. exfalso. apply Hi. now apply D0_other.
    - intros e He. simpl in He. apply heapify_in, entries_in in He. tauto. }
  intros [|]; unfold side_of; simpl; apply H; reflexivity.
Qed.

(** ** Termination *)
Notation is_st f := (fun p : I * W => if in_dec I_dec (fst p) (map vid (starts_of f)) then true else false).
Definition entries_of (b : side) : list (I * W) :=
  map (fun x => (vid (fst x), snd x)) (b2_calls b) ++ map (fun e => (vid (e_val e), e_key e)) (b2_heap b).

Definition counted (f : bool) (b : side) : Prop :=
  NoDup (filter (fun p => negb (is_st f p)) (entries_of b)) /\ length (filter (is_st f) (entries_of b)) <= length (starts_of f).

Lemma counted_moved s s' : GI s -> moved s s' -> (forall f, counted f (side_of f s)) -> forall f, counted f (side_of f s').
Proof.
  intros G Hmv. apply (both_sides counted s s' G Hmv).
  - intros f b w no v h HI Hh Hst [C1 C2]. unfold counted, entries_of in *. rewrite Hh in *. cbn [b2_popped b2_heap b2_calls].
    assert (HP : Permutation (map (fun x => (vid (fst x), snd x)) (b2_calls b) ++ map (fun e : entry WT => (vid (e_val e), e_key e)) ((w, no, v) :: h))
       ((vid v, w) :: map (fun x => (vid (fst x), snd x)) (b2_calls b) ++ map (fun e : entry WT => (vid (e_val e), e_key e)) h)).
    { simpl. symmetry. apply Permutation_middle. }
    pose proof (filter_perm (is_st f) _ _ HP) as P2. pose proof (filter_perm (fun p => negb (is_st f p)) _ _ HP) as P1.
    apply (Permutation_NoDup P1) in C1. apply Permutation_length in P2. rewrite P2 in C2. clear P1 P2.
    cbn [filter] in C1, C2. cbv beta in *. destruct (in_dec I_dec (fst (vid v, w)) (map vid (starts_of f))); cbn [negb length] in *.
    + split; auto. lia.
    + inversion C1. auto.
  - intros f b w no v h lim HI Hh Hst _ _ _ _ _ [C1 C2]. unfold counted, entries_of in *. rewrite Hh in *. cbn [b2_popped b2_expanded b2_heap b2_calls].
    assert (HP : Permutation (map (fun x => (vid (fst x), snd x)) (b2_calls b) ++ map (fun e : entry WT => (vid (e_val e), e_key e)) ((w, no, v) :: h))
       (map (fun x => (vid (fst x), snd x)) ((v, w) :: b2_calls b) ++ map (fun e : entry WT => (vid (e_val e), e_key e)) h)).
    { simpl. symmetry. apply Permutation_middle. }
    split; [exact (Permutation_NoDup (filter_perm _ _ _ HP) C1)|]. rewrite <- (Permutation_length (filter_perm _ _ _ HP)). exact C2.
  - intros f b v w n ew l rest HI Hov Hle [C1 C2]. unfold counted in *.
    pose proof (improve_inv I_dec vid WT DM _ _ (pres_of f) (nn_of f) _ _ _ _ _ _ _ _ (b2_no b) _ _ HI Hov Hle) as HI'.
    assert (Hns : ~ In (vid n) (map vid (starts_of f))).
    { intros Hs. pose proof (s_start _ _ _ _ _ _ _ _ _ _ HI (vid n) Hs) as H0. pose proof (s_start _ _ _ _ _ _ _ _ _ _ HI' (vid n) Hs) as H1.
      rewrite dm_get_set_same in H1. rewrite H0, H1, w_leb_refl in Hle. discriminate. }
    assert (HP : Permutation (entries_of (b2_improved vid WT DM PM LM labeled build b v n (add ew w) l)) ((vid n, add ew w) :: entries_of b)).
    { unfold entries_of. cbn [b2_improved b2_heap b2_calls]. rewrite (Permutation_map _ (heappush_perm WT _ _)). simpl. symmetry. apply Permutation_middle. }
    assert (Hfresh : ~ In (vid n, add ew w) (entries_of b)).
    { unfold entries_of. rewrite in_app_iff. intros [Hin|Hin]; apply in_map_iff in Hin.
      - destruct Hin as ([u wu] & Heq & Hin). simpl in Heq. injection Heq as Hu _.
        exact (improve_unsettled vid WT DM _ _ (pres_of f) (nn_of f) _ _ _ _ _ _ _ _ _ _ HI Hle u wu Hin Hu).
      - destruct Hin as (e & Heq & Hin). injection Heq as Hu Hk. destruct (s_heap _ _ _ _ _ _ _ _ _ _ HI e Hin) as [Hd _].
        rewrite Hu, Hk in Hd. congruence. }
    split.
    + apply (Permutation_NoDup (Permutation_sym (filter_perm _ _ _ HP))). cbn [filter]. cbv beta. cbn [fst].
      destruct (in_dec I_dec (vid n) (map vid (starts_of f))); [contradiction|]. simpl. constructor; auto. intros Hin. apply filter_In in Hin. tauto.
    + rewrite (Permutation_length (filter_perm _ _ _ HP)). cbn [filter]. cbv beta. cbn [fst]. destruct (in_dec I_dec (vid n) (map vid (starts_of f))); [contradiction|exact C2].
Qed.

Lemma entries_length no D l : length (b2_entries vid WT DM no D l) = length l.
Proof. revert no. induction l; simpl; auto. Qed.

Lemma counted_init first lim : forall f, counted f (side_of f (init first lim)).
Proof.
  assert (H : forall f l, starts_of f = l -> counted f (b2_start vid WT DM PM LM build l lim)).
  { intros f l <-. unfold counted, entries_of. cbn [b2_start b2_calls b2_heap map app].
    set (D := define_distances WT DM None _ false).
    assert (Hall : forall p, In p (map (fun e => (vid (e_val e), e_key e)) (heapify WT (b2_entries vid WT DM 256 D (starts_of f)))) -> In (fst p) (map vid (starts_of f))).
    { intros p Hp. apply in_map_iff in Hp. destruct Hp as (e & <- & He). apply heapify_in, entries_in in He. simpl. apply in_map. tauto. }
    split.
    - replace (filter _ _) with (@nil (I * W)); [constructor|]. symmetry. 
      revert Hall. generalize (map (fun e => (vid (e_val e), e_key e)) (heapify WT (b2_entries vid WT DM 256 D (starts_of f)))).
      induction l as [|p l IH]; intros Hl; auto. cbn [filter]. cbv beta. destruct (in_dec I_dec (fst p) (map vid (starts_of f))) as [|C]; [|exfalso; apply C, Hl; now left].
      simpl. apply IH. intros q Hq. apply Hl. now right.
    - eapply Nat.le_trans; [apply filter_le|]. rewrite map_length, (Permutation_length (heapify_perm WT _)), entries_length. auto. }
  intros [|]; unfold side_of; simpl; apply H; reflexivity.
Qed.

(** The expanded vertices, counted by their ids. *)
Lemma calls_bound f b op l : SI f (b2_calls b) op (b2_heap b) (b2_dist b) -> counted f b -> (forall v w, In (v, w) (b2_calls b) -> In (vid v) l) ->
  length (b2_calls b) <= length l + length (starts_of f).
Proof.
  intros HI [C1 C2] Hl. unfold entries_of in *. rewrite filter_app in C1, C2. rewrite app_length in C2.
  set (P := map (fun x => (vid (fst x), snd x)) (b2_calls b)) in *.
  assert (HPl : length P = length (b2_calls b)) by (apply map_length).
  assert (HD : forall p, In p P -> snd p = b2_dist b @ (fst p) /\ In (fst p) l).
  { intros p Hp. unfold P in Hp. apply in_map_iff in Hp. destruct Hp as ([v w] & <- & Hin). simpl. destruct (s_X _ _ _ _ _ _ _ _ _ _ HI v w Hin) as [-> _]. eauto. }
  assert (Hsum : forall (g : I * W -> bool) m, length m = length (filter g m) + length (filter (fun p => negb (g p)) m)).
  { intros g. induction m as [|x m IH]; simpl; auto. destruct (g x); simpl; lia. }
  rewrite <- HPl, (Hsum (is_st f) P).
  assert (N1 : NoDup (map fst (filter (fun p => negb (is_st f p)) P))).
  { assert (C1' : NoDup (filter (fun p => negb (is_st f p)) P)).
    { exact (NoDup_app_l _ _ C1). }
    assert (HD' : forall p, In p (filter (fun p => negb (is_st f p)) P) -> snd p = b2_dist b @ (fst p)).
    { intros p Hp. apply filter_In in Hp. apply HD. tauto. }
    exact (NoDup_map_fst (fun i => b2_dist b @ i) _ C1' HD'). }
  assert (N2 : length (filter (fun p => negb (is_st f p)) P) <= length l).
  { rewrite <- (map_length fst). apply NoDup_incl_length; auto. intros i Hi. apply in_map_iff in Hi. destruct Hi as (p & <- & Hp). apply filter_In in Hp. apply HD. tauto. }
  assert (N3 : length (filter (is_st f) P) <= length (starts_of f)) by lia.
  lia.
Qed.

Lemma expand_bound s w no v h c : GI s -> b2_pc_of s = SLoop -> b2_heap (b2_current s) = (w, no, v) :: h -> ltb (b2_dist (b2_current s) @ (vid v)) w = false ->
  negb (w_eqb WT inf (b2_best s)) && leb (b2_best s) (add w (b2_others s)) = false -> mutual WT E B -> wconnection vid WT E starts goals c -> leb w c = true.
Proof.
  intros G Hpc Hh Hst Hbr Hmu Hc. pose proof (g_cur _ _ _ _ _ _ _ _ _ _ _ s G) as HC. pose proof (g_oth _ _ _ _ _ _ _ _ _ _ _ s G) as HO. rewrite Hpc, Hh in HC. simpl in HC.
  pose proof (head_min WT _ _ (s_sorted _ _ _ _ _ _ _ _ _ _ HC)) as Hmin. simpl in Hmin.
  pose proof (conn_known vid WT Hex DM next_f next_b E B starts goals (b2_forwards s) _ _ _ _ _ _ _ _ c Hmu HC HO Hc) as Hkn.
  destruct (meet_known vid WT Hex DM next_f next_b E B Hf Hb HnnE HnnB starts goals (b2_forwards s) _ _ _ _ _ _ (b2_best s) w zero c HC HO (g_best_le _ _ _ _ _ _ _ _ _ _ _ s G)) as [Hle|Hle]; auto.
  { intros e He. eapply (keys_zero vid WT); eauto. }
  2:{ rewrite (ea_zero WT Hex) in Hle. exact Hle. }
  destruct (leb w c) eqn:Ec; auto. exfalso.
  assert (Hbw : ltb (b2_best s) w = true) by (eapply w_le_lt_trans; [exact Hle|now apply w_ltb_lt]).
  assert (Hwi : ltb w inf = true) by (apply (s_heap _ _ _ _ _ _ _ _ _ _ HC (w, no, v)); now left).
  destruct (eqb_inf vid WT DM PM LM next_f next_b E B starts goals s G) as [[C _]|[_ Hni]].
  - rewrite C in Hbw. eapply w_le_lt_contra; [apply w_lt_le; exact Hbw|exact Hwi].
  - rewrite Hni in Hbr. simpl in Hbr. rewrite (w_leb_trans WT _ w) in Hbr; [discriminate|now apply w_lt_le|].
    apply add_le_l; auto. apply (g_others_nn _ _ _ _ _ _ _ _ _ _ _ s G).
Qed.

(** The ids in [l] contain all vertices that can be expanded in direction [f]. *)
Definition bounded (f : bool) (l : list I) : Prop :=
  (forall s p i, is_start vid (starts_of f) s -> wwalk WT (E_of f) s p i -> In i l) \/
  (mutual WT E B /\ exists c, wconnection vid WT E starts goals c /\
     forall s p i, is_start vid (starts_of f) s -> wwalk WT (E_of f) s p i -> leb (walk_weight WT p) c = true -> In i l).

Definition within f l (f' : bool) (b : side) : Prop := f' = f -> forall v w, In (v, w) (b2_calls b) -> In (vid v) l.

Lemma within_moved f l : bounded f l -> forall s s', GI s -> moved s s' -> (forall g, within f l g (side_of g s)) -> forall g, within f l g (side_of g s').
Proof.
  intros Hbd s s' G Hmv. apply (both_sides (within f l) s s' G Hmv).
  - intros g b w no v h _ _ _ HW Hg u wu Hu. exact (HW Hg u wu Hu).
  - intros g b w no v h lim HI Hh Hst -> -> _ Hpc Hbr HW Hg u wu [Heq|Hu]; [|exact (HW Hg u wu Hu)]. injection Heq as <- <-. rewrite Hg in *.
    destruct (s_heap _ _ _ _ _ _ _ _ _ _ HI (w, no, v)) as [H1 H2]; [now left|]. apply w_ltb_ge in Hst.
    assert (Hd : b2_dist (b2_current s) @ (vid v) = w) by (now apply (w_leb_antisym WT)).
    destruct (s_real _ _ _ _ _ _ _ _ _ _ HI (vid v)) as (a & p & Ha & Hp & Hpw); [rewrite Hd; now apply lt_neq|].
    destruct Hbd as [Hbd|(Hmu & c & Hc & Hbd)]; [eauto|]. apply (Hbd a p); auto. rewrite Hpw, Hd. eapply expand_bound; eauto. rewrite Hd. apply w_lt_irrefl.
  - intros g b v w n ew lb rest _ _ _ HW Hg u wu Hu. exact (HW Hg u wu Hu).
Qed.

Definition in_edges (s : state) : option nat := match b2_pc_of s with SLoop => None | SEdges _ _ rest => Some (length rest) end.
Definition m1 f l s : nat :=
  2 * (length (l : list I) + length (starts_of f) - length (b2_calls (side_of f s))) +
  (if Bool.eqb (b2_forwards s) f then match in_edges s with Some _ => 1 | None => 0 end else 0).
Definition m2 f s : nat :=
  if Bool.eqb (b2_forwards s) f then match in_edges s with Some _ => 0 | None => 3 * length (b2_heap (side_of f s)) end
  else 3 * length (b2_heap (side_of f s)) + match in_edges s with Some _ => 1 | None => 2 end.
Definition m3 s : nat := match in_edges s with Some k => k | None => 0 end.

Lemma ends f l first lim : bounded f l -> (forall i, is_start vid starts i -> is_start vid goals i -> False) ->
  exists n os r, run step n (init first lim) = (os, r) /\ forall s', r <> Running s'.
Proof.
  intros Hbd Hdisj.
  apply (run_terminates_wf step (lex3 (m1 f l) (m2 f) m3) (fun s => GI s /\ (forall g, counted g (side_of g s)) /\ forall g, within f l g (side_of g s))).
  - apply lex3_wf.
  - intros s o s' (G & HC & HW) Hs. pose proof (moves s o s' Hs) as Hmv. destruct (GI_go s o s' G Hs) as [G' _].
    pose proof (counted_moved s s' G Hmv HC) as HC'. pose proof (within_moved f l Hbd s s' G Hmv HW) as HW'. split; auto.
    assert (HB : length (b2_calls (side_of f s')) <= length l + length (starts_of f)).
    { pose proof (g_cur _ _ _ _ _ _ _ _ _ _ _ s' G') as Gc. pose proof (g_oth _ _ _ _ _ _ _ _ _ _ _ s' G') as Go. specialize (HC' f). specialize (HW' f eq_refl). unfold side_of in *.
      destruct (Bool.eqb (b2_forwards s') f) eqn:Ef; [apply eqb_prop in Ef; rewrite Ef in Gc; eapply calls_bound; eauto|].
      replace (negb (b2_forwards s')) with f in Go by (destruct f, (b2_forwards s'); auto; discriminate). eapply calls_bound; eauto. }
    unfold lex3, m1, m2, m3, in_edges, side_of in *. clear HW HW' HC HC' G G' Hbd Hs.
    destruct Hmv as [w no v h s' Hpc Hh Hst E1 E2 E3 E4 E5|w no v h lim' s' Hpc Hh Hst Hbr Hl E1 E2 E3 E4 E5|v w s' Hpc E1 E2 E3 E4 E5|v w n ew lb rest s' Hpc Hov Hle E1 E2 E3 E4 E5|v w n ew lb rest s' Hpc Hov Hle E1 E2 E3 E4 E5];
      rewrite E1, E2, E3, E4, Hpc in *; destruct f, (b2_forwards s); cbn [Bool.eqb negb] in *; cbn [b2_popped b2_expanded b2_improved b2_heap b2_calls length] in *; rewrite ?Hh in *; cbn [length] in *; lia.
  - split; [apply (GI_init I_dec); auto|]. split; [apply counted_init|]. intros g _ v w Hin. exfalso. unfold side_of in Hin. destruct g; exact Hin.
Qed.

(** ** Whole runs *)
Hypothesis Hdisj : forall i, is_start vid starts i -> is_start vid goals i -> False.
Notation good_length := (good_length vid WT DM PM LM E B starts goals).
Notation exhausted := (exhausted vid WT E B starts goals).
Notation too_far := (too_far vid WT E B starts goals).

Lemma run_says (Q : state -> Prop) first lim n os r :
  Q (init first lim) -> (forall s s', GI s -> moved s s' -> Q s -> Q s') ->
  run step n (init first lim) = (os, r) ->
  match r with
  | Running s => os = []
  | Ended s => (silent = true /\ os = [{| b2_length := inf; b2_path := of_nothing labeled |}] /\ exists f, exhausted f) \/
               (exists s, GI s /\ Q s /\ os = [b2_found V_dec vid WT DM PM LM labeled build s] /\ good_length s)
  | Raised e s => os = [] /\ ((e = KeyErrorNotFound /\ silent = false /\ exists f, exhausted f) \/ (e = RuntimeErrorLimit /\ lim <> None) \/ (e = OverflowErrorDistance /\ too_far))
  end.
Proof.
  intros HQ0 HQ HR.
  pose proof (run_inv_any step (fun pre s => pre = [] /\ GI s /\ Q s /\ (lim = None -> forall f, b2_limit (side_of f s) = None))) as HI.
  assert (Hstep : forall pre s o s', (pre = [] /\ GI s /\ Q s /\ (lim = None -> forall f, b2_limit (side_of f s) = None)) -> step s = Go o s' ->
    (pre ++ o = [] /\ GI s' /\ Q s' /\ (lim = None -> forall f, b2_limit (side_of f s') = None))).
  { intros pre s o s' (-> & G & HQs & HL) Hs. destruct (GI_go s o s' G Hs) as [G' ->]. pose proof (moves _ _ _ Hs) as Hmv. split; auto. split; auto. split; [eauto|].
    intros Hl. apply (limits s s' G Hmv). auto. }
  assert (Hlim0 : lim = None -> forall f, b2_limit (side_of f (init first lim)) = None) by (intros -> []; reflexivity).
  specialize (HI Hstep n [] _ _ _ (conj eq_refl (conj (GI_init I_dec vid WT Hex DM PM LM next_f next_b build E B starts goals Hdisj first lim) (conj HQ0
     Hlim0))) HR).
  destruct r as [s|s|x s].
  - simpl in HI. tauto.
  - destruct HI as (os1 & o & s1 & -> & (Hpre & G & HQs & HL) & Hs). simpl in Hpre. subst os1. simpl.
    pose proof (GI_step V_dec I_dec vid WT Hex DM PM LM next_f next_b labeled build silent E B Hf Hb HnnE HnnB starts goals s1 G) as Hg. rewrite Hs in Hg.
    destruct Hg as [Hg|[Ho Hg]]; [auto|]. right. exists s1. auto.
  - destruct HI as (os1 & o & s1 & -> & (Hpre & G & HQs & HL) & Hs). simpl in Hpre. subst os1. simpl.
    pose proof (GI_step V_dec I_dec vid WT Hex DM PM LM next_f next_b labeled build silent E B Hf Hb HnnE HnnB starts goals s1 G) as Hg. rewrite Hs in Hg.
    destruct Hg as [-> [Hg|[[-> Hg]|Hg]]]; split; auto. right; left. split; auto. intros Hl.
    specialize (HL Hl (b2_forwards s1)). unfold side_of in HL. rewrite eqb_reflx in HL. rewrite HL in Hg. discriminate.
Qed.
End More.
