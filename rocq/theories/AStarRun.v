(** Proofs about the model of A*: runs, consistent heuristics, termination. *)
From Coq Require Import List ZArith Bool Lia Sorted Arith Permutation.
From Verif Require Import Machine MachineMore GearSpec Spec TraversalSpec Common CommonProofs PathsModel PathsSpec
  PathsProofs PathsExact Weight WeightSpec HeapModel HeapProofs DijkstraModel BFSProofs DijkstraProofs DijkstraPaths
  AStarModel AStarSpec AStarProofs AStarMore.
Import ListNotations.

Section AStarRun.
Context {V I L : Type}.
Variable I_dec : forall a b : I, {a = b} + {a <> b}.
Variable vid : V -> I.
Variable WT : Weights.
Notation W := (w_t WT).
Notation leb := (w_leb WT).
Notation ltb := (w_ltb WT).
Notation add := (w_add WT).
Notation zero := (w_zero WT).
Notation inf := (w_inf WT).
Variable DM : DMap I W inf.
Variable PM : PMap I V.
Variable LM : PMap I L.
Variable next : V -> list (V * W * L).
Variable cfg : ast_cfg.
Hypothesis Htree : ac_is_tree cfg = false.
Variable E : I -> W -> I -> Prop.
Hypothesis Hnext : presents_weighted WT vid next E.
Hypothesis Hnn : nonnegative WT E.
Hypothesis Hex : exact WT.
Variable heuristic : V -> W.
Variable hI : I -> W.
Hypothesis Hh : forall v, heuristic v = hI (vid v).
Variable starts : list V.

Notation state := (@ast_state V I L WT DM PM LM).
Notation report := (@ast_report V I L WT DM PM LM).
Notation step := (ast_step vid WT DM PM LM next cfg heuristic).
Notation init lim := (ast_init vid WT DM PM LM cfg heuristic starts None None lim).
Notation ent := (@entry (V * nat) WT).
Notation St := (is_start vid starts).
Notation ev := (ev WT). Notation ek := (ek WT). Notation epos := (epos WT).
Notation xv := (xv WT). Notation xw := (xw WT). Notation xk := (xk WT). Notation xpos := (xpos WT).
Notation hid := (hid vid WT).
Notation settled := (settled vid WT).
Notation pend := (pend vid WT).
Notation gs := (gs WT hI).
Notation AInv := (AInv vid WT DM next E hI starts).
Notation "D @ i" := (dm_get DM i D) (at level 20).
Notation D0 := (D0 vid WT DM starts).
Notation G0 := (G0 vid WT DM cfg heuristic starts).
Notation P0 := (create_predecessors vid PM (ac_build_paths cfg) starts).

Notation APath := (APath vid WT DM PM LM next cfg starts).
Notation minimal := (minimal vid WT E starts).

(** ** Consistent heuristics *)
Record CInv (X : list (V * W * nat)) (H : list ent) (G : dm_t DM) : Prop := {
  c_min : forall v w k, In (v, w, k) X -> minimal (vid v) w;
  c_nd : NoDup (map hid (filter epos H));
  c_old : forall e v w k, In e H -> In (v, w, k) X -> vid v = vid (ev e) -> 0 < k -> 0 < ek e ->
            ltb (G @ (vid (ev e))) (e_key e) = true;
  c_once : NoDup (map (fun x => vid (xv x)) (filter xpos X))
}.

Section Consistent.
Hypothesis Hcons : consistent WT E hI.
Hypothesis Hfin : finite_estimates WT hI.

Lemma CInv_init lim : CInv [] (a_heap (init lim)) G0.
Proof.
  constructor.
  - intros v w k [].
  - replace (filter epos (a_heap (init lim))) with (@nil ent); [constructor|].
    symmetry. apply Permutation_nil. symmetry.
    eapply Permutation_trans; [apply Permutation_filter; apply heapify_perm|].
    rewrite (proj1 (ast_start_entries_nopos vid WT DM _ starts 256)). constructor.
  - intros e v w k _ [].
  - constructor.
Qed.

Lemma CInv_stale X e h G : CInv X (e :: h) G -> CInv X h G.
Proof.
  intros [H1 H2 H3 H4]. constructor; auto.
  - simpl in H2. destruct (epos e); auto. now inversion H2.
  - intros e' v w k He'. apply H3. now right.
Qed.

Lemma CInv_pop X e h D G : AInv X (@ALoop V L WT) (e :: h) D G -> ltb (G @ (vid (ev e))) (e_key e) = false ->
  CInv X (e :: h) G -> CInv ((ev e, D @ (vid (ev e)), ek e) :: X) h G.
Proof.
  intros HI Hns HC. assert (Hkey := pop_key vid WT DM next E hI starts _ _ _ _ _ _ HI Hns).
  destruct (CInv_stale _ _ _ _ HC) as [H1 H2 H3 H4]. constructor; auto.
  - intros v w k [Heq|Hin]; [|eauto]. injection Heq as <- <- <-.
    intros s p Hs Hw. eapply consistent_min; eauto.
  - intros e' v w k He' [Heq|Hin] Hid Hk Hk'; [|eauto]. injection Heq as <- <- <-.
    destruct (a_H _ _ _ _ _ _ _ _ _ _ _ _ HI e' (or_intror He')) as (_ & R2 & _).
    apply w_le_neq_lt; auto. intros Heq. pose proof (c_nd _ _ _ HC) as Hnd. simpl in Hnd.
    unfold DijkstraProofs.epos at 1 in Hnd. apply Nat.ltb_lt in Hk. rewrite Hk in Hnd. inversion Hnd as [|? ? Hn _]; subst.
    apply Hn. apply in_map_iff. exists e'. split.
    + unfold DijkstraProofs.hid. rewrite Hid, <- Heq. now rewrite Hkey, Hid.
    + apply filter_In. split; auto. now apply Nat.ltb_lt.
  - simpl. unfold DijkstraProofs.xpos at 1, DijkstraProofs.xk. simpl. destruct (0 <? ek e) eqn:Hk; auto. simpl.
    constructor; auto. intros Hin. apply in_map_iff in Hin. destruct Hin as ([[v w] k] & Hid & Hin).
    apply filter_In in Hin. destruct Hin as [Hin Hk'].
    assert (ltb (G @ (vid (ev e))) (e_key e) = true); [|congruence].
    eapply (c_old _ _ _ HC e v w k); auto; [now left|now apply Nat.ltb_lt|now apply Nat.ltb_lt].
Qed.

Lemma CInv_relax X v w k n ew l rest H D G no :
  AInv X (AEdges WT v w k ((n, ew, l) :: rest)) H D G -> CInv X H G ->
  leb inf (add ew w) = false -> leb (D @ (vid n)) (add ew w) = false ->
  CInv X (heappush WT (gs (vid n) (add ew w), no, (n, S k)) H) (dm_set DM (vid n) (gs (vid n) (add ew w)) G).
Proof.
  intros HI HC Hinf Hle.
  destruct (aedge_in vid WT DM next E Hnext Hnn hI starts _ _ _ _ _ _ _ _ _ _ _ HI) as (HE & Hin & HinX & Hd & Hup).
  destruct (relax_facts vid WT DM next E Hnext Hnn hI starts _ _ _ _ _ _ _ _ _ _ _ HI Hle) as (Hnv & Hns & Hlt).
  assert (Hnew : forall v' w' k', In (v', w', k') X -> vid v' <> vid n).
  { intros v' w' k' Hx Heq. pose proof (c_min _ _ _ HC _ _ _ Hx) as Hm. rewrite Heq in Hm.
    destruct (a_X _ _ _ _ _ _ _ _ _ _ _ _ HI _ _ _ HinX) as (HvD & _).
    destruct (a_lab _ _ _ _ _ _ _ _ _ _ _ _ HI _ HvD) as (s & p & Hs & Hw & Hwt).
    specialize (Hm s (p ++ [(ew, vid n)]) Hs). rewrite walk_weight_snoc, Hwt, Hd in Hm.
    destruct (a_X _ _ _ _ _ _ _ _ _ _ _ _ HI _ _ _ Hx) as (_ & R & _). rewrite Heq in R.
    eapply w_le_lt_contra; [|exact Hlt]. eapply w_leb_trans; [exact R|]. apply Hm. eapply wwalk_snoc; eauto. }
  assert (Hold : forall e, In e H -> vid (ev e) = vid n -> ltb (gs (vid n) (add ew w)) (e_key e) = true).
  { intros e He Heq. destruct (a_H _ _ _ _ _ _ _ _ _ _ _ _ HI e He) as (R1 & R2 & _). rewrite Heq in R1, R2.
    rewrite (a_G _ _ _ _ _ _ _ _ _ _ _ _ HI _ R1) in R2.
    eapply w_lt_le_trans; [|exact R2]. apply gs_strict; auto. }
  destruct HC as [H1 H2 H3 H4]. constructor; auto.
  - eapply Permutation_NoDup; [apply Permutation_map; apply Permutation_filter; symmetry; apply heappush_perm|].
    simpl. constructor; auto. intros Hi. apply in_map_iff in Hi. destruct Hi as (e & Heq & He).
    apply filter_In in He. destruct He as [He _]. unfold DijkstraProofs.hid in Heq. simpl in Heq. injection Heq as Hv Hk.
    specialize (Hold e He Hv). rewrite Hk, w_lt_irrefl in Hold. discriminate.
  - intros e v' w' k' He Hx Hid Hk Hk'. rewrite dm_get_set_other by (rewrite <- Hid; eauto).
    apply heappush_in in He. destruct He as [->|He]; [|eauto].
    exfalso. eapply Hnew; eauto.
Qed.
End Consistent.

(** ** Distances are weights of simple walks *)
Definition SInv (D : dm_t DM) : Prop := forall i, ltb (D @ i) inf = true ->
  exists s p, St s /\ wwalk WT E s p i /\ walk_weight WT p = D @ i /\ NoDup (s :: map snd p) /\
    forall p1 p2 j, p = p1 ++ p2 -> wwalk WT E s p1 j -> leb (D @ j) (walk_weight WT p1) = true.

Lemma SInv_init : SInv D0.
Proof.
  intros i Hi. destruct (start_dec I_dec vid starts i) as [Hs|Hs].
  - exists i, []. split; [auto|split; [constructor|]]. rewrite (D0_start I_dec) by auto. split; [reflexivity|].
    split; [repeat constructor; intros []|]. intros p1 p2 j Heq Hw. destruct p1; [|discriminate].
    inversion Hw; subst. rewrite (D0_start I_dec) by auto. apply w_leb_refl.
  - rewrite (D0_other I_dec) in Hi by auto. rewrite w_lt_irrefl in Hi. discriminate.
Qed.

Lemma wwalk_split s p i j : wwalk WT E s p i -> In j (map snd p) ->
  exists p1 p2, p = p1 ++ p2 /\ wwalk WT E s p1 j /\ wwalk WT E j p2 i.
Proof.
  induction 1 as [|s w x p i He Hw IH]; simpl; intros Hin; [contradiction|].
  destruct Hin as [->|Hin].
  - exists [(w, j)], p. split; [auto|split; [|auto]]. econstructor; eauto. constructor.
  - destruct (IH Hin) as (p1 & p2 & -> & H1 & H2). exists ((w, x) :: p1), p2. split; [auto|split; [|auto]].
    econstructor; eauto.
Qed.

Lemma SInv_relax X v w k n ew l rest H D G :
  AInv X (AEdges WT v w k ((n, ew, l) :: rest)) H D G -> SInv D ->
  leb inf (add ew w) = false -> leb (D @ (vid n)) (add ew w) = false ->
  SInv (dm_set DM (vid n) (add ew w) D).
Proof.
  intros HI HS Hinf Hle.
  destruct (aedge_in vid WT DM next E Hnext Hnn hI starts _ _ _ _ _ _ _ _ _ _ _ HI) as (HE & Hin & HinX & Hd & Hup).
  destruct (relax_facts vid WT DM next E Hnext Hnn hI starts _ _ _ _ _ _ _ _ _ _ _ HI Hle) as (Hnv & Hns & Hlt).
  assert (Hmono : forall i, leb (dm_set DM (vid n) (add ew w) D @ i) (D @ i) = true).
  { intros i. destruct (I_dec i (vid n)) as [->|Hne].
    - rewrite dm_get_set_same. now apply w_lt_le.
    - rewrite dm_get_set_other by auto. apply w_leb_refl. }
  intros i Hi. destruct (I_dec i (vid n)) as [->|Hne].
  - destruct (a_X _ _ _ _ _ _ _ _ _ _ _ _ HI _ _ _ HinX) as (HvD & _).
    destruct (HS _ HvD) as (s & p & Hs & Hw & Hwt & Hnd & Hpre).
    exists s, (p ++ [(ew, vid n)]). split; [auto|]. split; [eapply wwalk_snoc; eauto|].
    rewrite dm_get_set_same, walk_weight_snoc, Hwt, Hd. split; [reflexivity|]. split.
    + rewrite map_app. simpl. apply (NoDup_snoc (s :: map snd p)); auto. intros [Heq|Hn].
      * apply Hns. now rewrite <- Heq.
      * destruct (wwalk_split _ _ _ _ Hw Hn) as (p1 & p2 & Hp & Hw1 & Hw2).
        specialize (Hpre p1 p2 _ Hp Hw1).
        assert (leb (walk_weight WT p1) (walk_weight WT p) = true).
        { rewrite Hp, (walk_weight_app WT Hex). apply w_add_infl. eapply wwalk_nonneg; eauto. }
        eapply w_le_lt_contra; [|exact Hlt]. eapply w_leb_trans; [exact Hpre|].
        eapply w_leb_trans; [eassumption|]. now rewrite Hwt, Hd.
    + intros p1 p2 j Heq Hw1. destruct p2 as [|x p2' _] using rev_ind.
      * rewrite app_nil_r in Heq. subst p1. apply wwalk_snoc_inv in Hw1. destruct Hw1 as (_ & _ & _ & ->).
        rewrite dm_get_set_same, walk_weight_snoc, Hwt, Hd. apply w_leb_refl.
      * rewrite app_assoc in Heq. apply app_inj_tail in Heq. destruct Heq as [-> _].
        eapply w_leb_trans; [apply Hmono|]. eapply Hpre; eauto.
  - rewrite dm_get_set_other in Hi by auto. destruct (HS i Hi) as (s & p & Hs & Hw & Hwt & Hnd & Hpre).
    exists s, p. rewrite dm_get_set_other by auto. do 4 (split; [auto|]).
    intros p1 p2 j Heq Hw1. eapply w_leb_trans; [apply Hmono|]. eapply Hpre; eauto.
Qed.

(** ** Runs *)
Definition rx (rep : report) : V * W * nat := (ar_vertex rep, ar_path_length rep, ar_depth rep).

Record RInv (pre : list report) (s : state) : Prop := {
  r_inv : AInv (a_calls s) (a_pc s) (a_heap s) (a_distances s) (a_guesses s);
  r_rep : map rx pre = rev (filter xpos (a_calls s));
  r_path : ac_build_paths cfg = true -> starts_distinct vid starts -> finite_estimates WT hI ->
     exists K, APath (a_calls s) (a_heap s) (a_distances s) (a_guesses s) (a_pred s) (a_labels s) K;
  r_cons : consistent WT E hI -> finite_estimates WT hI -> CInv (a_calls s) (a_heap s) (a_guesses s);
  r_simple : SInv (a_distances s)
}.

Lemma RInv_init lim : RInv [] (init lim).
Proof.
  constructor.
  - exact (AInv_init I_dec vid WT DM PM LM next cfg E Hex heuristic hI Hh starts lim).
  - reflexivity.
  - intros Hb Hd Hf. exists (K0 I_dec vid starts). now apply APath_init.
  - intros Hc Hf. now apply CInv_init.
  - exact SInv_init.
Qed.

Lemma guess_gs n d : (if w_eqb WT (heuristic n) inf then inf else add d (heuristic n)) = gs (vid n) d.
Proof. unfold AStarProofs.gs. now rewrite Hh. Qed.

(** The only pass with a report. *)
Definition reports_at (s : state) (e : ent) (h : list ent) (rep : report) : Prop :=
  a_pc s = @ALoop V L WT /\ a_heap s = e :: h /\ ltb (a_guesses s @ (vid (ev e))) (e_key e) = false /\ 0 < ek e /\
  rep = {| ar_vertex := ev e; ar_path_length := a_distances s @ (vid (ev e)); ar_depth := ek e;
           ar_distances := a_distances s; ar_pred := a_pred s; ar_labels := a_labels s |}.

Lemma step_emits s oa rep ob : emitted (step s) = oa ++ rep :: ob ->
  oa = [] /\ exists e h, reports_at s e h rep.
Proof.
  unfold ast_step. destruct (a_pc s) as [|v w k [|[[n ew] l] rest]] eqn:Hpc.
  - destruct (a_heap s) as [|[[g no] [v k]] h] eqn:Hhp; [destruct oa; discriminate|].
    rewrite Htree. cbn [negb andb]. destruct (ltb (a_guesses s @ (vid v)) g) eqn:Hst; [destruct oa; discriminate|].
    cbv zeta. intros Hem.
    assert (Hout : (if 0 <? k then [ast_observe WT DM PM LM v (ast_export vid WT DM PM LM (a_set_heap WT DM PM LM s h) v k)] else [])
       = oa ++ rep :: ob).
    { destruct (limit_check _); exact Hem. }
    destruct (0 <? k) eqn:Hk; [|destruct oa; discriminate].
    destruct oa as [|? oa]; [|destruct oa; discriminate]. injection Hout as <- _. split; auto.
    exists ((g, no), (v, k)), h. split; [auto|split; [auto|split; [auto|split; [now apply Nat.ltb_lt|reflexivity]]]].
  - destruct oa; discriminate.
  - cbv zeta. destruct (w_leb WT inf _); [destruct oa; discriminate|].
    destruct (_ && _); [destruct oa; discriminate|].
    destruct (w_eqb WT (heuristic n) inf); [destruct oa; discriminate|].
    destruct (w_leb WT inf _); destruct oa; discriminate.
Qed.

Lemma RInv_step pre s o s' : RInv pre s -> step s = Go o s' -> RInv (pre ++ o) s'.
Proof.
  intros [R1 R2 R3 R4 R5] Hst. unfold ast_step in Hst.
  destruct (a_pc s) as [|v w k [|[[n ew] l] rest]] eqn:Hpc.
  - destruct (a_heap s) as [|[[g no] [v k]] h] eqn:Hhp; [discriminate|].
    rewrite Htree in Hst. cbn [negb andb] in Hst. destruct (ltb (a_guesses s @ (vid v)) g) eqn:Hs.
    + injection Hst as <- <-. rewrite app_nil_r. constructor; simpl; auto.
      * rewrite Hpc. eapply AInv_stale; eauto.
      * intros Hb Hd Hf. destruct (R3 Hb Hd Hf) as [K HK]. exists K. eapply APath_stale; eauto.
      * intros Hc Hf. eapply CInv_stale; eauto.
    + cbv zeta in Hst. destruct (limit_check _) as [lm|]; [|discriminate]. injection Hst as <- <-.
      pose (e := ((g, no), (v, k)) : ent).
      constructor; simpl; auto.
      * apply (AInv_pop I_dec vid WT DM next E Hnext hI starts _ e); auto.
      * rewrite map_app, R2. unfold DijkstraProofs.xpos at 2, DijkstraProofs.xk; simpl.
        destruct (0 <? k); simpl; [reflexivity|apply app_nil_r].
      * intros Hb Hd Hf. destruct (R3 Hb Hd Hf) as [K HK]. exists K.
        eapply (APath_pop vid WT DM PM LM next cfg E hI starts _ e); eauto.
      * intros Hc Hf. eapply (CInv_pop Hc Hf _ e); eauto.
  - injection Hst as <- <-. rewrite app_nil_r. constructor; simpl; auto. eapply AInv_done; eauto.
  - cbv zeta in Hst. destruct (w_leb WT inf (add ew w)) eqn:Hinf; [discriminate|].
    rewrite Htree in Hst. cbn [negb andb] in Hst.
    destruct (w_leb WT (dm_get DM (vid n) (a_distances s)) (add ew w)) eqn:Hle.
    + injection Hst as <- <-. rewrite app_nil_r. constructor; simpl; auto. eapply AInv_skip; eauto.
    + assert (Hs' : o = [] /\ s' = ast_push vid WT DM PM LM cfg (ast_store vid WT DM PM LM cfg s v n (add ew w) l)
                            v w k n (gs (vid n) (add ew w)) rest).
      { rewrite <- guess_gs. destruct (w_eqb WT (heuristic n) inf); [|destruct (w_leb WT inf (add (add ew w) (heuristic n))); [discriminate|]];
          injection Hst as <- <-; auto. }
      destruct Hs' as [-> ->]. rewrite app_nil_r. constructor; simpl; rewrite ?Htree; auto.
      * eapply AInv_relax; eauto.
      * intros Hb Hd Hf. destruct (R3 Hb Hd Hf) as [K HK]. rewrite Hb. cbn [andb].
        eexists. eapply (APath_relax I_dec); eauto.
      * intros Hc Hf. eapply CInv_relax; eauto.
      * eapply SInv_relax; eauto.
Qed.

Section Results.
Variable lim : option Z.
Variables (n : nat) (os : list report) (r : outcome state exn).
Hypothesis HR : run step n (init lim) = (os, r).

Lemma report_at o1 rep o2 : os = o1 ++ rep :: o2 -> exists s e h, RInv o1 s /\ reports_at s e h rep.
Proof.
  intros Heq. destruct (run_report step RInv RInv_step n [] (init lim) os r (RInv_init lim) HR o1 rep o2 Heq)
    as (pre1 & s1 & oa & ob & H1 & H2 & H3).
  destruct (step_emits _ _ _ _ H2) as (-> & e & h & He). rewrite app_nil_r in H3. subst o1. eauto.
Qed.

Lemma reported_entry o1 s e h rep : RInv o1 s -> reports_at s e h rep ->
  AInv (a_calls s) (@ALoop V L WT) (e :: h) (a_distances s) (a_guesses s) /\
  e_key e = a_guesses s @ (vid (ev e)) /\ ltb (a_distances s @ (vid (ev e))) inf = true /\ ~ St (vid (ev e)) /\
  e_key e = gs (vid (ev e)) (a_distances s @ (vid (ev e))).
Proof.
  intros [R1 _ _ _ _] (H1 & H2 & H3 & H4 & H5). rewrite H1, H2 in R1. split; auto.
  assert (Hk := pop_key vid WT DM next E hI starts _ _ _ _ _ _ R1 H3).
  destruct (a_H _ _ _ _ _ _ _ _ _ _ _ _ R1 e (or_introl eq_refl)) as (Q1 & _ & _ & Q2).
  split; [auto|split; [auto|split; [auto|]]]. rewrite Hk. now apply (a_G _ _ _ _ _ _ _ _ _ _ _ _ R1).
Qed.

(** Reported path lengths are weights of walks, below infinity; start vertices are not reported. *)
Lemma ast_sound rep : In rep os -> ltb (ar_path_length rep) inf = true /\ ~ St (vid (ar_vertex rep)) /\
  (exists s p, St s /\ wwalk WT E s p (vid (ar_vertex rep)) /\ walk_weight WT p = ar_path_length rep) /\
  ar_path_length rep = ar_distances rep @ (vid (ar_vertex rep)) /\
  (forall i, ar_distances rep @ i = inf \/ ltb (ar_distances rep @ i) inf = true).
Proof.
  intros Hin. apply in_split in Hin. destruct Hin as (o1 & o2 & Heq).
  destruct (report_at _ _ _ Heq) as (s & e & h & HI & Hrep).
  destruct (reported_entry _ _ _ _ _ HI Hrep) as (HA & _ & Hlt & Hns & _).
  destruct Hrep as (_ & _ & _ & _ & ->). simpl. split; [auto|split; [auto|split; [|split; [auto|]]]].
  - exact (a_lab _ _ _ _ _ _ _ _ _ _ _ _ HA _ Hlt).
  - exact (a_inf _ _ _ _ _ _ _ _ _ _ _ _ HA).
Qed.

(** The first reported goal vertex. *)
Lemma ast_goal Goal o1 rep o2 : admissible WT E hI Goal -> (forall g, Goal g -> hI g = zero) ->
  (forall g, Goal g -> ~ St g) ->
  os = o1 ++ rep :: o2 -> Goal (vid (ar_vertex rep)) -> (forall rep', In rep' o1 -> ~ Goal (vid (ar_vertex rep'))) ->
  is_goal_distance WT E St Goal (ar_path_length rep).
Proof.
  intros Hadm Hz Hng Heq Hg Hfirst.
  destruct (report_at _ _ _ Heq) as (s & e & h & HI & Hrep).
  destruct (reported_entry _ _ _ _ _ HI Hrep) as (HA & _ & Hlt & Hns & Hkey).
  destruct Hrep as (_ & Hhp & _ & _ & ->). simpl in *.
  assert (Hk : e_key e = a_distances s @ (vid (ev e))).
  { rewrite Hkey. unfold AStarProofs.gs. rewrite (Hz _ Hg).
    destruct (w_eqb WT zero inf) eqn:Hzi.
    - apply eqb_true in Hzi. pose proof (w_zero_inf WT) as Hc. rewrite Hzi, w_leb_refl in Hc. discriminate.
    - rewrite (ex_comm _ Hex). apply (ex_zero _ Hex). }
  split.
  - destruct (a_lab _ _ _ _ _ _ _ _ _ _ _ _ HA _ Hlt) as (s0 & p & Hs & Hw & Hwt). exists s0, p, (vid (ev e)). auto.
  - intros s0 p g Hs Hgg Hw.
    destruct (admissible_key vid WT DM next E Hex hI starts Goal _ _ _ _ Hadm HA s0 p g Hs Hgg Hw)
      as [(e' & He' & Hle)|(_ & v & k & Hin & Hid)].
    + rewrite <- Hk. eapply w_leb_trans; [|exact Hle]. apply (heap_head_min WT e h); auto.
      exact (a_sH _ _ _ _ _ _ _ _ _ _ _ _ HA).
    + exfalso. destruct k as [|k].
      * destruct (a_X _ _ _ _ _ _ _ _ _ _ _ _ HA _ _ _ Hin) as (_ & _ & Hst & _).
        apply (Hng g Hgg). rewrite <- Hid. apply in_map. auto.
      * assert (Hx : In (v, a_distances s @ g, S k) (map rx o1)).
        { rewrite (r_rep _ _ HI). apply in_rev. rewrite rev_involutive. apply filter_In. auto. }
        apply in_map_iff in Hx. destruct Hx as (rep' & Hx & Hr'). apply (Hfirst rep' Hr').
        injection Hx as -> _ _. now rewrite Hid.
Qed.

(** The stored path of a reported vertex whose path length is minimal. *)
Lemma ast_paths_min V_dec rep : ac_build_paths cfg = true -> starts_distinct vid starts -> finite_estimates WT hI ->
  In rep os -> minimal (vid (ar_vertex rep)) (ar_path_length rep) ->
  exists s0 p, In s0 starts /\ chain next s0 p (ar_vertex rep) /\
     chain_weight WT zero p = ar_path_length rep /\ length p = ar_depth rep /\
     delivers_exactly V_dec vid PM LM (ar_pred rep) (ar_labels rep) (ac_labeled cfg) (ar_vertex rep)
       (chain_vertices s0 p) (chain_edges s0 p).
Proof.
  intros Hb Hd Hf Hin Hmin. apply in_split in Hin. destruct Hin as (o1 & o2 & Heq).
  destruct (report_at _ _ _ Heq) as (s & e & h & HI & Hrep).
  destruct (reported_entry _ _ _ _ _ HI Hrep) as (HA & Hkey & Hlt & Hns & _).
  destruct (r_path _ _ HI Hb Hd Hf) as [K HK].
  destruct Hrep as (_ & Hhp & _ & _ & ->). simpl in *. rewrite Hhp in HK.
  destruct (ap_path _ _ _ _ _ _ _ _ _ _ _ _ _ _ _ HK (ev e) Hlt) as (l & Hl); [intros; contradiction|].
  destruct (path_exact I_dec vid WT DM PM LM next cfg E Hnext Hnn Hex hI starts _ _ _ _ _ _ _ _ HA HK _ _ Hl (ek e))
    as (s0 & p & Q1 & Q2 & Q3 & Q4 & Q5 & Q6); auto.
  { eapply ap_H; eauto. now left. }
  exists s0, p. split; [auto|split; [auto|split; [auto|split; [auto|]]]].
  apply ppath_delivers_exactly.
  - rewrite <- Q5, rev_involutive. exact Hl.
  - apply chain_edges_fst.
  - exact Q6.
Qed.

(** Consistent heuristics: each vertex once, with its distance. *)
Lemma ast_consistent : consistent WT E hI -> finite_estimates WT hI ->
  NoDup (ast_ids vid os) /\
  forall rep, In rep os -> is_distance WT E St (vid (ar_vertex rep)) (ar_path_length rep).
Proof.
  intros Hc Hf. split.
  - assert (H : forall o1 rep o2, os = o1 ++ rep :: o2 -> ~ In (vid (ar_vertex rep)) (ast_ids vid o1)).
    { intros o1 rep o2 Heq Hin. destruct (report_at _ _ _ Heq) as (s & e & h & HI & Hrep).
      destruct (reported_entry _ _ _ _ _ HI Hrep) as (HA & _).
      assert (HC := r_cons _ _ HI Hc Hf).
      destruct Hrep as (_ & Hhp & Hns & Hk & ->). simpl in *. rewrite Hhp in HC.
      pose proof (c_once _ _ _ (CInv_pop Hc Hf _ _ _ _ _ HA Hns HC)) as Hnd. simpl in Hnd.
      unfold DijkstraProofs.xpos at 1, DijkstraProofs.xk in Hnd. simpl in Hnd. apply Nat.ltb_lt in Hk. rewrite Hk in Hnd.
      inversion Hnd as [|? ? Hn _]; subst. apply Hn. simpl.
      assert (Hids : ast_ids vid o1 = map (fun x => vid (xv x)) (map rx o1)) by (unfold ast_ids; now rewrite map_map).
      rewrite Hids, (r_rep _ _ HI), map_rev in Hin. now apply in_rev in Hin. }
    clear -H. assert (H2 : forall o, (exists o2, os = o ++ o2) -> NoDup (ast_ids vid o)).
    { induction o as [|x o IH] using rev_ind; intros [o2 Heq]; [constructor|].
      unfold ast_ids in *. rewrite map_app. simpl. rewrite <- app_assoc in Heq. apply NoDup_snoc; eauto. }
    apply H2. exists []. now rewrite app_nil_r.
  - intros rep Hin. destruct (ast_sound rep Hin) as (_ & _ & Hw & _). split; auto.
    apply in_split in Hin. destruct Hin as (o1 & o2 & Heq).
    destruct (report_at _ _ _ Heq) as (s & e & h & HI & Hrep).
    destruct (reported_entry _ _ _ _ _ HI Hrep) as (HA & _).
    destruct Hrep as (_ & Hhp & Hns & Hk & ->). simpl.
    intros s0 p. eapply consistent_min; eauto.
Qed.

(** After the end: distances. *)
Lemma ast_ended s' : r = Ended s' ->
  (forall i, wreachable WT E St i -> is_distance WT E St i (a_distances s' @ i) /\
     (St i \/ exists rep, In rep os /\ vid (ar_vertex rep) = i /\ ar_path_length rep = a_distances s' @ i)) /\
  (forall i, ~ wreachable WT E St i -> a_distances s' @ i = inf) /\
  (forall i d w j, is_distance WT E St i d -> E i w j -> ltb (add w d) inf = true).
Proof.
  intros Hr. pose proof (run_inv_any step RInv RInv_step n [] (init lim) os r (RInv_init lim) HR) as HE.
  rewrite Hr in HE. simpl in HE. destruct HE as (os1 & o & s1 & -> & HI & Hst).
  assert (Hs : a_pc s1 = @ALoop V L WT /\ a_heap s1 = [] /\ o = [] /\ s' = s1).
  { unfold ast_step in Hst. destruct (a_pc s1) as [|v w k [|[[nn ew] l] rest]]; [|discriminate|].
    - destruct (a_heap s1) as [|[[g no] [v k]] h]; [injection Hst; auto|]. destruct (_ && _); [discriminate|].
      cbv zeta in Hst. destruct (limit_check _); discriminate.
    - cbv zeta in Hst. destruct (w_leb WT inf _); [discriminate|]. destruct (_ && _); [discriminate|].
      destruct (w_eqb WT _ _); [discriminate|]. destruct (w_leb WT inf _); discriminate. }
  destruct Hs as (Hpc & Hhp & -> & ->). rewrite app_nil_r in *. destruct HI as [HA Hrep _ _ _].
  rewrite Hpc, Hhp in HA.
  assert (Hwalk : forall s p i, St s -> wwalk WT E s p i ->
    ltb (a_distances s1 @ i) inf = true /\ leb (a_distances s1 @ i) (walk_weight WT p) = true /\
    settled (a_calls s1) i (a_distances s1 @ i) /\ forall w j, E i w j -> ltb (add w (a_distances s1 @ i)) inf = true).
  { intros s p i Hs Hw. destruct (start_walk vid WT DM next E hI starts _ _ _ _ HA s p i Hs Hw)
      as [(u & p1 & p2 & e & _ & _ & _ & [] & _)|(Q1 & Q2 & Q3 & Q4)].
    split; [auto|split; [auto|split; [auto|]]]. intros w j Hej. now destruct (Q4 w j Hej). }
  assert (Hdist : forall i, wreachable WT E St i -> is_distance WT E St i (a_distances s1 @ i)).
  { intros i (s & p & Hs & Hw). destruct (Hwalk s p i Hs Hw) as (Q1 & _). split.
    - exact (a_lab _ _ _ _ _ _ _ _ _ _ _ _ HA _ Q1).
    - intros s0 p0 Hs0 Hw0. now destruct (Hwalk s0 p0 i Hs0 Hw0). }
  split; [|split].
  - intros i Hre. split; auto. destruct Hre as (s & p & Hs & Hw).
    destruct (Hwalk s p i Hs Hw) as (Q1 & Q2 & (v & k & Hin & Hid) & _).
    destruct k as [|k].
    + left. destruct (a_X _ _ _ _ _ _ _ _ _ _ _ _ HA _ _ _ Hin) as (_ & _ & Hst' & _). rewrite <- Hid. apply in_map. auto.
    + right. assert (Hx : In (v, a_distances s1 @ i, S k) (map rx os1)).
      { rewrite Hrep. apply in_rev. rewrite rev_involutive. apply filter_In. auto. }
      apply in_map_iff in Hx. destruct Hx as (rep' & Hx & Hr'). exists rep'. injection Hx as -> -> _. auto.
  - intros i Hn. destruct (a_inf _ _ _ _ _ _ _ _ _ _ _ _ HA i) as [?|Hlt]; auto. exfalso. apply Hn.
    destruct (a_lab _ _ _ _ _ _ _ _ _ _ _ _ HA _ Hlt) as (s & p & Hs & Hw & _). exists s, p. auto.
  - intros i d w j Hd Hej. assert (Hre : wreachable WT E St i).
    { destruct Hd as [(s & p & Hs & Hw & _) _]. exists s, p. auto. }
    rewrite (is_distance_unique WT E St i d _ Hd (Hdist i Hre)).
    destruct Hre as (s & p & Hs & Hw). destruct (Hwalk s p i Hs Hw) as (_ & _ & _ & Q). eauto.
Qed.

(** When OverflowError is raised. *)
Lemma ast_overflow_cause s' : r = Raised OverflowErrorDistance s' ->
  exists s p i w j, St s /\ wwalk WT E s p i /\ E i w j /\
    (leb inf (add w (walk_weight WT p)) = true \/
     (hI j <> inf /\ leb inf (add (add w (walk_weight WT p)) (hI j)) = true)).
Proof.
  intros Hr. pose proof (run_inv_any step RInv RInv_step n [] (init lim) os r (RInv_init lim) HR) as HE.
  rewrite Hr in HE. simpl in HE. destruct HE as (os1 & o & s1 & _ & [HA _ _ _ _] & Hst).
  unfold ast_step in Hst. destruct (a_pc s1) as [|v w k [|[[nn ew] l] rest]] eqn:Hpc; [|discriminate|].
  - destruct (a_heap s1) as [|[[g no] [v k]] h]; [discriminate|]. destruct (_ && _); [discriminate|].
    cbv zeta in Hst. destruct (limit_check _); discriminate.
  - destruct (aedge_in vid WT DM next E Hnext Hnn hI starts _ _ _ _ _ _ _ _ _ _ _ HA) as (HE & Hin & HinX & Hd & Hup).
    destruct (a_X _ _ _ _ _ _ _ _ _ _ _ _ HA _ _ _ HinX) as (HvD & _).
    destruct (a_lab _ _ _ _ _ _ _ _ _ _ _ _ HA _ HvD) as (s & p & Hs & Hw & Hwt).
    exists s, p, (vid v), ew, (vid nn). rewrite Hwt, Hd. do 3 (split; [auto|]).
    cbv zeta in Hst. destruct (w_leb WT inf (add ew w)) eqn:Hinf; auto. right.
    destruct (_ && _); [discriminate|]. rewrite <- Hh.
    destruct (w_eqb WT (heuristic nn) inf) eqn:Hq; [discriminate|]. split.
    + intros Heq. rewrite Heq in Hq. unfold w_eqb in Hq. rewrite w_leb_refl in Hq. discriminate.
    + destruct (w_leb WT inf (add (add ew w) (heuristic nn))) eqn:Hg; auto. discriminate.
Qed.
End Results.

(** ** Termination *)
Section Termination.
Variable ids : list I.
Hypothesis Hids : forall i, wreachable WT E St i -> In i ids.

(** All (vertex, weight) at the ends of walks with [k] edges. *)
Fixpoint level (k : nat) : list (V * W) :=
  match k with
  | 0 => map (fun v => (v, zero)) starts
  | S k => flat_map (fun x => map (fun e => (fst (fst e), add (snd (fst e)) (snd x))) (next (fst x))) (level k)
  end.
Definition weights : list W := flat_map (fun k => map snd (level k)) (seq 0 (S (length ids))).

Lemma walk_level p : forall s i, St s -> wwalk WT E s p i ->
  exists v, In (v, walk_weight WT p) (level (length p)) /\ vid v = i.
Proof.
  induction p as [|[w x] p IH] using rev_ind; intros s i Hs Hw.
  - inversion Hw; subst. unfold is_start in Hs. apply in_map_iff in Hs. destruct Hs as (v & <- & Hv). exists v.
    split; auto. simpl. apply in_map_iff. exists v. auto.
  - apply wwalk_snoc_inv in Hw. destruct Hw as (j & Hw & He & ->).
    destruct (IH s j Hs Hw) as (v & Hv & <-).
    apply Hnext in He. apply in_map_iff in He. destruct He as ([[nn ew] lb] & Heq & Hin). simpl in Heq. injection Heq as <- <-.
    exists nn. split; auto. rewrite app_length. simpl. rewrite Nat.add_comm. simpl. apply in_flat_map.
    exists (v, walk_weight WT p). split; auto. apply in_map_iff. exists (nn, ew, lb). split; auto.
    simpl. now rewrite walk_weight_snoc.
Qed.

Lemma simple_weight D i : SInv D -> ltb (D @ i) inf = true -> In (D @ i) weights.
Proof.
  intros HS Hi. destruct (HS i Hi) as (s & p & Hs & Hw & Hwt & Hnd & _).
  destruct (walk_level p s i Hs Hw) as (v & Hv & _). unfold weights. apply in_flat_map. exists (length p). split.
  - apply in_seq. assert (length (s :: map snd p) <= length ids).
    { apply NoDup_incl_length; auto. intros j [<-|Hj].
      - apply Hids. exists s, []. split; auto. constructor.
      - destruct (wwalk_split _ _ _ _ Hw Hj) as (p1 & p2 & _ & Hw1 & _). apply Hids. exists s, p1. auto. }
    simpl in H. rewrite map_length in H. lia.
  - apply in_map_iff. exists (v, walk_weight WT p). auto.
Qed.

Definition below (d : W) : nat := length (filter (fun w => ltb w d) weights).
Definition pot (D : dm_t DM) : nat := list_sum (map (fun i => below (D @ i)) ids).

Lemma below_mono d d' : leb d d' = true -> below d <= below d'.
Proof.
  intros Hle. unfold below. induction weights as [|w l IH]; simpl; auto.
  destruct (ltb w d) eqn:H1.
  - rewrite (w_lt_le_trans _ _ _ _ H1 Hle). simpl. lia.
  - destruct (ltb w d'); simpl; lia.
Qed.

Lemma below_strict d d' : ltb d d' = true -> In d weights -> below d < below d'.
Proof.
  intros Hlt. unfold below. induction weights as [|w l IH]; simpl; [contradiction|]. intros [->|Hin].
  - rewrite w_lt_irrefl, Hlt. simpl. assert (length (filter (fun w => ltb w d) l) <= length (filter (fun w => ltb w d') l)); [|lia].
    clear -Hlt. induction l as [|w l IH]; simpl; auto. destruct (ltb w d) eqn:H1.
    + rewrite (w_lt_le_trans _ _ _ _ H1 (w_lt_le _ _ _ Hlt)). simpl. lia.
    + destruct (ltb w d'); simpl; lia.
  - specialize (IH Hin). destruct (ltb w d) eqn:H1.
    + rewrite (w_lt_le_trans _ _ _ _ H1 (w_lt_le _ _ _ Hlt)). simpl. lia.
    + destruct (ltb w d'); simpl; lia.
Qed.

Lemma pot_relax D i d : In i ids -> ltb d (D @ i) = true -> In d weights -> pot (dm_set DM i d D) < pot D.
Proof.
  intros Hi Hlt Hd. unfold pot.
  assert (Hle : forall j, below (dm_set DM i d D @ j) <= below (D @ j)).
  { intros j. destruct (I_dec j i) as [->|Hne].
    - rewrite dm_get_set_same. apply below_mono. now apply w_lt_le.
    - rewrite dm_get_set_other by auto. auto. }
  revert Hi. generalize ids as l0. induction l0 as [|j l IH]; intros Hi; [contradiction|]. simpl. destruct Hi as [->|Hi].
  - assert (below (dm_set DM i d D @ i) < below (D @ i)).
    { rewrite dm_get_set_same. now apply below_strict. }
    assert (list_sum (map (fun i0 => below (dm_set DM i d D @ i0)) l) <= list_sum (map (fun i0 => below (D @ i0)) l)); [|lia].
    clear -Hle. induction l as [|j l IH]; simpl; auto. specialize (Hle j). lia.
  - specialize (IH Hi). specialize (Hle j). lia.
Qed.

Definition pcm (pc : @ast_pc V L WT) : nat := match pc with ALoop _ => 0 | AEdges _ _ _ _ rest => S (length rest) end.

Lemma step_nolimit s o s' : a_limit s = None -> step s = Go o s' -> a_limit s' = None.
Proof.
  intros Hlim Hst. unfold ast_step in Hst. destruct (a_pc s) as [|v w k [|[[nn ew] l] rest]].
  - destruct (a_heap s) as [|[[g no] [v k]] h]; [discriminate|]. destruct (_ && _); [injection Hst as _ <-; auto|].
    cbv zeta in Hst. simpl in Hst. rewrite Hlim in Hst. simpl in Hst. injection Hst as _ <-. reflexivity.
  - injection Hst as _ <-. auto.
  - cbv zeta in Hst. destruct (w_leb WT inf _); [discriminate|]. destruct (_ && _); [injection Hst as _ <-; auto|].
    destruct (w_eqb WT _ _); [injection Hst as _ <-; auto|]. destruct (w_leb WT inf _); [discriminate|].
    injection Hst as _ <-; auto.
Qed.

Lemma step_raise_nolimit s o x s' : a_limit s = None -> step s = Raise o x s' -> x = OverflowErrorDistance.
Proof.
  intros Hlim Hst. unfold ast_step in Hst. destruct (a_pc s) as [|v w k [|[[nn ew] l] rest]]; [|discriminate|].
  - destruct (a_heap s) as [|[[g no] [v k]] h]; [discriminate|]. destruct (_ && _); [discriminate|].
    cbv zeta in Hst. simpl in Hst. rewrite Hlim in Hst. discriminate.
  - cbv zeta in Hst. destruct (w_leb WT inf _); [congruence|]. destruct (_ && _); [discriminate|].
    destruct (w_eqb WT _ _); [discriminate|]. destruct (w_leb WT inf _); congruence.
Qed.

Lemma ast_terminates : exists n os s, run step n (init None) = (os, Ended s) \/
    run step n (init None) = (os, Raised OverflowErrorDistance s).
Proof.
  destruct (run_until step (lex3 (fun s : state => pot (a_distances s)) (fun s => length (a_heap s)) (fun s => pcm (a_pc s)))
    (fun s => (exists os, RInv os s) /\ a_limit s = None) (fun _ => false) (lex3_wf _ _ _)) with (s := init None)
    as (n & os & r & HR & Hr).
  - intros s o s' [[os HI] Hlim] _ Hst. right.
    assert (HI' := RInv_step _ _ _ _ HI Hst). unfold lex3. unfold ast_step in Hst.
    destruct (a_pc s) as [|v w k [|[[nn ew] lb] rest]] eqn:Hpc.
    + destruct (a_heap s) as [|[[g no] [v k]] h] eqn:Hhp; [discriminate|].
      destruct (_ && _).
      * injection Hst as <- <-. split; [split; [eexists; exact HI'|auto]|]. right. simpl. auto.
      * cbv zeta in Hst. simpl in Hst. rewrite Hlim in Hst. simpl in Hst. injection Hst as <- <-.
        split; [split; [eexists; exact HI'|auto]|]. right. simpl. auto.
    + injection Hst as <- <-. split; [split; [eexists; exact HI'|auto]|]. right. simpl. auto.
    + cbv zeta in Hst. destruct (w_leb WT inf (add ew w)) eqn:Hinf; [discriminate|].
      rewrite Htree in Hst. cbn [negb andb] in Hst.
      destruct (w_leb WT (dm_get DM (vid nn) (a_distances s)) (add ew w)) eqn:Hle.
      * injection Hst as <- <-. split; [split; [eexists; exact HI'|auto]|]. right. simpl. auto.
      * assert (Hs' : s' = ast_push vid WT DM PM LM cfg (ast_store vid WT DM PM LM cfg s v nn (add ew w) lb)
                            v w k nn (gs (vid nn) (add ew w)) rest).
        { rewrite <- guess_gs. destruct (w_eqb WT (heuristic nn) inf); [|destruct (w_leb WT inf (add (add ew w) (heuristic nn))); [discriminate|]];
          injection Hst as <- <-; auto. }
        subst s'. split; [split; [eexists; exact HI'|auto]|]. left. simpl.
        assert (HW := simple_weight _ (vid nn) (r_simple _ _ HI')). simpl in HW. rewrite dm_get_set_same in HW.
        apply pot_relax.
        -- destruct (a_lab _ _ _ _ _ _ _ _ _ _ _ _ (r_inv _ _ HI') (vid nn)) as (s0 & p & Hs0 & Hw0 & _).
           { simpl. rewrite dm_get_set_same. now apply w_ltb_lt. }
           apply Hids. exists s0, p. auto.
        -- now apply w_ltb_lt.
        -- apply HW. now apply w_ltb_lt.
  - split; [|reflexivity]. exists []. apply RInv_init.
  - exists n, os. destruct r as [s|s|x s]; [discriminate|exists s; auto|]. exists s. right. rewrite HR. f_equal.
    pose proof (run_inv_any step (fun os s => RInv os s /\ a_limit s = None)) as HE.
    specialize (HE ltac:(intros pre s0 o s1 [H1 H2] Hst; split; [eapply RInv_step; eauto|eapply step_nolimit; eauto])).
    specialize (HE n [] (init None) os (Raised x s) (conj (RInv_init None) eq_refl) HR). simpl in HE.
    destruct HE as (os1 & o & s1 & _ & [_ Hlim] & Hst). f_equal. eapply step_raise_nolimit; eauto.
Qed.
End Termination.
End AStarRun.
