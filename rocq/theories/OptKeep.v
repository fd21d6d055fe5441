(** Proofs for C101, part 2: with and without keep_distances, TraversalShortestPaths proceeds in lock step. *)
From Coq Require Import List Arith Lia ZArith Bool Permutation Sorted.
From Verif Require Import Common GearSpec Machine MachineSim Weight HeapModel HeapProofs DijkstraModel OptSpec OptSim.
Import ListNotations.

Lemma seen_run_weak {S1 O1 S2 O2 X C K} step1 step2 (R : S1 -> S2 -> Prop) (f : O1 -> C) (g : O2 -> C) (h1 : S1 -> K) (h2 : S2 -> K) :
  (forall s1 s2, R s1 s2 -> h1 s1 = h2 s2) ->
  (forall s1 s2, R s1 s2 -> step_rel_weak R (fun a b => h1 a = h2 b) (fun a b => f a = g b) (X := X) (step1 s1) (step2 s2)) ->
  forall n s1 s2 os1 r1 os2 r2, R s1 s2 -> run step1 n s1 = (os1, r1) -> run step2 n s2 = (os2, r2) ->
  map f os1 = map g os2 /\ outcome_map h1 r1 = outcome_map h2 r2.
Proof.
  intros Hh Hs n s1 s2 os1 r1 os2 r2 HR E1 E2. destruct (run_sim_weak step1 step2 R (fun a b => h1 a = h2 b) _ Hh Hs n s1 s2 HR) as [H1 H2]. rewrite E1, E2 in H1, H2. cbn in H1, H2.
  split; [now apply Forall2_seen|]. destruct r1, r2; cbn in *; try contradiction; [f_equal; auto|f_equal; auto|destruct H2 as [-> H2]; f_equal; auto].
Qed.

Section Keep.
Context {V I L : Type} (I_dec : forall a b : I, {a = b} + {a <> b}) (vid : V -> I) (WT : Weights) (PM : PMap I V) (LM : PMap I L) (next : V -> list (V * w_t WT * L)).
Context (DM : DMap I (w_t WT) (w_inf WT)).
Hypothesis next_nonneg : forall v e, In e (next v) -> w_leb WT (w_zero WT) (snd (fst e)) = true.
Notation leb := (w_leb WT). Notation ltb := (w_ltb WT). Notation zero := (w_zero WT).
Notation get i d := (dm_get DM i d).
Notation eid e := (vid (fst (e_val e))).
Notation ekey e := (e_key e).
Notation cids s := (map (fun c => vid (fst (fst c))) (d_calls s)).
Definition positive (e : entry (P := V * nat) WT) : bool := ltb zero (ekey e).
Definition keys (h : list (entry (P := V * nat) WT)) := map (fun e => (eid e, ekey e)) (filter positive h).

Record kept (cur : w_t WT) (s1 s2 : @dij_state V I L WT DM PM LM) : Prop := {
  k_pc : d_pc s1 = d_pc s2; k_heap : d_heap s1 = d_heap s2; k_no : d_no s1 = d_no s2; k_distance : d_distance s1 = d_distance s2; k_depth : d_depth s1 = d_depth s2;
  k_limit : d_limit s1 = d_limit s2; k_calls : d_calls s1 = d_calls s2;
  k_cur : leb zero cur = true;
  k_sorted : heap_sorted WT (d_heap s1);
  k_min : forall e, In e (d_heap s1) -> leb cur (ekey e) = true;
  k_edges : match d_pc s1 with DLoop _ => True | DEdges _ v w _ rest => w = cur /\ incl rest (next v) end;
  k_open : forall i, ~ In i (cids s1) -> get i (d_distances s1) = get i (d_distances s2);
  k_done : forall i, In i (cids s1) -> get i (d_distances s2) = zero /\ leb zero (get i (d_distances s1)) = true /\ leb (get i (d_distances s1)) cur = true;
  k_bound : forall e, In e (d_heap s1) -> leb (get (eid e) (d_distances s1)) (ekey e) = true;
  k_unique : NoDup (keys (d_heap s1));
  k_stale : forall e, In e (d_heap s1) -> In (eid e) (cids s1) -> ltb (get (eid e) (d_distances s1)) (ekey e) = true \/ ekey e = zero
}.

Lemma keys_perm h h' : Permutation h h' -> Permutation (keys h) (keys h').
Proof.
  intros H. unfold keys. apply Permutation_map. induction H; cbn; [constructor|destruct (positive x); auto|destruct (positive x), (positive y); auto using perm_swap|eauto using Permutation_trans].
Qed.
Lemma keys_cons e h : keys (e :: h) = (if positive e then [(eid e, ekey e)] else []) ++ keys h.
Proof. unfold keys. cbn. destruct (positive e); reflexivity. Qed.
Lemma keys_in e h : In e h -> positive e = true -> In (eid e, ekey e) (keys h).
Proof. intros H1 H2. unfold keys. apply in_map_iff. exists e. split; [reflexivity|]. apply filter_In. auto. Qed.
Lemma in_keys p h : In p (keys h) -> exists e, In e h /\ p = (eid e, ekey e).
Proof. unfold keys. intros H. apply in_map_iff in H. destruct H as (e & <- & H). apply filter_In in H. exists e. split; [apply H|reflexivity]. Qed.

Lemma keep_step c1 c2 : dc_is_tree c1 = false -> dc_is_tree c2 = false -> dc_keep_distances c1 = true -> dc_keep_distances c2 = false ->
  forall s1 s2, (exists cur, kept cur s1 s2) ->
  step_rel_weak (fun s1 s2 => exists cur, kept cur s1 s2) (fun a b => d_calls a = d_calls b) (fun a b => dij_seen a = dij_seen b)
    (dij_step vid WT DM PM LM next c1 s1) (dij_step vid WT DM PM LM next c2 s2).
Proof using I_dec next_nonneg.
  intros Ht1 Ht2 Hk1 Hk2 s1 s2 (cur & K). unfold dij_step. rewrite <- (k_pc _ _ _ K), <- (k_heap _ _ _ K), Ht1, Ht2. cbn [negb andb].
  pose proof (k_edges _ _ _ K) as He. destruct (d_pc s1) as [|v w k [|[[n ew] l] rest]] eqn:Epc.
  - destruct (d_heap s1) as [|[[w no] [v k]] h] eqn:Eh; [split; [constructor|apply K]|].
    assert (Hin : forall e, In e h -> In e (d_heap s1)) by (intros e He'; rewrite Eh; right; exact He').
    assert (H0 : In ((w, no), (v, k)) (d_heap s1)) by (rewrite Eh; now left).
    assert (Hso : heap_sorted WT h /\ forall e, In e h -> leb w (ekey e) = true).
    { pose proof (k_sorted _ _ _ K) as Hso. rewrite Eh in Hso. inversion Hso as [|? ? Ha Hb]; subst. split; [exact Ha|]. rewrite Forall_forall in Hb. exact Hb. }
    assert (Hun : NoDup (keys h)).
    { pose proof (k_unique _ _ _ K) as Hu. rewrite Eh, keys_cons in Hu. destruct (positive _); [now inversion Hu|exact Hu]. }
    pose proof (k_bound _ _ _ K _ H0) as Hb. cbn in Hb. pose proof (k_min _ _ _ K _ H0) as Hm. cbn in Hm.
    assert (Hsame : ltb (get (vid v) (d_distances s1)) w = ltb (get (vid v) (d_distances s2)) w).
    { destruct (in_dec I_dec (vid v) (cids s1)) as [Hi|Hi]; [|now rewrite (k_open _ _ _ K _ Hi)].
      destruct (k_done _ _ _ K _ Hi) as (-> & Hz & _). destruct (k_stale _ _ _ K _ H0 Hi) as [Hs|Hs]; cbn in Hs.
      - rewrite Hs. symmetry. exact (w_le_lt_trans WT _ _ _ Hz Hs).
      - subst w. rewrite (w_leb_antisym WT _ _ Hb Hz). reflexivity. }
    rewrite Hsame. destruct (ltb (get (vid v) (d_distances s2)) w) eqn:El.
    + split; [constructor|]. exists cur. destruct K. constructor; cbn [d_set_heap d_pc d_heap d_no d_distance d_depth d_limit d_calls d_distances]; auto; try (rewrite Epc; auto; fail).
      * apply Hso.
    + clear Hsame.
      assert (Hw : get (vid v) (d_distances s1) = w).
      { destruct (in_dec I_dec (vid v) (cids s1)) as [Hi|Hi].
        - destruct (k_stale _ _ _ K _ H0 Hi) as [Hs|Hs]; cbn in Hs.
          + exfalso. destruct (k_done _ _ _ K _ Hi) as (Hz & Hz' & _). rewrite Hz in El. rewrite (w_le_lt_trans WT _ _ _ Hz' Hs) in El. discriminate.
          + subst w. apply (w_leb_antisym WT); [exact Hb|]. apply (k_done _ _ _ K _ Hi).
        - apply (w_leb_antisym WT); [exact Hb|]. rewrite (k_open _ _ _ K _ Hi). now apply w_ltb_ge. }
      cbv zeta. unfold dij_settle. cbn [d_set_heap d_limit]. rewrite <- (k_limit _ _ _ K). rewrite Hk1, Hk2, Ht1, Ht2. cbn [orb].
      assert (Hobs : Forall2 (fun a b : @dij_report V I L WT DM PM LM => dij_seen a = dij_seen b)
          (if 0 <? k then [dij_observe WT DM PM LM v (dij_settle vid WT DM PM LM c1 (d_set_heap WT DM PM LM s1 h) v w k)] else [])
          (if 0 <? k then [dij_observe WT DM PM LM v (dij_settle vid WT DM PM LM c2 (d_set_heap WT DM PM LM s2 h) v w k)] else [])).
      { destruct (0 <? k); repeat constructor. }
      unfold dij_settle in Hobs. rewrite Hk1, Hk2, Ht1, Ht2 in Hobs. cbn [orb] in Hobs.
      destruct (limit_check (d_limit s1)) as [lim|]; [|split; [exact Hobs|split; [reflexivity|cbn; apply K]]].
      split; [exact Hobs|]. exists w. destruct K.
      constructor; cbn [dij_expand d_set_heap d_pc d_heap d_no d_distance d_depth d_limit d_calls d_distances map fst]; auto.
      * rewrite k_calls0. reflexivity.
      * exact (w_leb_trans WT _ _ _ k_cur0 Hm).
      * apply Hso.
      * apply Hso.
      * split; [reflexivity|apply incl_refl].
      * intros i Hi. cbn in Hi. rewrite dm_get_set_other by (intros E; apply Hi; left; congruence). apply k_open0. tauto.
      * intros i Hi. cbn in Hi. destruct (I_dec (vid v) i) as [<-|Hne].
        -- rewrite dm_get_set_same, Hw. split; [reflexivity|]. split; [exact (w_leb_trans WT _ _ _ k_cur0 Hm)|apply w_leb_refl].
        -- destruct Hi as [Hi|Hi]; [contradiction|]. rewrite dm_get_set_other by congruence. destruct (k_done0 i Hi) as (? & ? & Hc). split; [assumption|]. split; [assumption|]. exact (w_leb_trans WT _ _ _ Hc Hm).
      * intros e He' Hi. destruct (I_dec (vid v) (eid e)) as [Heq|Hne].
        -- destruct (w_leb WT (ekey e) (get (eid e) (d_distances s1))) eqn:E1; [|left; now apply w_ltb_lt]. right.
           assert (Ek : ekey e = w). { rewrite <- Heq, Hw in E1. apply (w_leb_antisym WT); [exact E1|]. apply Hso, He'. }
           destruct (positive e) eqn:Ep; [|unfold positive in Ep; apply w_ltb_ge in Ep; apply (w_leb_antisym WT); [exact Ep|]; rewrite Ek; exact (w_leb_trans WT _ _ _ k_cur0 Hm)].
           exfalso. rewrite Eh, keys_cons in k_unique0. unfold positive in k_unique0 at 1. cbn [e_key fst] in k_unique0. unfold positive in Ep. rewrite Ek in Ep.
           change (e_key (w, no, (v, k))) with w in k_unique0. rewrite Ep in k_unique0. inversion k_unique0 as [|? ? Hni _]; subst x l. apply Hni. change (In (vid v, w) (keys h)). rewrite <- Ek, Heq. apply keys_in; [exact He'|]. unfold positive. now rewrite Ek.
        -- destruct Hi as [Hi|Hi]; [contradiction|]. apply k_stale0; auto.
  - split; [constructor|]. exists cur. destruct K. constructor; cbn [d_set_pc d_pc d_heap d_no d_distance d_depth d_limit d_calls d_distances]; auto.
  - cbv zeta. destruct He as [-> Hinc].
    assert (Hnw : leb cur (w_add WT ew cur) = true) by (apply w_add_infl; exact (next_nonneg v _ (Hinc _ (or_introl eq_refl)))).
    destruct (leb (w_inf WT) (w_add WT ew cur)); [split; [constructor|split; [reflexivity|apply K]]|].
    set (nw := w_add WT ew cur) in *.
    assert (Hsame : leb (get (vid n) (d_distances s1)) nw = leb (get (vid n) (d_distances s2)) nw).
    { destruct (in_dec I_dec (vid n) (cids s1)) as [Hi|Hi]; [|now rewrite (k_open _ _ _ K _ Hi)].
      destruct (k_done _ _ _ K _ Hi) as (-> & _ & Hc). rewrite (w_leb_trans WT _ _ _ Hc Hnw). symmetry. exact (w_leb_trans WT _ _ _ (k_cur _ _ _ K) Hnw). }
    rewrite <- Hsame. destruct (leb (get (vid n) (d_distances s1)) nw) eqn:El.
    + split; [constructor|]. exists cur. destruct K. constructor; cbn [d_set_pc d_pc d_heap d_no d_distance d_depth d_limit d_calls d_distances]; auto.
      split; [reflexivity|]. intros e He'. apply Hinc. now right.
    + assert (Hn : ~ In (vid n) (cids s1)).
      { intros Hi. destruct (k_done _ _ _ K _ Hi) as (_ & _ & Hc). rewrite (w_leb_trans WT _ _ _ Hc Hnw) in El. discriminate. }
      assert (Hlt : ltb nw (get (vid n) (d_distances s1)) = true) by now apply w_ltb_lt.
      split; [constructor|]. exists cur. destruct K. unfold dij_relax. rewrite Ht1, Ht2.
      constructor; cbn [d_pc d_heap d_no d_distance d_depth d_limit d_calls d_distances]; auto.
      * rewrite k_heap0, k_no0. reflexivity.
      * rewrite k_no0. reflexivity.
      * apply heappush_sorted. assumption.
      * intros e He'. apply heappush_in in He'. destruct He' as [->|He']; [exact Hnw|auto].
      * split; [reflexivity|]. intros e He'. apply Hinc. now right.
      * intros i Hi. destruct (I_dec (vid n) i) as [<-|Hne]; [now rewrite !dm_get_set_same|]. rewrite !dm_get_set_other by congruence. auto.
      * intros i Hi. assert (i <> vid n) by congruence. rewrite !dm_get_set_other by congruence. auto.
      * intros e He'. apply heappush_in in He'. destruct He' as [->|He']; [cbn [e_val e_key fst snd]; rewrite dm_get_set_same; apply w_leb_refl|].
        destruct (I_dec (vid n) (eid e)) as [Heq|Hne]; [|rewrite dm_get_set_other by congruence; auto]. rewrite <- Heq, dm_get_set_same.
        apply w_lt_le. apply (w_lt_le_trans WT _ _ _ Hlt). rewrite Heq. auto.
      * apply (Permutation_NoDup (Permutation_sym (keys_perm _ _ (heappush_perm WT _ _)))). rewrite keys_cons. destruct (positive _); [|assumption]. cbn [app]. constructor; [|assumption].
        intros Hi. apply in_keys in Hi. destruct Hi as (e & He' & Heq). cbn [e_val e_key fst snd] in Heq. injection Heq as Hi1 Hi2.
        apply (w_le_lt_contra WT (get (vid n) (d_distances s1)) nw); [|exact Hlt]. rewrite Hi1, Hi2. auto.
      * intros e He' Hi. apply heappush_in in He'. destruct He' as [->|He']; [contradiction|].
        assert (eid e <> vid n) by congruence. rewrite dm_get_set_other by congruence. auto.
Qed.

Lemma init_zero starts : forall (m : dm_t DM) v, In v starts \/ get (vid v) m = zero ->
  get (vid v) (fold_left (fun m p => dm_set DM (fst p) (snd p) m) (map (fun v => (vid v, zero)) starts) m) = zero.
Proof using I_dec.
  induction starts as [|x r IH]; intros m v H; cbn; [destruct H as [[]|H]; exact H|]. apply IH.
  destruct (I_dec (vid x) (vid v)) as [E|E]; [right; rewrite <- E; apply dm_get_set_same|]. destruct H as [[->|H]|H]; [congruence|auto|right; rewrite dm_get_set_other; congruence].
Qed.
Lemma entries_of dist : forall l no e, In e (start_entries vid WT DM no dist l) -> In (fst (e_val e)) l /\ ekey e = get (eid e) dist.
Proof. induction l as [|v r IH]; intros no e; [intros []|]. intros [<-|H]; [cbn; auto|]. destruct (IH _ _ H). cbn. auto. Qed.

Lemma entries_unique dist : forall l no, NoDup (map vid l) -> NoDup (keys (start_entries vid WT DM no dist l)).
Proof.
  induction l as [|v r IH]; intros no H; [constructor|]. inversion H; subst. cbn [start_entries]. rewrite keys_cons. destruct (positive _); [|apply IH; assumption]. cbn [app]. constructor; [|apply IH; assumption].
  intros Hi. apply in_keys in Hi. destruct Hi as (e & He & Heq). apply entries_of in He. injection Heq as Heq _. cbn in Heq. apply H2. rewrite Heq. apply in_map, He.
Qed.
Lemma default_nonneg starts : forall (m : dm_t DM), (forall i, leb zero (get i m) = true) -> forall i,
  leb zero (get i (fold_left (fun m p => dm_setdefault (w_eqb WT) DM m (fst p) (snd p)) (map (fun v => (vid v, zero)) starts) m)) = true.
Proof using I_dec.
  induction starts as [|x r IH]; intros m H i; cbn; [apply H|]. apply IH. intros j. unfold dm_setdefault. destruct (w_eqb _ _ _); [|apply H].
  destruct (I_dec (vid x) j) as [<-|E]; [rewrite dm_get_set_same; apply w_leb_refl|]. rewrite dm_get_set_other by congruence. apply H.
Qed.

Lemma dij_keep starts known lim n c1 c2 os1 r1 os2 r2 : dc_is_tree c1 = false -> dc_is_tree c2 = false -> dc_keep_distances c1 = true -> dc_keep_distances c2 = false ->
  knows_nonneg vid WT DM starts known ->
  dij_run vid WT DM PM LM next c1 starts known lim n = (os1, r1) -> dij_run vid WT DM PM LM next c2 starts known lim n = (os2, r2) ->
  map dij_seen os1 = map dij_seen os2 /\ outcome_map d_calls r1 = outcome_map d_calls r2.
Proof using I_dec next_nonneg.
  intros Ht1 Ht2 Hk1 Hk2 Hkn. unfold dij_run. apply (seen_run_weak _ _ (fun s1 s2 => exists cur, kept cur s1 s2)).
  - intros s1 s2 (cur & K). apply K.
  - now apply keep_step.
  - exists zero. unfold dij_init. rewrite Ht1, Ht2. set (dist := define_distances WT DM known _ false).
    assert (Hz : (forall v, In v starts -> leb zero (get (vid v) dist) = true) /\ NoDup (keys (start_entries vid WT DM 256 dist starts))).
    { unfold dist, define_distances. destruct known as [m|]; cbn in Hkn.
      - destruct Hkn as [Hn Hd]. split; [intros v _; now apply default_nonneg|now apply entries_unique].
      - assert (G : forall v, In v starts -> get (vid v) (fold_left (fun m p => dm_set DM (fst p) (snd p) m) (map (fun v => (vid v, zero)) starts) (dm_empty DM)) = zero) by (intros v Hv; apply init_zero; now left).
        split; [intros v Hv; rewrite G by exact Hv; apply w_leb_refl|].
        assert (Hf : forall e, In e (start_entries vid WT DM 256 (fold_left (fun m p => dm_set DM (fst p) (snd p) m) (map (fun v => (vid v, zero)) starts) (dm_empty DM)) starts) -> positive e = false).
        { intros e He. apply entries_of in He. destruct He as [H1 H2]. unfold positive. rewrite H2, G by exact H1. apply w_lt_irrefl. }
        unfold keys. clear -Hf. induction (start_entries _ _ _ _ _ _) as [|e h IH]; [constructor|]. cbn [filter]. rewrite (Hf e (or_introl eq_refl)). apply IH. intros e' He'. apply Hf. now right. }
    destruct Hz as [Hz Hu].
    assert (Hin : forall e, In e (heapify WT (start_entries vid WT DM 256 dist starts)) -> leb zero (get (eid e) dist) = true /\ ekey e = get (eid e) dist).
    { intros e He. apply heapify_in, entries_of in He. destruct He as [H1 H2]. auto. }
    constructor; cbn [d_pc d_heap d_no d_distance d_depth d_limit d_calls d_distances map]; auto; try reflexivity; try (intros ? []; fail).
    + apply w_leb_refl.
    + apply heapify_sorted.
    + intros e He. destruct (Hin e He) as [H1 ->]. exact H1.
    + intros e He. destruct (Hin e He) as [H1 ->]. apply w_leb_refl.
    + exact (Permutation_NoDup (Permutation_sym (keys_perm _ _ (heapify_perm WT _))) Hu).
Qed.

(** In a tree, keep_distances has no effect. *)
Lemma dij_keep_tree starts known lim n c1 c2 os1 r1 os2 r2 : dc_is_tree c1 = true -> dc_is_tree c2 = true ->
  dij_run vid WT DM PM LM next c1 starts known lim n = (os1, r1) -> dij_run vid WT DM PM LM next c2 starts known lim n = (os2, r2) ->
  map dij_seen os1 = map dij_seen os2 /\ outcome_map d_calls r1 = outcome_map d_calls r2.
Proof.
  destruct c1 as [t1 b1 x1 y1], c2 as [t2 b2 x2 y2]; cbn; intros -> ->. unfold dij_run. apply (seen_run _ _ (dij_alike _ _ _ _)).
  - intros s1 s2 H. unfold dij_alike in H. apply H.
  - intros [p1 q1 z1 e1 d1 v1 pr1 l1 m1 k1] [p2 q2 z2 e2 d2 v2 pr2 l2 m2 k2] H. unfold dij_alike in H. cbn in H.
    destruct H as (-> & -> & -> & -> & -> & -> & -> & ->). unfold dij_step, dij_settle, dij_relax, dij_expand. cbn. branches.
  - unfold dij_init. repeat split; reflexivity.
Qed.
End Keep.

(** All options together. *)
Section All.
Context {V I L : Type} (vid : V -> I) (WT : Weights) (PM : PMap I V) (LM : PMap I L) (next : V -> list (V * w_t WT * L)) (DM : DMap I (w_t WT) (w_inf WT)).

Lemma outcome_map_map {S A B X} (f : S -> A) (g : A -> B) (r : outcome S X) : outcome_map g (outcome_map f r) = outcome_map (fun s => g (f s)) r.
Proof. destruct r; reflexivity. Qed.

Lemma dij_options_keep (I_dec : forall a b : I, {a = b} + {a <> b}) starts known lim n c1 c2 os1 r1 os2 r2 :
  (forall v e, In e (next v) -> w_leb WT (w_zero WT) (snd (fst e)) = true) -> knows_nonneg vid WT DM starts known -> dc_is_tree c1 = dc_is_tree c2 ->
  dij_run vid WT DM PM LM next c1 starts known lim n = (os1, r1) -> dij_run vid WT DM PM LM next c2 starts known lim n = (os2, r2) ->
  map dij_seen os1 = map dij_seen os2 /\ outcome_map d_calls r1 = outcome_map d_calls r2.
Proof.
  intros Hn Hk Ht R1 R2. destruct (dc_is_tree c1) eqn:E1.
  { exact (dij_keep_tree vid WT PM LM next DM starts known lim n c1 c2 os1 r1 os2 r2 E1 (eq_sym Ht) R1 R2). }
  destruct (Bool.bool_dec (dc_keep_distances c1) (dc_keep_distances c2)) as [E|E].
  - destruct (dij_options vid WT PM LM next DM starts known lim n c1 c2 os1 r1 os2 r2 (eq_trans E1 Ht) E R1 R2) as [H1 H2]. split.
    + apply (f_equal (map fst)) in H1. rewrite !map_map in H1. exact H1.
    + apply (f_equal (outcome_map fst)) in H2. rewrite !outcome_map_map in H2. exact H2.
  - destruct (dc_keep_distances c1) eqn:K1, (dc_keep_distances c2) eqn:K2; try congruence.
    + exact (dij_keep I_dec vid WT PM LM next DM Hn starts known lim n c1 c2 os1 r1 os2 r2 E1 (eq_sym Ht) K1 K2 Hk R1 R2).
    + destruct (dij_keep I_dec vid WT PM LM next DM Hn starts known lim n c2 c1 os2 r2 os1 r1 (eq_sym Ht) E1 K2 K1 Hk R2 R1). auto.
Qed.
End All.
