(** Proofs about the model of Dijkstra's algorithm: distances. *)
From Coq Require Import List ZArith Bool Lia Sorted Arith Permutation.
From Verif Require Import Machine GearSpec Spec TraversalSpec Common CommonProofs Weight WeightSpec HeapModel HeapProofs
  DijkstraModel BFSProofs.
Import ListNotations.

Section DijkstraProofs.
Context {V I L : Type}.
Variable I_dec : forall a b : I, {a = b} + {a <> b}.
Variable vid : V -> I.
Variable WT : Weights.
Notation W := (w_t WT).
Notation leb := (w_leb WT).
Notation ltb := (w_ltb WT).
Notation add := (w_add WT).
Notation zero := (w_zero WT).
Notation inf := (w_inf WT).
Variable DM : DMap I W inf.
Variable PM : PMap I V.
Variable LM : PMap I L.
Variable next : V -> list (V * W * L).
Variable cfg : dij_cfg.
Hypothesis Htree : dc_is_tree cfg = false.
Variable E : I -> W -> I -> Prop.
Hypothesis Hnext : presents_weighted WT vid next E.
Hypothesis Hnn : nonnegative WT E.
Variable starts : list V.
Variable known : option (dm_t DM).
Variable lim : option Z.

Notation state := (@dij_state V I L WT DM PM LM).
Notation report := (@dij_report V I L WT DM PM LM).
Notation step := (dij_step vid WT DM PM LM next cfg).
Notation init := (dij_init vid WT DM PM LM cfg starts known lim).
Notation ent := (@entry (V * nat) WT).
Notation start_id := (is_start vid starts).

Definition D0 : dm_t DM :=
  define_distances WT DM known (map (fun v => (vid v, zero)) starts) (dc_is_tree cfg).
Definition d0 (i : I) : W := dm_get DM i D0.
Hypothesis Hd0 : forall i, start_id i -> leb zero (d0 i) = true.

(** Improving derivations: walks from start vertices whose weight stays below the initial distance of
    each vertex they enter. *)
Inductive imp : I -> nat -> W -> Prop :=
| imp_start i : start_id i -> imp i 0 (d0 i)
| imp_step i k d w j : imp i k d -> E i w j -> ltb (add w d) (d0 j) = true -> imp j (S k) (add w d).

Lemma imp_nonneg i k d : imp i k d -> leb zero d = true.
Proof.
  induction 1 as [i Hs|i k d w j Hi IH He Hl]; auto.
  eapply w_leb_trans; [exact IH|]. apply w_add_infl. eapply Hnn; eauto.
Qed.

Lemma imp_0 i k d : imp i k d -> k = 0 -> d = d0 i /\ start_id i.
Proof. inversion 1; subst; auto; discriminate. Qed.

Lemma imp_S i k d : imp i (S k) d -> ltb d (d0 i) = true.
Proof. inversion 1; subst; auto. Qed.

Definition xv (x : V * W * nat) : V := fst (fst x).
Definition xw (x : V * W * nat) : W := snd (fst x).
Definition xk (x : V * W * nat) : nat := snd x.
Definition xpos (x : V * W * nat) : bool := 0 <? xk x.
Definition ev (e : ent) : V := fst (e_val e).
Definition ek (e : ent) : nat := snd (e_val e).
Definition epos (e : ent) : bool := 0 <? ek e.
Definition hid (e : ent) : I * W := (vid (ev e), e_key e).

Definition settled (X : list (V * W * nat)) (i : I) (w : W) : Prop :=
  exists v k, In (v, w, k) X /\ vid v = i.
Definition pend (H : list ent) (i : I) (w : W) : Prop :=
  exists e, In e H /\ vid (ev e) = i /\ e_key e = w.
Definition best (X : list (V * W * nat)) (H : list ent) (j : I) (c : W) : Prop :=
  exists w, (settled X j w \/ pend H j w) /\ leb w c = true.
Definition open_edge (pc : @dij_pc V L WT) (i : I) (wu w : W) (j : I) : Prop :=
  exists v0 k0 rest, pc = DEdges WT v0 wu k0 rest /\ vid v0 = i /\
    In (w, j) (map (fun e => (snd (fst e), vid (fst (fst e)))) rest).

Record Inv (X : list (V * W * nat)) (pc : @dij_pc V L WT) (H : list ent) (D : dm_t DM) : Prop := {
  i_impX : forall v w k, In (v, w, k) X -> imp (vid v) k w;
  i_impH : forall e, In e H -> imp (vid (ev e)) (ek e) (e_key e);
  i_sH : heap_sorted WT H;
  i_XH : forall x e, In x X -> In e H -> leb (xw x) (e_key e) = true;
  i_sX : StronglySorted (fun a b => leb (xw b) (xw a) = true) X;
  i_cur : forall v w k rest, pc = DEdges WT v w k rest ->
            (exists X', X = (v, w, k) :: X') /\ incl rest (next v);
  i_fun : forall i w w', settled X i w -> settled X i w' -> w = w';
  i_dX : forall i w, settled X i w -> dm_get DM i D = if dc_keep_distances cfg then w else zero;
  i_dH : forall i, (forall w, ~ settled X i w) ->
           leb (dm_get DM i D) (d0 i) = true /\
           (forall w, pend H i w -> leb (dm_get DM i D) w = true) /\
           (dm_get DM i D = d0 i \/ pend H i (dm_get DM i D));
  i_start : forall i, start_id i -> best X H i (d0 i);
  i_closed : forall i wu w j, settled X i wu -> E i w j ->
           open_edge pc i wu w j \/
           (ltb (add w wu) inf = true /\ (leb (d0 j) (add w wu) = true \/ best X H j (add w wu)));
  i_nd : NoDup (map hid (filter epos H));
  i_strict : forall i w e, settled X i w -> In e H -> vid (ev e) = i -> epos e = true ->
           ltb w (e_key e) = true;
  i_min : forall i w k d, settled X i w -> imp i k d -> leb w d = true;
  i_ndX : NoDup (map (fun x => vid (xv x)) (filter xpos X));
  i_count : length (filter (fun x => negb (xpos x)) X) + length (filter (fun e => negb (epos e)) H)
            <= length starts;
  i_v0X : forall x, In x X -> xpos x = false -> In (xv x) starts;
  i_v0H : forall e, In e H -> epos e = false -> In (ev e) starts
}.

Lemma settled_dec X i : (exists w, settled X i w) \/ (forall w, ~ settled X i w).
Proof.
  destruct (In_dec I_dec i (map (fun x => vid (xv x)) X)) as [Hin|Hn].
  - left. apply in_map_iff in Hin. destruct Hin as ([[v w] k] & Hv & Hin).
    exists w, v, k. auto.
  - right. intros w (v & k & Hin & Hv). apply Hn. apply in_map_iff. exists (v, w, k). auto.
Qed.

Lemma settled_nonneg X pc H D i w : Inv X pc H D -> settled X i w -> leb zero w = true.
Proof. intros HI (v & k & Hin & _). eapply imp_nonneg. eapply i_impX; eauto. Qed.

(** distances of settled vertices are no larger than everything still to come *)
Lemma settled_dist_le X pc H D i w c : Inv X pc H D -> settled X i w -> leb w c = true ->
  leb (dm_get DM i D) c = true.
Proof.
  intros HI Hs Hc. rewrite (i_dX _ _ _ _ HI _ _ Hs). destruct (dc_keep_distances cfg); auto.
  eapply w_leb_trans; eauto. eapply settled_nonneg; eauto.
Qed.

(** All walks with improving weights are settled or have to wait for a smaller heap entry. *)
Lemma key_lemma X H D : Inv X (@DLoop V L WT) H D -> forall j k d, imp j k d ->
  (exists w, settled X j w /\ leb w d = true) \/ (exists e, In e H /\ leb (e_key e) d = true).
Proof.
  intros HI j k d Hi. induction Hi as [i Hs|i k d w j Hi IH He Hl].
  - destruct (i_start _ _ _ _ HI i Hs) as (w & [Hw|(e & He & _ & <-)] & Hle); eauto.
  - assert (Hup : leb d (add w d) = true) by (apply w_add_infl; eapply Hnn; eauto).
    destruct IH as [(w' & Hw' & Hle)|(e & Hin & Hle)].
    + destruct (i_closed _ _ _ _ HI _ _ _ _ Hw' He) as [(v0 & k0 & r & Hpc & _)|[_ Hc]]; [discriminate|].
      assert (Hm : leb (add w w') (add w d) = true) by (now apply w_add_mono).
      destruct Hc as [Hc|(w2 & [Hw2|(e & Hin & _ & <-)] & Hle2)].
      * exfalso. eapply w_le_lt_contra; [|exact Hl]. eapply w_leb_trans; eauto.
      * left. exists w2. split; auto. eapply w_leb_trans; eauto.
      * right. exists e. split; auto. eapply w_leb_trans; eauto.
    + right. exists e. split; auto. eapply w_leb_trans; eauto.
Qed.

Lemma best_cons_settle X e h j c : best X (e :: h) j c ->
  best ((ev e, e_key e, ek e) :: X) h j c.
Proof.
  intros (w & [(v & k & Hin & Hv)|(e' & [<-|Hin] & Hv & <-)] & Hle).
  - exists w. split; auto. left. exists v, k. split; auto. now right.
  - exists (e_key e). split; auto. left. exists (ev e), (ek e). split; auto. now left.
  - exists (e_key e'). split; auto. right. exists e'. auto.
Qed.

Lemma heap_head_min (e : ent) h : heap_sorted WT (e :: h) -> forall e', In e' (e :: h) ->
  leb (e_key e) (e_key e') = true.
Proof.
  intros Hs e' [<-|Hin]; [apply w_leb_refl|]. inversion Hs as [|? ? _ Hf]; subst.
  rewrite Forall_forall in Hf. auto.
Qed.

(** ** A stale entry is removed *)
Lemma best_stale X pc e h D j c : Inv X pc (e :: h) D ->
  ltb (dm_get DM (vid (ev e)) D) (e_key e) = true ->
  best X (e :: h) j c -> best X h j c \/ ltb (d0 j) c = true.
Proof.
  intros HI Hst (w & [Hs|(e' & [<-|Hin] & Hv & <-)] & Hle).
  - left. exists w. auto.
  - destruct (settled_dec X j) as [(w & Hw)|Hn].
    + left. exists w. split; auto. destruct Hw as (v & k & Hin & Hvv).
      eapply w_leb_trans; [|exact Hle].
      apply (i_XH _ _ _ _ HI (v, w, k) e); auto. now left.
    + destruct (i_dH _ _ _ _ HI j Hn) as (_ & _ & [Heq|(e' & [<-|Hin] & Hv' & Hk)]).
      * right. subst j. rewrite <- Heq. eapply w_lt_le_trans; eauto.
      * subst j. rewrite Hk in Hst. rewrite w_lt_irrefl in Hst. discriminate.
      * left. exists (e_key e'). split; [right; exists e'; auto|]. rewrite Hk. subst j.
        eapply w_leb_trans; [|exact Hle]. now apply w_lt_le.
  - left. exists (e_key e'). split; auto. right. exists e'. auto.
Qed.

Lemma Inv_stale X e h D : Inv X (@DLoop V L WT) (e :: h) D ->
  ltb (dm_get DM (vid (ev e)) D) (e_key e) = true -> Inv X (@DLoop V L WT) h D.
Proof.
  intros HI Hst. pose proof HI as HI0. destruct HI.
  constructor; auto; try discriminate.
  - intros e' He'. apply i_impH0. now right.
  - inversion i_sH0; auto.
  - intros x e' Hx He'. apply i_XH0; auto. now right.
  - intros i Hn. destruct (i_dH0 i Hn) as (H1 & H2 & H3). split; [auto|split].
    + intros w (e' & He' & Hv & Hk). apply H2. exists e'. split; auto. now right.
    + destruct H3 as [H3|(e' & [<-|He'] & Hv & Hk)]; auto.
      * subst i. rewrite Hk, w_lt_irrefl in Hst. discriminate.
      * right. exists e'. auto.
  - intros i Hs. destruct (best_stale _ _ _ _ _ _ _ HI0 Hst (i_start0 i Hs)) as [?|Hl]; auto.
    rewrite w_lt_irrefl in Hl. discriminate.
  - intros i wu w j Hs He. destruct (i_closed0 i wu w j Hs He) as [?|[Ha Hb]]; auto.
    right. split; auto. destruct Hb as [?|Hb]; auto.
    destruct (best_stale _ _ _ _ _ _ _ HI0 Hst Hb) as [?|Hl]; auto. left. now apply w_lt_le.
  - simpl in i_nd0. destruct (epos e); auto. simpl in i_nd0. now inversion i_nd0.
  - intros i w e' Hs He' Hv Hp. apply (i_strict0 i w e'); auto. now right.
  - simpl in i_count0. destruct (epos e); simpl in i_count0; lia.
  - intros e' He'. apply i_v0H0. now right.
Qed.

(** ** A vertex is settled *)
Definition Dsettle (i : I) (D : dm_t DM) : dm_t DM :=
  if dc_keep_distances cfg then D else dm_set DM i zero D.

Lemma Dsettle_same i D w : dm_get DM i D = w ->
  dm_get DM i (Dsettle i D) = if dc_keep_distances cfg then w else zero.
Proof. unfold Dsettle. destruct (dc_keep_distances cfg); auto. intros _. apply dm_get_set_same. Qed.

Lemma Dsettle_other i j D : i <> j -> dm_get DM i (Dsettle j D) = dm_get DM i D.
Proof. unfold Dsettle. destruct (dc_keep_distances cfg); auto. apply dm_get_set_other. Qed.

(** A vertex that is settled again had the same weight, and is a start vertex given twice. *)
Lemma settle_again X pc e h D w : Inv X pc (e :: h) D ->
  ltb (dm_get DM (vid (ev e)) D) (e_key e) = false -> settled X (vid (ev e)) w ->
  w = e_key e /\ ek e = 0 /\ (dc_keep_distances cfg = false -> w = zero).
Proof.
  intros HI Hst Hs. apply w_ltb_ge in Hst. rewrite (i_dX _ _ _ _ HI _ _ Hs) in Hst.
  assert (Hle : leb w (e_key e) = true).
  { destruct Hs as (v & k & Hin & Hv). apply (i_XH _ _ _ _ HI (v, w, k) e); auto. now left. }
  pose proof (settled_nonneg _ _ _ _ _ _ HI Hs) as Hz.
  assert (Heq : w = e_key e /\ (dc_keep_distances cfg = false -> w = zero)).
  { destruct (dc_keep_distances cfg).
    - split; [now apply w_leb_antisym|discriminate].
    - assert (w = zero) by (apply w_leb_antisym; auto; eapply w_leb_trans; eauto).
      subst w. split; auto. now apply w_leb_antisym. }
  destruct Heq as [Heq Hz2]. split; [auto|split; auto].
  destruct (ek e) eqn:Hk; auto. exfalso.
  assert (Hlt : ltb w (e_key e) = true).
  { eapply (i_strict _ _ _ _ HI); eauto; [now left|]. unfold epos. rewrite Hk. reflexivity. }
  subst w. rewrite w_lt_irrefl in Hlt. discriminate.
Qed.

(** A vertex settled for the first time: its weight is the distance noted for it. *)
Lemma settle_first X pc e h D : Inv X pc (e :: h) D ->
  ltb (dm_get DM (vid (ev e)) D) (e_key e) = false -> (forall w, ~ settled X (vid (ev e)) w) ->
  dm_get DM (vid (ev e)) D = e_key e.
Proof.
  intros HI Hst Hn. apply w_ltb_ge in Hst.
  destruct (i_dH _ _ _ _ HI _ Hn) as (_ & H2 & _).
  apply w_leb_antisym; auto. apply H2. exists e. split; [now left|auto].
Qed.

Lemma Inv_settle X e h D : Inv X (@DLoop V L WT) (e :: h) D ->
  ltb (dm_get DM (vid (ev e)) D) (e_key e) = false ->
  Inv ((ev e, e_key e, ek e) :: X) (DEdges WT (ev e) (e_key e) (ek e) (next (ev e))) h
      (Dsettle (vid (ev e)) D).
Proof.
  intros HI Hst. pose proof HI as HI0. destruct HI.
  assert (Hset : forall i w, settled ((ev e, e_key e, ek e) :: X) i w ->
            (i = vid (ev e) /\ w = e_key e) \/ (settled X i w)).
  { intros i w (v & k & [Heq|Hin] & Hv).
    - left. injection Heq as <- <- <-. auto.
    - right. exists v, k. auto. }
  assert (Hfunc : forall w, settled X (vid (ev e)) w -> w = e_key e).
  { intros w Hs. now apply (settle_again _ _ _ _ _ _ HI0 Hst) in Hs. }
  assert (Hhead : forall e', In e' h -> leb (e_key e) (e_key e') = true).
  { intros e' Hin. apply (heap_head_min e h); auto. now right. }
  assert (Hbc := best_cons_settle X e h).
  constructor.
  - intros v w k [Heq|Hin]; auto. injection Heq as <- <- <-. apply i_impH0. now left.
  - intros e' He'. apply i_impH0. now right.
  - inversion i_sH0; auto.
  - intros x e' [<-|Hx] He'; simpl; auto. apply i_XH0; auto. now right.
  - constructor; auto. apply Forall_forall. intros x Hx. simpl. apply i_XH0; auto. now left.
  - intros v w k rest Heq. injection Heq as <- <- <- <-. split; [eauto|apply incl_refl].
  - intros i w w' Hw Hw'. destruct (Hset _ _ Hw) as [[-> ->]|Hw1], (Hset _ _ Hw') as [[? ->]|Hw1']; eauto.
    + symmetry; auto.
    + subst i. auto.
  - intros i w Hw. destruct (I_dec i (vid (ev e))) as [->|Hne].
    + assert (w = e_key e) by (destruct (Hset _ _ Hw) as [[_ ?]|?]; auto). subst w.
      destruct (settled_dec X (vid (ev e))) as [(w' & Hw')|Hn].
      * apply Dsettle_same. rewrite (i_dX0 _ _ Hw').
        destruct (settle_again _ _ _ _ _ _ HI0 Hst Hw') as (-> & _ & Hz).
        destruct (dc_keep_distances cfg); auto. symmetry; auto.
      * apply Dsettle_same. eapply settle_first; eauto.
    + rewrite Dsettle_other by auto. destruct (Hset _ _ Hw) as [[? _]|?]; [contradiction|auto].
  - intros i Hn.
    assert (Hne : i <> vid (ev e)).
    { intros ->. apply (Hn (e_key e)). exists (ev e), (ek e). split; auto. now left. }
    assert (HnX : forall w, ~ settled X i w).
    { intros w (v & k & Hin & Hv). apply (Hn w). exists v, k. split; auto. now right. }
    rewrite Dsettle_other by auto. destruct (i_dH0 i HnX) as (H1 & H2 & H3). split; [auto|split].
    + intros w (e' & He' & Hv & Hk). apply H2. exists e'. split; auto. now right.
    + destruct H3 as [H3|(e' & [<-|He'] & Hv & Hk)]; auto; [congruence|]. right. exists e'. auto.
  - intros i Hs. apply Hbc. auto.
  - intros i wu w j Hs He. destruct (Hset _ _ Hs) as [[-> ->]|Hs'].
    + left. exists (ev e), (ek e), (next (ev e)). split; [auto|split; auto]. now apply Hnext.
    + destruct (i_closed0 i wu w j Hs' He) as [(v0 & k0 & r & Hpc & _)|[Ha [Hb|Hb]]]; [discriminate| |]; auto.
  - simpl in i_nd0. destruct (epos e); auto. simpl in i_nd0. now inversion i_nd0.
  - intros i w e' Hs He' Hv Hp. destruct (Hset _ _ Hs) as [[-> ->]|Hs'].
    + apply w_le_neq_lt; auto. intros Heq. destruct (epos e) eqn:Hpe.
      * simpl in i_nd0. rewrite Hpe in i_nd0. simpl in i_nd0. inversion i_nd0 as [|? ? Hni _]; subst.
        apply Hni. apply in_map_iff. exists e'. unfold hid. rewrite Hv, Heq. split; auto.
        apply filter_In. auto.
      * unfold epos in Hpe, Hp. apply Nat.ltb_ge in Hpe. apply Nat.ltb_lt in Hp.
        assert (H1 : e_key e = d0 (vid (ev e))).
        { eapply imp_0; [apply i_impH0; now left|lia]. }
        assert (H2 : ltb (e_key e') (d0 (vid (ev e'))) = true).
        { destruct (ek e') as [|k'] eqn:Hk'; [lia|]. apply imp_S with (k := k').
          rewrite <- Hk'. apply i_impH0. now right. }
        rewrite Hv, <- H1, Heq, w_lt_irrefl in H2. discriminate.
    + apply (i_strict0 i w e'); auto. now right.
  - intros i w k d Hs Hi. destruct (Hset _ _ Hs) as [[-> ->]|Hs']; eauto.
    destruct (key_lemma _ _ _ HI0 _ _ _ Hi) as [(w' & Hw' & Hle)|(e' & Hin & Hle)].
    + rewrite <- (Hfunc w'); auto.
    + eapply w_leb_trans; [|exact Hle]. now apply (heap_head_min e h).
  - simpl. unfold xpos at 1; simpl. destruct (0 <? ek e) eqn:Hk; auto. simpl. constructor; auto.
    intros Hin. apply in_map_iff in Hin. destruct Hin as ([[v w] k] & Hv & Hf).
    apply filter_In in Hf. destruct Hf as [Hf _].
    assert (Hs : settled X (vid (ev e)) w) by (exists v, k; auto).
    destruct (settle_again _ _ _ _ _ _ HI0 Hst Hs) as (_ & Hz & _). rewrite Hz in Hk. discriminate.
  - simpl in *. unfold xpos at 1; unfold epos at 1 in i_count0; simpl.
    destruct (0 <? ek e); simpl in *; lia.
  - intros x [<-|Hx]; auto. simpl. intros Hp. apply i_v0H0; [now left|exact Hp].
  - intros e' He'. apply i_v0H0. now right.
Qed.

(** ** An edge is processed *)
Lemma best_push X e H j c : best X H j c -> best X (heappush WT e H) j c.
Proof.
  intros (w & [Hs|(e' & Hin & Hv & Hk)] & Hle); exists w; split; auto.
  right. exists e'. split; auto. apply heappush_in. auto.
Qed.

Lemma Permutation_filter {A} (p : A -> bool) l l' : Permutation l l' -> Permutation (filter p l) (filter p l').
Proof.
  induction 1; simpl; auto.
  - destruct (p x); auto.
  - destruct (p x), (p y); auto. apply perm_swap.
  - eapply perm_trans; eauto.
Qed.

Lemma open_edge_next v w k n ew l rest i wu w' j :
  open_edge (DEdges WT v w k ((n, ew, l) :: rest)) i wu w' j ->
  (i = vid v /\ wu = w /\ w' = ew /\ j = vid n) \/ open_edge (DEdges WT v w k rest) i wu w' j.
Proof.
  intros (v0 & k0 & r & Hpc & Hv & Hin). injection Hpc as <- <- <- <-. simpl in Hin.
  destruct Hin as [Heq|Hin].
  - left. injection Heq as <- <-. auto.
  - right. exists v, k, rest. auto.
Qed.

Lemma Inv_skip X v w k n ew l rest H D :
  Inv X (DEdges WT v w k ((n, ew, l) :: rest)) H D ->
  leb inf (add ew w) = false -> leb (dm_get DM (vid n) D) (add ew w) = true ->
  Inv X (DEdges WT v w k rest) H D.
Proof.
  intros HI Hinf Hle. pose proof HI as HI0. destruct HI.
  destruct (i_cur0 _ _ _ _ eq_refl) as [[X' HX'] Hinc].
  constructor; auto.
  - intros v1 w1 k1 rest1 Heq. injection Heq as <- <- <- <-. split; [eauto|].
    intros x Hx. apply Hinc. now right.
  - intros i wu w' j Hs He. destruct (i_closed0 i wu w' j Hs He) as [Ho|?]; auto.
    apply open_edge_next in Ho. destruct Ho as [(-> & -> & -> & ->)|Ho]; auto.
    right. split; [now apply w_ltb_lt|].
    destruct (settled_dec X (vid n)) as [(w' & Hw')|Hn].
    + right. exists w'. split; auto. destruct Hw' as (vn & kn & Hin & _).
      assert (Hmax : leb w' w = true).
      { rewrite HX' in i_sX0, Hin. inversion i_sX0 as [|? ? _ Hf]; subst.
        destruct Hin as [Heq|Hin]; [injection Heq as <- <- <-; apply w_leb_refl|].
        rewrite Forall_forall in Hf. apply (Hf _ Hin). }
      eapply w_leb_trans; [exact Hmax|]. apply w_add_infl. eapply Hnn; eauto.
    + destruct (i_dH0 _ Hn) as (_ & _ & [Heq|Hp]).
      * left. now rewrite <- Heq.
      * right. exists (dm_get DM (vid n) D). auto.
Qed.

Lemma edge_in X v w k n ew l rest H D :
  Inv X (DEdges WT v w k ((n, ew, l) :: rest)) H D ->
  E (vid v) ew (vid n) /\ In (n, ew, l) (next v) /\ In (v, w, k) X.
Proof.
  intros HI. destruct (i_cur _ _ _ _ HI _ _ _ _ eq_refl) as [[X' ->] Hinc].
  assert (Hin : In (n, ew, l) (next v)) by (apply Hinc; now left).
  split; [|split; auto; now left]. apply Hnext. apply in_map_iff. exists (n, ew, l). auto.
Qed.

Lemma cur_max X v w k rest H D : Inv X (DEdges WT v w k rest) H D ->
  forall i w', settled X i w' -> leb w' w = true.
Proof.
  intros HI i w' (vn & kn & Hin & _). destruct (i_cur _ _ _ _ HI _ _ _ _ eq_refl) as [[X' HX'] _].
  pose proof (i_sX _ _ _ _ HI) as Hs. rewrite HX' in Hs, Hin.
  inversion Hs as [|? ? _ Hf]; subst. rewrite Forall_forall in Hf.
  destruct Hin as [Heq|Hin]; [injection Heq as <- <- <-; apply w_leb_refl|]. apply (Hf _ Hin).
Qed.

(** a relaxed vertex is not settled *)
Lemma relax_unsettled X v w k n ew l rest H D :
  Inv X (DEdges WT v w k ((n, ew, l) :: rest)) H D ->
  leb (dm_get DM (vid n) D) (add ew w) = false -> forall w', ~ settled X (vid n) w'.
Proof.
  intros HI Hle w' Hs. destruct (edge_in _ _ _ _ _ _ _ _ _ _ HI) as (He & _).
  rewrite (settled_dist_le _ _ _ _ _ _ (add ew w) HI Hs) in Hle; [discriminate|].
  eapply w_leb_trans; [eapply cur_max; eauto|]. apply w_add_infl. eapply Hnn; eauto.
Qed.

Lemma Inv_relax X v w k n ew l rest H D no :
  Inv X (DEdges WT v w k ((n, ew, l) :: rest)) H D ->
  leb inf (add ew w) = false -> leb (dm_get DM (vid n) D) (add ew w) = false ->
  Inv X (DEdges WT v w k rest) (heappush WT (add ew w, no, (n, S k)) H) (dm_set DM (vid n) (add ew w) D).
Proof.
  intros HI Hinf Hle. pose proof HI as HI0.
  pose proof (relax_unsettled _ _ _ _ _ _ _ _ _ _ HI Hle) as Hns.
  destruct (edge_in _ _ _ _ _ _ _ _ _ _ HI) as (HE & _ & HinX).
  pose proof (cur_max _ _ _ _ _ _ _ HI) as Hmax.
  set (e0 := (add ew w, no, (n, S k)) : ent).
  assert (Hup : leb w (add ew w) = true) by (apply w_add_infl; eapply Hnn; eauto).
  destruct HI.
  destruct (i_cur0 _ _ _ _ eq_refl) as [[X' HX'] Hinc].
  destruct (i_dH0 _ Hns) as (Hd1 & Hd2 & Hd3).
  assert (Hnew : ltb (add ew w) (dm_get DM (vid n) D) = true) by (now apply w_ltb_lt).
  assert (Himp : imp (vid n) (S k) (add ew w)).
  { apply imp_step with (i := vid v); auto. eapply w_lt_le_trans; eauto. }
  assert (HinP : forall e', In e' (heappush WT e0 H) -> e' = e0 \/ In e' H) by (intros; now apply heappush_in).
  constructor; auto.
  - intros e' He'. destruct (HinP _ He') as [->|He]; auto.
  - now apply heappush_sorted.
  - intros x e' Hx He'. destruct (HinP _ He') as [->|He]; auto.
    unfold e0; cbn [e_key fst snd]. eapply w_leb_trans; [|exact Hup].
    destruct x as [[vx wx] kx]. apply (Hmax (vid vx)). exists vx, kx. auto.
  - intros v1 w1 k1 rest1 Heq. injection Heq as <- <- <- <-. split; [eauto|].
    intros x Hx. apply Hinc. now right.
  - intros i w' Hs. rewrite dm_get_set_other; auto. intros ->. eapply Hns; eauto.
  - intros i Hn. destruct (I_dec i (vid n)) as [->|Hne].
    + rewrite dm_get_set_same. split; [|split].
      * eapply w_leb_trans; [apply w_lt_le; exact Hnew|auto].
      * intros w' (e' & He' & Hv & Hk). destruct (HinP _ He') as [->|He].
        -- subst w'. apply w_leb_refl.
        -- eapply w_leb_trans; [apply w_lt_le; exact Hnew|]. apply Hd2. exists e'. auto.
      * right. exists e0. split; [apply heappush_in; auto|auto].
    + rewrite dm_get_set_other by auto. destruct (i_dH0 i Hn) as (H1 & H2 & H3). split; [auto|split].
      * intros w' (e' & He' & Hv & Hk). destruct (HinP _ He') as [->|He].
        -- exfalso. apply Hne. rewrite <- Hv. reflexivity.
        -- apply H2. exists e'. auto.
      * destruct H3 as [H3|(e' & He' & Hv & Hk)]; auto. right. exists e'. split; auto.
        apply heappush_in. auto.
  - intros i Hs. apply best_push. auto.
  - intros i wu w' j Hs He. destruct (i_closed0 i wu w' j Hs He) as [Ho|[Ha [Hb|Hb]]]; auto using best_push.
    apply open_edge_next in Ho. destruct Ho as [(-> & -> & -> & ->)|Ho]; auto.
    right. split; [now apply w_ltb_lt|]. right. exists (add ew w). split; [|apply w_leb_refl].
    right. exists e0. split; [apply heappush_in; auto|auto].
  - eapply Permutation_NoDup.
    { apply Permutation_sym, Permutation_map, Permutation_filter, heappush_perm. }
    simpl. constructor; auto. intros Hin. apply in_map_iff in Hin.
    destruct Hin as (e' & Heq & Hf). apply filter_In in Hf. destruct Hf as [Hf _].
    unfold hid in Heq. injection Heq as Hv Hk.
    assert (Hx : leb (dm_get DM (vid n) D) (add ew w) = true).
    { apply Hd2. exists e'. auto. }
    congruence.
  - intros i w' e' Hs He' Hv Hp. destruct (HinP _ He') as [->|He]; eauto.
    exfalso. simpl in Hv. subst i. eapply Hns; eauto.
  - rewrite (Permutation_length (Permutation_filter _ _ _ (heappush_perm WT e0 H))). simpl. auto.
  - intros e' He'. destruct (HinP _ He') as [->|He]; auto. discriminate.
Qed.

Lemma Inv_edges_done X v w k H D : Inv X (DEdges WT v w k []) H D -> Inv X (@DLoop V L WT) H D.
Proof.
  intros HI. destruct HI. constructor; auto; try discriminate.
  intros i wu w' j Hs He. destruct (i_closed0 i wu w' j Hs He) as [(v0 & k0 & r & Hpc & _ & Hin)|?]; auto.
  injection Hpc as <- <- <- <-. contradiction.
Qed.

(** ** Initial state *)
Lemma start_entries_in dist : forall l n' e, In e (start_entries vid WT DM n' dist l) ->
  exists v, In v l /\ ev e = v /\ ek e = 0 /\ e_key e = dm_get DM (vid v) dist.
Proof.
  induction l as [|v l IH]; simpl; intros n' e Hin; [contradiction|].
  destruct Hin as [<-|Hin].
  - exists v. simpl. auto.
  - destruct (IH _ _ Hin) as (v' & H1 & H2). exists v'. auto.
Qed.

Lemma in_start_entries dist : forall l n' v, In v l ->
  exists e, In e (start_entries vid WT DM n' dist l) /\ ev e = v /\ e_key e = dm_get DM (vid v) dist.
Proof.
  induction l as [|u l IH]; simpl; intros n' v Hin; [contradiction|].
  destruct Hin as [<-|Hin].
  - eexists. split; [left; reflexivity|]. simpl. auto.
  - destruct (IH (n' - 1)%Z v Hin) as (e & H1 & H2). exists e. auto.
Qed.

Lemma start_entries_nopos dist : forall l n', filter epos (start_entries vid WT DM n' dist l) = [] /\
  length (start_entries vid WT DM n' dist l) = length l.
Proof.
  induction l as [|u l IH]; simpl; auto. intros n'. destruct (IH (n' - 1)%Z) as [-> ->]. auto.
Qed.

Lemma filter_length_le {A} (p : A -> bool) l : length (filter p l) <= length l.
Proof. induction l; simpl; auto. destruct (p a); simpl; lia. Qed.

Lemma Inv_init : Inv [] (@DLoop V L WT) (d_heap init) D0.
Proof.
  unfold dij_init. simpl. fold D0.
  set (H := heapify WT (start_entries vid WT DM 256 D0 starts)).
  assert (Hin : forall e, In e H -> exists v, In v starts /\ ev e = v /\ ek e = 0 /\ e_key e = d0 (vid v)).
  { intros e He. apply (proj1 (heapify_in WT _ _)) in He. now apply start_entries_in in He. }
  assert (Hst : forall i, start_id i -> pend H i (d0 i)).
  { intros i Hi. unfold is_start in Hi. apply in_map_iff in Hi. destruct Hi as (v & <- & Hv).
    destruct (in_start_entries D0 starts 256%Z v Hv) as (e & He & Hv' & Hk).
    exists e. split; [now apply heapify_in|]. rewrite Hv'. auto. }
  assert (Hns : forall i w, ~ settled [] i w) by (intros i w (v & k & [] & _)).
  constructor; simpl; try discriminate; try contradiction; try (intros; exfalso; eapply Hns; eassumption).
  - intros e He. destruct (Hin e He) as (v & Hv & -> & -> & ->). apply imp_start.
    now apply in_map.
  - apply heapify_sorted.
  - constructor.
  - intros i _. split; [apply w_leb_refl|split; auto].
    intros w (e & He & Hv & Hk). destruct (Hin e He) as (v & _ & Hev & _ & Hk').
    subst w. rewrite Hk', <- Hev, Hv. apply w_leb_refl.
  - intros i Hs. exists (d0 i). split; [right; auto|apply w_leb_refl].
  - eapply Permutation_NoDup.
    { apply Permutation_sym, Permutation_map, Permutation_filter, heapify_perm. }
    destruct (start_entries_nopos D0 starts 256) as [-> _]. constructor.
  - constructor.
  - unfold H. rewrite (Permutation_length (Permutation_filter _ _ _ (heapify_perm WT _))).
    destruct (start_entries_nopos D0 starts 256) as [_ Hl]. rewrite <- Hl. apply filter_length_le.
  - intros e He _. destruct (Hin e He) as (v & Hv & -> & _). auto.
Qed.
End DijkstraProofs.
