(** Proofs about the model of A*: paths and runs. *)
From Coq Require Import List ZArith Bool Lia Sorted Arith Permutation.
From Verif Require Import Machine MachineMore GearSpec Spec TraversalSpec Common CommonProofs PathsModel PathsSpec
  PathsProofs PathsExact Weight WeightSpec HeapModel HeapProofs DijkstraModel BFSProofs DijkstraProofs DijkstraPaths
  AStarModel AStarSpec AStarProofs.
Import ListNotations.

Section AStarMore.
Context {V I L : Type}.
Variable I_dec : forall a b : I, {a = b} + {a <> b}.
Variable vid : V -> I.
Variable WT : Weights.
Notation W := (w_t WT).
Notation leb := (w_leb WT).
Notation ltb := (w_ltb WT).
Notation add := (w_add WT).
Notation zero := (w_zero WT).
Notation inf := (w_inf WT).
Variable DM : DMap I W inf.
Variable PM : PMap I V.
Variable LM : PMap I L.
Variable next : V -> list (V * W * L).
Variable cfg : ast_cfg.
Hypothesis Htree : ac_is_tree cfg = false.
Variable E : I -> W -> I -> Prop.
Hypothesis Hnext : presents_weighted WT vid next E.
Hypothesis Hnn : nonnegative WT E.
Hypothesis Hex : exact WT.
Variable heuristic : V -> W.
Variable hI : I -> W.
Hypothesis Hh : forall v, heuristic v = hI (vid v).
Variable starts : list V.

Notation state := (@ast_state V I L WT DM PM LM).
Notation report := (@ast_report V I L WT DM PM LM).
Notation step := (ast_step vid WT DM PM LM next cfg heuristic).
Notation init lim := (ast_init vid WT DM PM LM cfg heuristic starts None None lim).
Notation ent := (@entry (V * nat) WT).
Notation St := (is_start vid starts).
Notation ev := (ev WT). Notation ek := (ek WT). Notation epos := (epos WT).
Notation xv := (xv WT). Notation xw := (xw WT). Notation xk := (xk WT). Notation xpos := (xpos WT).
Notation hid := (hid vid WT).
Notation settled := (settled vid WT).
Notation pend := (pend vid WT).
Notation gs := (gs WT hI).
Notation AInv := (AInv vid WT DM next E hI starts).
Notation "D @ i" := (dm_get DM i D) (at level 20).
Notation D0 := (D0 vid WT DM starts).
Notation G0 := (G0 vid WT DM cfg heuristic starts).
Notation P0 := (create_predecessors vid PM (ac_build_paths cfg) starts).

(** ** Paths *)

(** [K i] is the vertex with id [i], with the depth, that has been pushed last. *)
Record APath (X : list (V * W * nat)) (H : list ent) (D G : dm_t DM) (P : pm_t PM) (Lb : pm_t LM)
    (K : I -> option (V * nat)) : Prop := {
  ap_start : forall v, In v starts -> pm_get PM (vid v) P = Some v /\ K (vid v) = Some (v, 0);
  ap_H : forall e, In e H -> e_key e = G @ (vid (ev e)) -> K (vid (ev e)) = Some (ev e, ek e);
  ap_X : forall v w k, In (v, w, k) X -> w = D @ (vid v) -> K (vid v) = Some (v, k);
  ap_pred : forall i, ltb (D @ i) inf = true -> ~ St i ->
    exists u wu ku n ew l, pm_get PM i P = Some u /\ In (u, wu, ku) X /\ In (n, ew, l) (next u) /\ vid n = i /\
      vid u <> i /\ D @ i = add ew wu /\ K i = Some (n, S ku) /\ (ac_labeled cfg = true -> pm_get LM i Lb = Some l);
  ap_path : forall v, ltb (D @ (vid v)) inf = true -> (St (vid v) -> In v starts) -> exists l, ppath vid PM P v l
}.

Section Paths.
Hypothesis Hb : ac_build_paths cfg = true.
Hypothesis Hsd : starts_distinct vid starts.
Hypothesis Hfin : finite_estimates WT hI.

Definition K0 (i : I) : option (V * nat) :=
  match find (fun v => if I_dec (vid v) i then true else false) starts with Some v => Some (v, 0) | None => None end.

Lemma K0_start v : In v starts -> K0 (vid v) = Some (v, 0).
Proof.
  intros Hv. unfold K0. destruct (find _ starts) as [u|] eqn:Hf.
  - apply find_some in Hf. destruct Hf as [Hu He]. destruct (I_dec (vid u) (vid v)); [|discriminate].
    now rewrite (Hsd u v Hu Hv).
  - apply (find_none _ _ Hf) in Hv. destruct (I_dec (vid v) (vid v)); [discriminate|congruence].
Qed.

Lemma APath_init lim : APath [] (a_heap (init lim)) D0 G0 P0 (pm_empty LM) K0.
Proof.
  assert (HP : forall v, In v starts -> pm_get PM (vid v) P0 = Some v).
  { intros v Hv. rewrite Hb. now apply create_predecessors_start. }
  constructor; auto.
  - intros v Hv. split; auto. now apply K0_start.
  - intros e He _. destruct (init_heap vid WT DM PM LM cfg heuristic starts lim e He) as (H1 & H2 & _).
    rewrite H2. now apply K0_start.
  - intros v w k [].
  - intros i Hi Hs. rewrite (D0_other I_dec) in Hi by auto. rewrite w_lt_irrefl in Hi. discriminate.
  - intros v Hv Hs. exists [v]. apply pp_start. apply HP. apply Hs.
    destruct (start_dec I_dec vid starts (vid v)) as [|Hn]; auto.
    rewrite (D0_other I_dec) in Hv by auto. rewrite w_lt_irrefl in Hv. discriminate.
Qed.

Lemma APath_stale X e h D G P Lb K : APath X (e :: h) D G P Lb K -> APath X h D G P Lb K.
Proof. intros [H1 H2 H3 H4 H5]. constructor; auto. intros e' He'. apply H2. now right. Qed.

Lemma APath_pop X e h D G P Lb K pc : AInv X pc (e :: h) D G -> ltb (G @ (vid (ev e))) (e_key e) = false ->
  APath X (e :: h) D G P Lb K -> APath ((ev e, D @ (vid (ev e)), ek e) :: X) h D G P Lb K.
Proof.
  intros HI Hns [H1 H2 H3 H4 H5]. constructor; auto.
  - intros e' He'. apply H2. now right.
  - intros v w k [Heq|Hin]; [|now apply H3]. injection Heq as <- <- <-. intros _. apply H2; [now left|].
    eapply pop_key; eauto.
  - intros i Hi Hs.
    destruct (H4 i Hi Hs) as (u & wu & ku & n & ew & l & Q1 & Q2 & Q3). exists u, wu, ku, n, ew, l.
    split; [auto|split; [now right|auto]].
Qed.

Lemma xdist_le X pc H D G u wu ku : AInv X pc H D G -> In (u, wu, ku) X ->
  leb (D @ (vid u)) wu = true /\ (St (vid u) -> In u starts) /\ ltb (D @ (vid u)) inf = true.
Proof.
  intros HI Hin. destruct (a_X _ _ _ _ _ _ _ _ _ _ _ _ HI _ _ _ Hin) as (R0 & Rl & R1 & R2).
  split; [auto|split; [|auto]]. intros Hs. destruct ku; auto. exfalso. apply R2; auto. lia.
Qed.

(** The distance grows along a stored path. *)
Lemma path_mono X pc H D G P Lb K : AInv X pc H D G -> APath X H D G P Lb K -> forall v l, ppath vid PM P v l ->
  ltb (D @ (vid v)) inf = true -> (St (vid v) -> In v starts) ->
  forall y, In y l -> leb (D @ (vid y)) (D @ (vid v)) = true.
Proof.
  intros HI HP v l Hpp. induction Hpp as [v Hv|v u l Hv Hne Hpp IH]; intros Hlt Hs y Hy.
  - destruct Hy as [<-|[]]. apply w_leb_refl.
  - destruct Hy as [<-|Hy]; [apply w_leb_refl|].
    destruct (start_dec I_dec vid starts (vid v)) as [Hsv|Hsv].
    { exfalso. apply Hne. destruct (ap_start _ _ _ _ _ _ _ HP v (Hs Hsv)) as [Hp _]. congruence. }
    destruct (ap_pred _ _ _ _ _ _ _ HP (vid v) Hlt Hsv)
      as (u' & wu & ku & n & ew & lb & Q1 & Q2 & Q3 & Q4 & Qn & Q5 & _).
    assert (u' = u) by congruence. subst u'.
    destruct (xdist_le _ _ _ _ _ _ _ _ HI Q2) as (Hle & Hsu & Hltu).
    assert (Hup : leb wu (add ew wu) = true).
    { apply w_add_infl. apply (Hnn (vid u) ew (vid n)). apply Hnext. apply in_map_iff. exists (n, ew, lb). auto. }
    rewrite Q5. eapply w_leb_trans; [|exact Hup]. eapply w_leb_trans; [|exact Hle]. apply IH; auto.
Qed.

Definition Kset (K : I -> option (V * nat)) (i : I) (x : V * nat) : I -> option (V * nat) :=
  fun j => if I_dec j i then Some x else K j.

Lemma Kset_same K i x : Kset K i x i = Some x.
Proof. unfold Kset. destruct (I_dec i i); congruence. Qed.
Lemma Kset_other K i x j : j <> i -> Kset K i x j = K j.
Proof. unfold Kset. destruct (I_dec j i); congruence. Qed.

Lemma APath_relax X v w k n ew l rest H D G P Lb K no :
  AInv X (AEdges WT v w k ((n, ew, l) :: rest)) H D G -> APath X H D G P Lb K ->
  leb inf (add ew w) = false -> leb (D @ (vid n)) (add ew w) = false ->
  APath X (heappush WT (gs (vid n) (add ew w), no, (n, S k)) H)
    (dm_set DM (vid n) (add ew w) D) (dm_set DM (vid n) (gs (vid n) (add ew w)) G) (pm_set PM (vid n) v P)
    (if ac_labeled cfg then pm_set LM (vid n) l Lb else Lb) (Kset K (vid n) (n, S k)).
Proof.
  intros HI HP Hinf Hle.
  destruct (aedge_in vid WT DM next E Hnext Hnn hI starts _ _ _ _ _ _ _ _ _ _ _ HI) as (HE & Hin & HinX & Hd & Hup).
  destruct (relax_facts vid WT DM next E Hnext Hnn hI starts _ _ _ _ _ _ _ _ _ _ _ HI Hle) as (Hnv & Hns & Hlt).
  destruct (xdist_le _ _ _ _ _ _ _ _ HI HinX) as (_ & Hvs & HvD).
  destruct (ap_path _ _ _ _ _ _ _ HP v HvD Hvs) as (lv & Hlv).
  assert (Hlv' : ppath vid PM (pm_set PM (vid n) v P) v lv).
  { eapply ppath_ext; eauto. intros u Hu. apply pm_get_set_other. intros Heq.
    pose proof (path_mono _ _ _ _ _ _ _ _ HI HP _ _ Hlv HvD Hvs u Hu) as Hm. rewrite Heq, Hd in Hm.
    assert (leb (D @ (vid n)) (add ew w) = true) by (eapply w_leb_trans; eauto). congruence. }
  constructor.
  - intros v' Hv'. assert (Hne : vid v' <> vid n). { intros Heq. apply Hns. rewrite <- Heq. now apply in_map. }
    rewrite pm_get_set_other, Kset_other by auto. now apply HP.
  - intros e He Hk. apply heappush_in in He. destruct He as [->|He]; [apply Kset_same|].
    destruct (I_dec (vid (ev e)) (vid n)) as [Heq|Hne].
    + exfalso. rewrite Heq, dm_get_set_same in Hk.
      destruct (a_H _ _ _ _ _ _ _ _ _ _ _ _ HI e He) as (R1 & R2 & _). rewrite Heq in R1, R2.
      rewrite (a_G _ _ _ _ _ _ _ _ _ _ _ _ HI _ R1), Hk in R2.
      eapply w_le_lt_contra; [exact R2|]. apply gs_strict; auto.
    + rewrite dm_get_set_other in Hk by auto. rewrite Kset_other by auto. now apply HP.
  - intros v' w' k' Hx Hw. destruct (I_dec (vid v') (vid n)) as [Heq|Hne].
    + exfalso. rewrite Heq, dm_get_set_same in Hw.
      destruct (xdist_le _ _ _ _ _ _ _ _ HI Hx) as (R1 & _). rewrite Heq, Hw in R1.
      eapply w_le_lt_contra; [exact R1|exact Hlt].
    + rewrite dm_get_set_other in Hw by auto. rewrite Kset_other by auto. eapply ap_X; eauto.
  - intros i Hi Hs. destruct (I_dec i (vid n)) as [->|Hne].
    + exists v, w, k, n, ew, l. rewrite pm_get_set_same, dm_get_set_same, Kset_same.
      do 7 (split; [auto|]). intros ->. apply pm_get_set_same.
    + rewrite dm_get_set_other in Hi by auto.
      destruct (ap_pred _ _ _ _ _ _ _ HP i Hi Hs)
        as (u & wu & ku & n' & ew' & l' & Q1 & Q2 & Q3 & Q4 & Qn & Q5 & Q6 & Q7).
      exists u, wu, ku, n', ew', l'. rewrite pm_get_set_other, dm_get_set_other, Kset_other by auto.
      do 7 (split; [assumption|]). intros Hl. rewrite Hl. rewrite pm_get_set_other by auto. auto.
  - intros x Hx Hsx.
    assert (Hx0 : ltb (D @ (vid x)) inf = true \/ vid x = vid n).
    { destruct (I_dec (vid x) (vid n)) as [->|Hne]; auto. rewrite dm_get_set_other in Hx by auto. auto. }
    destruct (I_dec (vid x) (vid n)) as [Heq|Hne].
    { exists (x :: lv). eapply pp_step; [rewrite Heq; apply pm_get_set_same| |exact Hlv'].
      intros ->. apply Hnv. auto. }
    destruct Hx0 as [Hx0|?]; [|contradiction].
    destruct (ap_path _ _ _ _ _ _ _ HP x Hx0 Hsx) as (lx & Hlx). clear Hx Hsx Hx0.
    induction Hlx as [x Hx|x u lx Hx Hxu Hlx IH].
    + exists [x]. apply pp_start. rewrite pm_get_set_other by auto. auto.
    + destruct (I_dec (vid u) (vid n)) as [Hun|Hun].
      * exists (x :: u :: lv). eapply pp_step; [rewrite pm_get_set_other by auto; exact Hx|auto|].
        eapply pp_step; [rewrite Hun; apply pm_get_set_same| |exact Hlv'].
        intros ->. apply Hnv. auto.
      * destruct (IH Hun) as (l' & Hl'). exists (x :: l').
        eapply pp_step; [rewrite pm_get_set_other by auto; exact Hx|auto|exact Hl'].
Qed.

(** No walk from a start vertex to [i] has a weight less than [d]. *)
Definition minimal (i : I) (d : W) : Prop :=
  forall s p, St s -> wwalk WT E s p i -> leb d (walk_weight WT p) = true.

(** If the distance of [v] is minimal, a chain of edges with this weight is stored for it. *)
Lemma path_exact X pc H D G P Lb K : AInv X pc H D G -> APath X H D G P Lb K -> forall v l, ppath vid PM P v l ->
  forall k, ltb (D @ (vid v)) inf = true -> minimal (vid v) (D @ (vid v)) -> K (vid v) = Some (v, k) ->
  exists s p, In s starts /\ chain next s p v /\ chain_weight WT zero p = D @ (vid v) /\ length p = k /\
    rev l = chain_vertices s p /\
    (ac_labeled cfg = true -> forall a b d, In (a, b, d) (chain_edges s p) -> pm_get LM (vid b) Lb = Some d).
Proof.
  intros HI HP v l Hpp. induction Hpp as [v Hv|v u l Hv Hne Hpp IH]; intros k Hlt Hmin HK.
  - destruct (start_dec I_dec vid starts (vid v)) as [Hsv|Hsv].
    + unfold is_start in Hsv. apply in_map_iff in Hsv. destruct Hsv as (v' & Hid & Hv').
      destruct (ap_start _ _ _ _ _ _ _ HP v' Hv') as [_ Hk']. rewrite Hid, HK in Hk'. injection Hk' as -> ->.
      exists v', []. split; [auto|]. split; [constructor|]. split.
      { symmetry. apply (a_start _ _ _ _ _ _ _ _ _ _ _ _ HI). now apply in_map. }
      split; [auto|split; [auto|]]. intros _ a b d [].
    + exfalso. destruct (ap_pred _ _ _ _ _ _ _ HP (vid v) Hlt Hsv)
        as (u & wu & ku & n & ew & lb & Q1 & Q2 & Q3 & Q4 & Qn & _).
      assert (u = v) by congruence. subst u. congruence.
  - destruct (start_dec I_dec vid starts (vid v)) as [Hsv|Hsv].
    { exfalso. apply Hne. unfold is_start in Hsv. apply in_map_iff in Hsv. destruct Hsv as (v' & Hid & Hv').
      destruct (ap_start _ _ _ _ _ _ _ HP v' Hv') as [Hp Hk']. rewrite Hid in Hp, Hk'.
      rewrite HK in Hk'. injection Hk' as -> _. congruence. }
    destruct (ap_pred _ _ _ _ _ _ _ HP (vid v) Hlt Hsv)
      as (u' & wu & ku & n & ew & lb & Q1 & Q2 & Q3 & Q4 & Qn & Q5 & Q6 & Q7).
    assert (u' = u) by congruence. subst u'.
    rewrite HK in Q6. injection Q6 as <- ->.
    assert (HE : E (vid u) ew (vid v)).
    { apply Hnext. apply in_map_iff. exists (v, ew, lb). auto. }
    assert (Hew : leb zero ew = true) by (now apply (Hnn (vid u) ew (vid v))).
    assert (Hcan : forall a b, leb (add ew a) (add ew b) = true -> leb a b = true).
    { intros a b. apply (ex_cancel _ Hex ew). eapply w_le_lt_trans; [|exact Hlt]. rewrite Q5, (ex_comm _ Hex).
      apply w_add_infl. destruct (xdist_le _ _ _ _ _ _ _ _ HI Q2) as (Hle & _).
      eapply w_leb_trans; [|exact Hle]. apply (a_nonneg _ _ _ _ _ _ _ _ _ _ _ _ HI). }
    destruct (xdist_le _ _ _ _ _ _ _ _ HI Q2) as (Hle & Hsu & Hltu).
    assert (Hmu : minimal (vid u) wu).
    { intros s p Hs Hw. apply Hcan. rewrite <- Q5, <- (walk_weight_snoc WT p ew (vid v)).
      apply (Hmin s); auto. eapply wwalk_snoc; eauto. }
    assert (Hwu : wu = D @ (vid u)).
    { apply (w_leb_antisym WT); auto.
      destruct (a_lab _ _ _ _ _ _ _ _ _ _ _ _ HI _ Hltu) as (s & p & Hs & Hw & <-). now apply (Hmu s). }
    destruct (IH ku) as (s & p & Hst & Hc & Hwt & Hlen & Hrev & Hlab); auto.
    { rewrite <- Hwu. exact Hmu. }
    { eapply ap_X; eauto. }
    exists s, (p ++ [(v, ew, lb)]). split; [auto|]. split; [eapply chain_snoc; eauto|].
    split. { rewrite chain_weight_snoc, Hwt, Q5, Hwu. reflexivity. }
    split. { rewrite app_length. simpl. lia. }
    split. { cbn [rev]. rewrite Hrev, chain_vertices_snoc. reflexivity. }
    intros Hl a b d Hin. rewrite (chain_edges_snoc WT next s p u v ew lb Hc) in Hin.
    apply in_app_iff in Hin. destruct Hin as [Hin|[Heq|[]]]; [now apply (Hlab Hl a)|].
    injection Heq as <- <- <-. auto.
Qed.
End Paths.
End AStarMore.
