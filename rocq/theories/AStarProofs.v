(** Proofs about the model of A*: invariant, distances. *)
From Coq Require Import List ZArith Bool Lia Sorted Arith Permutation.
From Verif Require Import Machine MachineMore GearSpec Spec TraversalSpec Common CommonProofs PathsModel PathsSpec
  PathsProofs PathsExact Weight WeightSpec HeapModel HeapProofs DijkstraModel BFSProofs DijkstraProofs AStarModel AStarSpec.
Import ListNotations.

Section AStarProofs.
Context {V I L : Type}.
Variable I_dec : forall a b : I, {a = b} + {a <> b}.
Variable vid : V -> I.
Variable WT : Weights.
Notation W := (w_t WT).
Notation leb := (w_leb WT).
Notation ltb := (w_ltb WT).
Notation add := (w_add WT).
Notation zero := (w_zero WT).
Notation inf := (w_inf WT).
Variable DM : DMap I W inf.
Variable PM : PMap I V.
Variable LM : PMap I L.
Variable next : V -> list (V * W * L).
Variable cfg : ast_cfg.
Hypothesis Htree : ac_is_tree cfg = false.
Variable E : I -> W -> I -> Prop.
Hypothesis Hnext : presents_weighted WT vid next E.
Hypothesis Hnn : nonnegative WT E.
Hypothesis Hex : exact WT.
Variable heuristic : V -> W.
Variable hI : I -> W.
Hypothesis Hh : forall v, heuristic v = hI (vid v).
Variable starts : list V.

Notation state := (@ast_state V I L WT DM PM LM).
Notation report := (@ast_report V I L WT DM PM LM).
Notation step := (ast_step vid WT DM PM LM next cfg heuristic).
Notation init lim := (ast_init vid WT DM PM LM cfg heuristic starts None None lim).
Notation ent := (@entry (V * nat) WT).
Notation St := (is_start vid starts).
Notation ev := (ev WT). Notation ek := (ek WT). Notation epos := (epos WT).
Notation xv := (xv WT). Notation xw := (xw WT). Notation xk := (xk WT). Notation xpos := (xpos WT).
Notation settled := (settled vid WT).
Notation pend := (pend vid WT).
Notation "D @ i" := (dm_get DM i D) (at level 20).

(** path length guess of vertex [i] with distance [d] *)
Definition gs (i : I) (d : W) : W := if w_eqb WT (hI i) inf then inf else add d (hI i).

Lemma eqb_true a b : w_eqb WT a b = true -> a = b.
Proof. unfold w_eqb. intros H. apply andb_true_iff in H. destruct H. now apply w_leb_antisym. Qed.

Lemma add_mono_l a b c : leb a b = true -> leb (add a c) (add b c) = true.
Proof. intros H. rewrite (ex_comm _ Hex a), (ex_comm _ Hex b). now apply w_add_mono. Qed.

Lemma gs_mono i d d' : leb d d' = true -> leb (gs i d) (gs i d') = true.
Proof. unfold gs. destruct (w_eqb WT (hI i) inf); intros; [apply w_leb_refl|now apply add_mono_l]. Qed.

Lemma gs_zero i : gs i zero = hI i.
Proof.
  unfold gs. destruct (w_eqb WT (hI i) inf) eqn:Heq; [symmetry; now apply eqb_true|]. apply (ex_zero _ Hex).
Qed.

Lemma zero_inf : ltb zero inf = true.
Proof. apply w_ltb_lt. apply w_zero_inf. Qed.

Lemma start_dec i : St i \/ ~ St i.
Proof. unfold is_start. destruct (In_dec I_dec i (map vid starts)); auto. Qed.

Definition aopen (pc : @ast_pc V L WT) (i : I) (w : W) (j : I) : Prop :=
  exists v0 w0 k0 rest, pc = AEdges WT v0 w0 k0 rest /\ vid v0 = i /\
    In (w, j) (map (fun e => (snd (fst e), vid (fst (fst e)))) rest).

Record AInv (X : list (V * W * nat)) (pc : @ast_pc V L WT) (H : list ent) (D G : dm_t DM) : Prop := {
  a_lab : forall i, ltb (D @ i) inf = true -> exists s p, St s /\ wwalk WT E s p i /\ walk_weight WT p = D @ i;
  a_start : forall i, St i -> D @ i = zero;
  a_nonneg : forall i, leb zero (D @ i) = true;
  a_inf : forall i, D @ i = inf \/ ltb (D @ i) inf = true;
  a_G : forall i, ltb (D @ i) inf = true -> G @ i = gs i (D @ i);
  a_H : forall e, In e H -> ltb (D @ (vid (ev e))) inf = true /\ leb (G @ (vid (ev e))) (e_key e) = true /\
          (ek e = 0 -> In (ev e) starts) /\ (0 < ek e -> ~ St (vid (ev e)));
  a_sH : heap_sorted WT H;
  a_op : forall i, ltb (D @ i) inf = true -> pend H i (G @ i) \/
          (settled X i (D @ i) /\ forall w j, E i w j -> aopen pc i w j \/
             (ltb (add w (D @ i)) inf = true /\ leb (D @ j) (add w (D @ i)) = true));
  a_X : forall v w k, In (v, w, k) X -> ltb (D @ (vid v)) inf = true /\ leb (D @ (vid v)) w = true /\
          (k = 0 -> In v starts) /\ (0 < k -> ~ St (vid v));
  a_cur : forall v w k rest, pc = AEdges WT v w k rest ->
          (exists X', X = (v, w, k) :: X') /\ incl rest (next v) /\ D @ (vid v) = w;
  a_count : length (filter (fun x => negb (xpos x)) X) + length (filter (fun e => negb (epos e)) H)
            <= length starts
}.

(** ** Initial state *)
Lemma fold_set_get (F : I -> W) (l : list V) : forall m i,
  fold_left (fun m p => dm_set DM (fst p) (snd p) m) (map (fun v => (vid v, F (vid v))) l) m @ i
  = if In_dec I_dec i (map vid l) then F i else m @ i.
Proof.
  induction l as [|v l IH]; intros m i; simpl; auto. rewrite IH.
  destruct (I_dec (vid v) i) as [->|Hne].
  - destruct (In_dec _ i _); auto. apply dm_get_set_same.
  - destruct (In_dec _ i _); auto. apply dm_get_set_other. congruence.
Qed.

Definition D0 : dm_t DM :=
  define_distances WT DM None (map (fun v => (vid v, zero)) starts) false.
Definition G0 : dm_t DM :=
  define_distances WT DM None (map (fun v => (vid v, add (D0 @ (vid v)) (heuristic v))) starts) (ac_is_tree cfg).

Lemma D0_start i : St i -> D0 @ i = zero.
Proof.
  intros Hs. unfold D0, define_distances. rewrite (fold_set_get (fun _ => zero)).
  destruct (In_dec _ _ _); auto. contradiction.
Qed.

Lemma D0_other i : ~ St i -> D0 @ i = inf.
Proof.
  intros Hs. unfold D0, define_distances. rewrite (fold_set_get (fun _ => zero)).
  destruct (In_dec _ _ _); [contradiction|]. apply dm_get_empty.
Qed.

Lemma G0_start i : St i -> G0 @ i = gs i zero.
Proof.
  intros Hs. unfold G0, define_distances.
  rewrite (map_ext_in _ (fun v => (vid v, gs (vid v) zero))).
  - rewrite (fold_set_get (fun i => gs i zero)). destruct (In_dec _ _ _); auto. contradiction.
  - intros v Hv. f_equal. rewrite D0_start by (now apply in_map). rewrite (ex_zero _ Hex), gs_zero. apply Hh.
Qed.

Lemma ast_start_entries_in g : forall l n' e, In e (ast_start_entries vid WT DM n' g l) ->
  exists v, In v l /\ ev e = v /\ ek e = 0 /\ e_key e = g @ (vid v).
Proof.
  induction l as [|v l IH]; simpl; intros n' e Hin; [contradiction|].
  destruct Hin as [<-|Hin].
  - exists v. simpl. auto.
  - destruct (IH _ _ Hin) as (v' & H1 & H2). exists v'. auto.
Qed.

Lemma in_ast_start_entries g : forall l n' v, In v l ->
  exists e, In e (ast_start_entries vid WT DM n' g l) /\ ev e = v /\ e_key e = g @ (vid v).
Proof.
  induction l as [|u l IH]; simpl; intros n' v Hin; [contradiction|].
  destruct Hin as [<-|Hin].
  - eexists. split; [left; reflexivity|]. simpl. auto.
  - destruct (IH (n' - 1)%Z v Hin) as (e & H1 & H2). exists e. auto.
Qed.

Lemma ast_start_entries_nopos g : forall l n', filter epos (ast_start_entries vid WT DM n' g l) = [] /\
  length (ast_start_entries vid WT DM n' g l) = length l.
Proof.
  induction l as [|u l IH]; simpl; auto. intros n'. destruct (IH (n' - 1)%Z) as [-> ->]. auto.
Qed.

Lemma init_heap lim e : In e (a_heap (init lim)) ->
  In (ev e) starts /\ ek e = 0 /\ e_key e = G0 @ (vid (ev e)).
Proof.
  unfold ast_init. cbn [a_heap]. fold D0. fold G0. intros He. apply (proj1 (heapify_in WT _ _)) in He.
  apply ast_start_entries_in in He. destruct He as (v & Hv & -> & Hk & Hg). auto.
Qed.

Lemma AInv_init lim : AInv [] (@ALoop V L WT) (a_heap (init lim)) D0 G0.
Proof.
  pose proof (init_heap lim) as Hin.
  constructor.
  - intros i Hi. destruct (start_dec i) as [Hs|Hs].
    + exists i, []. rewrite D0_start by auto. repeat split; auto. constructor.
    + rewrite D0_other in Hi by auto. rewrite w_lt_irrefl in Hi. discriminate.
  - apply D0_start.
  - intros i. destruct (start_dec i) as [Hs|Hs].
    + rewrite D0_start by auto. apply w_leb_refl.
    + rewrite D0_other by auto. apply w_lt_le, zero_inf.
  - intros i. destruct (start_dec i) as [Hs|Hs].
    + right. rewrite D0_start by auto. apply zero_inf.
    + left. now apply D0_other.
  - intros i Hi. destruct (start_dec i) as [Hs|Hs].
    + rewrite D0_start by auto. now apply G0_start.
    + rewrite D0_other in Hi by auto. rewrite w_lt_irrefl in Hi. discriminate.
  - intros e He. destruct (Hin e He) as (Hv & Hk & Hg).
    split; [rewrite D0_start by (now apply in_map); apply zero_inf|].
    split; [rewrite Hg; apply w_leb_refl|]. split; auto. lia.
  - apply heapify_sorted.
  - intros i Hi. destruct (start_dec i) as [Hs|Hs].
    + left. unfold is_start in Hs. apply in_map_iff in Hs. destruct Hs as (v & <- & Hv).
      destruct (in_ast_start_entries G0 starts 256%Z v Hv) as (e & He & Hv' & Hk).
      exists e. split; [unfold ast_init; cbn [a_heap]; now apply heapify_in|]. rewrite Hv'. auto.
    + rewrite D0_other in Hi by auto. rewrite w_lt_irrefl in Hi. discriminate.
  - intros v w k [].
  - discriminate.
  - unfold ast_init. cbn [a_heap]. fold D0. fold G0. cbn [filter length].
    rewrite (Permutation_length (Permutation_filter _ _ _ (heapify_perm WT _))).
    destruct (ast_start_entries_nopos G0 starts 256) as [_ Hl]. rewrite <- Hl. apply filter_length_le.
Qed.

(** ** Steps *)
Lemma pend_cons e H i w : pend (e :: H) i w -> pend H i w \/ (vid (ev e) = i /\ e_key e = w).
Proof. intros (e' & [<-|Hin] & Hv & Hk); auto. left. exists e'. auto. Qed.

Lemma AInv_stale X e h D G : AInv X (@ALoop V L WT) (e :: h) D G ->
  ltb (G @ (vid (ev e))) (e_key e) = true -> AInv X (@ALoop V L WT) h D G.
Proof.
  intros HI Hst. destruct HI. constructor; auto.
  - intros e' He'. apply a_H0. now right.
  - now inversion a_sH0.
  - intros i Hi. destruct (a_op0 i Hi) as [Hp|?]; auto. apply pend_cons in Hp. destruct Hp as [?|[<- Hk]]; auto.
    rewrite Hk, w_lt_irrefl in Hst. discriminate.
  - simpl in a_count0. destruct (epos e); simpl in a_count0; lia.
Qed.

(** A popped entry that is not stale has the current guess as key. *)
Lemma pop_key X e h D G pc : AInv X pc (e :: h) D G ->
  ltb (G @ (vid (ev e))) (e_key e) = false -> e_key e = G @ (vid (ev e)).
Proof.
  intros HI Hst. destruct (a_H _ _ _ _ _ HI e (or_introl eq_refl)) as (_ & H1 & _).
  apply w_ltb_ge in Hst. now apply w_leb_antisym.
Qed.

Lemma AInv_pop X e h D G : AInv X (@ALoop V L WT) (e :: h) D G ->
  ltb (G @ (vid (ev e))) (e_key e) = false ->
  AInv ((ev e, D @ (vid (ev e)), ek e) :: X)
       (AEdges WT (ev e) (D @ (vid (ev e))) (ek e) (next (ev e))) h D G.
Proof.
  intros HI Hst. pose proof (pop_key _ _ _ _ _ _ HI Hst) as Hkey. destruct HI. constructor; auto.
  - intros e' He'. apply a_H0. now right.
  - now inversion a_sH0.
  - intros i Hi. destruct (I_dec i (vid (ev e))) as [->|Hne].
    + right. split.
      * exists (ev e), (ek e). split; auto. now left.
      * intros w j HE. left. exists (ev e), (D @ (vid (ev e))), (ek e), (next (ev e)). split; [auto|split; auto].
        now apply Hnext.
    + destruct (a_op0 i Hi) as [Hp|[Hs Hc]].
      * apply pend_cons in Hp. destruct Hp as [?|[Hv _]]; auto. congruence.
      * right. split.
        -- destruct Hs as (v & k & Hin & Hv). exists v, k. split; auto. now right.
        -- intros w j HE. destruct (Hc w j HE) as [(v0 & w0 & k0 & r & Hpc & _)|?]; [discriminate|auto].
  - intros v w k [Heq|Hin]; auto. injection Heq as <- <- <-.
    destruct (a_H0 e (or_introl eq_refl)) as (H1 & _ & H2 & H3).
    split; [auto|split; [apply w_leb_refl|auto]].
  - intros v w k rest Heq. injection Heq as <- <- <- <-. split; [eauto|split; [apply incl_refl|auto]].
  - simpl in *. unfold DijkstraProofs.xpos at 1; unfold DijkstraProofs.epos at 1 in a_count0; simpl.
    destruct (0 <? ek e); simpl in *; lia.
Qed.

Lemma aopen_next v w k n ew l rest i w' j :
  aopen (AEdges WT v w k ((n, ew, l) :: rest)) i w' j ->
  (i = vid v /\ w' = ew /\ j = vid n) \/ aopen (AEdges WT v w k rest) i w' j.
Proof.
  intros (v0 & w0 & k0 & r & Hpc & Hv & Hin). injection Hpc as <- <- <- <-. simpl in Hin.
  destruct Hin as [Heq|Hin].
  - left. injection Heq as <- <-. auto.
  - right. exists v, w, k, rest. auto.
Qed.

Lemma aedge_in X v w k n ew l rest H D G :
  AInv X (AEdges WT v w k ((n, ew, l) :: rest)) H D G ->
  E (vid v) ew (vid n) /\ In (n, ew, l) (next v) /\ In (v, w, k) X /\ D @ (vid v) = w /\ leb w (add ew w) = true.
Proof.
  intros HI. destruct (a_cur _ _ _ _ _ HI _ _ _ _ eq_refl) as ([X' ->] & Hinc & Hd).
  assert (Hin : In (n, ew, l) (next v)) by (apply Hinc; now left).
  assert (HE : E (vid v) ew (vid n)).
  { apply Hnext. apply in_map_iff. exists (n, ew, l). auto. }
  split; [auto|split; [auto|split; [now left|split; auto]]].
  apply w_add_infl. eapply Hnn; eauto.
Qed.

Lemma AInv_skip X v w k n ew l rest H D G :
  AInv X (AEdges WT v w k ((n, ew, l) :: rest)) H D G ->
  leb inf (add ew w) = false -> leb (D @ (vid n)) (add ew w) = true ->
  AInv X (AEdges WT v w k rest) H D G.
Proof.
  intros HI Hinf Hle. destruct (aedge_in _ _ _ _ _ _ _ _ _ _ _ HI) as (_ & _ & _ & Hd & _).
  destruct HI. constructor; auto.
  - intros i Hi. destruct (a_op0 i Hi) as [?|[Hs Hc]]; auto. right. split; auto.
    intros w' j HE. destruct (Hc w' j HE) as [Ho|?]; auto.
    apply aopen_next in Ho. destruct Ho as [(-> & -> & ->)|?]; auto.
    right. rewrite Hd. split; auto. now apply w_ltb_lt.
  - intros v1 w1 k1 rest1 Heq. injection Heq as <- <- <- <-.
    destruct (a_cur0 _ _ _ _ eq_refl) as (H1 & H2 & H3). split; [auto|split; auto].
    intros x Hx. apply H2. now right.
Qed.

(** Distance [nw] is better than the one known for [n]. *)
Lemma relax_facts X v w k n ew l rest H D G :
  AInv X (AEdges WT v w k ((n, ew, l) :: rest)) H D G ->
  leb (D @ (vid n)) (add ew w) = false -> vid n <> vid v /\ ~ St (vid n) /\ ltb (add ew w) (D @ (vid n)) = true.
Proof.
  intros HI Hle. destruct (aedge_in _ _ _ _ _ _ _ _ _ _ _ HI) as (_ & _ & _ & Hd & Hup).
  split; [|split].
  - intros Heq. rewrite Heq, Hd in Hle. congruence.
  - intros Hs. rewrite (a_start _ _ _ _ _ HI _ Hs) in Hle.
    rewrite (w_leb_trans WT _ w) in Hle; auto; [discriminate|].
    rewrite <- Hd. apply (a_nonneg _ _ _ _ _ HI).
  - now apply w_ltb_lt.
Qed.

Lemma AInv_relax X v w k n ew l rest H D G no :
  AInv X (AEdges WT v w k ((n, ew, l) :: rest)) H D G ->
  leb inf (add ew w) = false -> leb (D @ (vid n)) (add ew w) = false ->
  AInv X (AEdges WT v w k rest) (heappush WT (gs (vid n) (add ew w), no, (n, S k)) H)
       (dm_set DM (vid n) (add ew w) D) (dm_set DM (vid n) (gs (vid n) (add ew w)) G).
Proof.
  intros HI Hinf Hle.
  destruct (aedge_in _ _ _ _ _ _ _ _ _ _ _ HI) as (HE & Hin & HinX & Hd & Hup).
  destruct (relax_facts _ _ _ _ _ _ _ _ _ _ _ HI Hle) as (Hnv & Hns & Hlt).
  set (e0 := (gs (vid n) (add ew w), no, (n, S k)) : ent). set (nw := add ew w) in *.
  assert (Hfin : ltb nw inf = true) by (now apply w_ltb_lt).
  assert (Hg : forall D1 x i, i <> vid n -> dm_set DM (vid n) x D1 @ i = D1 @ i).
  { intros. now apply dm_get_set_other. }
  assert (Hmono : forall i, leb (dm_set DM (vid n) nw D @ i) (D @ i) = true).
  { intros i. destruct (I_dec i (vid n)) as [->|Hne].
    - rewrite dm_get_set_same. now apply w_lt_le.
    - rewrite Hg by auto. apply w_leb_refl. }
  assert (HwD : ltb (D @ (vid v)) inf = true).
  { rewrite Hd. eapply w_le_lt_trans; [exact Hup|exact Hfin]. }
  assert (HinP : forall e', In e' (heappush WT e0 H) -> e' = e0 \/ In e' H) by (intros; now apply heappush_in).
  assert (Hpush : forall i x, pend H i x -> pend (heappush WT e0 H) i x).
  { intros i x (e' & He' & Hv & Hk). exists e'. split; auto. apply heappush_in. auto. }
  destruct HI. constructor.
  - intros i Hi. destruct (I_dec i (vid n)) as [->|Hne].
    + rewrite dm_get_set_same. destruct (a_lab0 _ HwD) as (s & p & Hs & Hw & Hp).
      exists s, (p ++ [(ew, vid n)]). split; auto. split; [eapply wwalk_snoc; eauto|].
      rewrite walk_weight_snoc, Hp, Hd. reflexivity.
    + rewrite Hg in * by auto. auto.
  - intros i Hs. rewrite Hg; auto. intros ->. contradiction.
  - intros i. destruct (I_dec i (vid n)) as [->|Hne].
    + rewrite dm_get_set_same. eapply w_leb_trans; [|exact Hup]. rewrite <- Hd. auto.
    + rewrite Hg by auto. auto.
  - intros i. destruct (I_dec i (vid n)) as [->|Hne].
    + rewrite dm_get_set_same. auto.
    + rewrite Hg by auto. auto.
  - intros i Hi. destruct (I_dec i (vid n)) as [->|Hne].
    + now rewrite !dm_get_set_same.
    + rewrite !Hg in * by auto. auto.
  - intros e' He'. destruct (HinP _ He') as [->|He].
    + change (vid (ev e0)) with (vid n). rewrite !dm_get_set_same. split; auto. split; [apply w_leb_refl|].
      split; [discriminate|auto].
    + destruct (a_H0 e' He) as (H1 & H2 & H3). destruct (I_dec (vid (ev e')) (vid n)) as [Heq|Hne].
      * rewrite Heq in *. rewrite !dm_get_set_same. split; auto. split; auto.
        eapply w_leb_trans; [|exact H2]. rewrite (a_G0 _ H1). apply gs_mono. now apply w_lt_le.
      * rewrite !Hg by auto. auto.
  - now apply heappush_sorted.
  - intros i Hi. destruct (I_dec i (vid n)) as [->|Hne].
    + left. rewrite dm_get_set_same. exists e0. split; [apply heappush_in; auto|auto].
    + rewrite !Hg in * by auto. destruct (a_op0 i Hi) as [Hp|[Hs Hc]]; auto.
      right. split; auto. intros w' j HE'. destruct (Hc w' j HE') as [Ho|[H1 H2]].
      * apply aopen_next in Ho. destruct Ho as [(-> & -> & ->)|?]; auto.
        right. rewrite Hd, dm_get_set_same. split; auto. apply w_leb_refl.
      * right. split; auto. eapply w_leb_trans; [apply Hmono|auto].
  - intros v' w' k' HX. destruct (a_X0 v' w' k' HX) as (H1 & H2 & H3). split; [|split; auto].
    + eapply w_le_lt_trans; [apply Hmono|auto].
    + eapply w_leb_trans; [apply Hmono|auto].
  - intros v1 w1 k1 rest1 Heq. injection Heq as <- <- <- <-.
    destruct (a_cur0 _ _ _ _ eq_refl) as (H1 & H2 & H3). split; [auto|split].
    + intros x Hx. apply H2. now right.
    + rewrite Hg by auto. auto.
  - rewrite (Permutation_length (Permutation_filter _ _ _ (heappush_perm WT e0 H))). simpl. auto.
Qed.

Lemma AInv_done X v w k H D G : AInv X (AEdges WT v w k []) H D G -> AInv X (@ALoop V L WT) H D G.
Proof.
  intros HI. destruct HI. constructor; auto; try discriminate.
  intros i Hi. destruct (a_op0 i Hi) as [?|[Hs Hc]]; auto. right. split; auto.
  intros w' j HE. destruct (Hc w' j HE) as [(v0 & w0 & k0 & r & Hpc & _ & Hin)|?]; auto.
  injection Hpc as <- <- <- <-. contradiction.
Qed.

(** ** Walks and pending vertices *)
Notation wsum := (fun c p => fold_left (fun d (e : W * I) => add (fst e) d) p c).

Lemma wsum_shift p : forall c, wsum c p = add (walk_weight WT p) c.
Proof.
  assert (H : forall p c d, wsum (add c d) p = add (wsum c p) d).
  { clear p. induction p as [|[w j] p IH]; simpl; intros c d; auto. rewrite <- IH. f_equal. apply (ex_assoc _ Hex). }
  intros c. unfold walk_weight. rewrite <- H. f_equal. symmetry. apply (ex_zero _ Hex).
Qed.

(** Along a walk from a vertex with known distance, there is a pending vertex whose distance is no larger than the
    weight of the walk so far, or the end has been expanded with such a distance. *)
Lemma walk_pending X H D G : AInv X (@ALoop V L WT) H D G ->
  forall p i g c, wwalk WT E i p g -> ltb (D @ i) inf = true -> leb (D @ i) c = true ->
  (exists u p1 p2, p = p1 ++ p2 /\ wwalk WT E u p2 g /\ ltb (D @ u) inf = true /\
      leb (D @ u) (wsum c p1) = true /\ pend H u (G @ u)) \/
  (ltb (D @ g) inf = true /\ leb (D @ g) (wsum c p) = true /\ settled X g (D @ g) /\
   forall w j, E g w j -> ltb (add w (D @ g)) inf = true /\ leb (D @ j) (add w (D @ g)) = true).
Proof.
  intros HI. induction p as [|[w j] p IH]; intros i g c Hw Hi Hc.
  - inversion Hw; subst. destruct (a_op _ _ _ _ _ HI g Hi) as [Hp|[Hs Hcl]].
    + left. exists g, [], []. repeat split; auto. 
    + right. split; [auto|split; [auto|split; [auto|]]].
      intros w j HE. destruct (Hcl w j HE) as [(v0 & w0 & k0 & r & Hpc & _)|?]; [discriminate|auto].
  - inversion Hw; subst. destruct (a_op _ _ _ _ _ HI i Hi) as [Hp|[Hs Hcl]].
    + left. exists i, [], ((w, j) :: p). repeat split; auto.
    + match goal with HE : E i w j |- _ => destruct (Hcl w j HE) as [(v0 & w0 & k0 & r & Hpc & _)|[H1 H2]] end; [discriminate|].
      destruct (IH j g (add w c)) as [(u & p1 & p2 & -> & Q3 & Q4 & Q5 & Q6)|?]; auto.
      * eapply w_le_lt_trans; eauto.
      * eapply w_leb_trans; [exact H2|]. now apply w_add_mono.
      * left. exists u, ((w, j) :: p1), p2. repeat split; auto.
Qed.

(** For a walk from a start vertex: a pending entry with a key up to any bound [b] for the sum of the
    walk so far and the estimation of the rest, or the end is expanded. *)
Lemma start_walk X H D G : AInv X (@ALoop V L WT) H D G ->
  forall s p g, St s -> wwalk WT E s p g ->
  (exists u p1 p2 e, p = p1 ++ p2 /\ wwalk WT E u p2 g /\
      leb (D @ u) (walk_weight WT p1) = true /\ In e H /\ e_key e = gs u (D @ u)) \/
  (ltb (D @ g) inf = true /\ leb (D @ g) (walk_weight WT p) = true /\ settled X g (D @ g) /\
   forall w j, E g w j -> ltb (add w (D @ g)) inf = true /\ leb (D @ j) (add w (D @ g)) = true).
Proof.
  intros HI s p g Hs Hw.
  destruct (walk_pending _ _ _ _ HI p s g zero Hw) as [(u & p1 & p2 & H1 & H2 & H3 & H4 & (e & H5 & H6 & H7))|?]; auto.
  - rewrite (a_start _ _ _ _ _ HI _ Hs). apply zero_inf.
  - rewrite (a_start _ _ _ _ _ HI _ Hs). apply w_leb_refl.
  - left. exists u, p1, p2, e. rewrite <- (a_G _ _ _ _ _ HI u H3). auto.
Qed.

Lemma walk_weight_app (p1 p2 : list (W * I)) : walk_weight WT (p1 ++ p2) = add (walk_weight WT p2) (walk_weight WT p1).
Proof. unfold walk_weight at 1. rewrite fold_left_app. apply wsum_shift. Qed.

Lemma wwalk_nonneg i p j : wwalk WT E i p j -> leb zero (walk_weight WT p) = true.
Proof.
  intros H. assert (Hg : forall c, leb zero c = true -> leb zero (wsum c p) = true); [|apply Hg, w_leb_refl].
  induction H as [i|i w j p k HE Hw IH]; simpl; intros c Hc; auto. apply IH.
  eapply w_leb_trans; [exact Hc|]. apply w_add_infl. eapply Hnn; eauto.
Qed.

(** ** Admissible heuristics *)
Lemma admissible_key Goal X H D G : admissible WT E hI Goal -> AInv X (@ALoop V L WT) H D G ->
  forall s p g, St s -> Goal g -> wwalk WT E s p g ->
  (exists e, In e H /\ leb (e_key e) (walk_weight WT p) = true) \/
  (leb (D @ g) (walk_weight WT p) = true /\ settled X g (D @ g)).
Proof.
  intros Hadm HI s p g Hs Hg Hw.
  destruct (start_walk _ _ _ _ HI s p g Hs Hw) as [(u & p1 & p2 & e & -> & H2 & H3 & H4 & H5)|(_ & H1 & H2 & _)]; auto.
  left. exists e. split; auto. rewrite H5, walk_weight_app. pose proof (Hadm u p2 g H2 Hg) as Ha.
  assert (Hw1 : leb zero (walk_weight WT p1) = true).
  { eapply w_leb_trans; [|exact H3]. apply (a_nonneg _ _ _ _ _ HI). }
  unfold gs. destruct (w_eqb WT (hI u) inf) eqn:Hinf.
  - apply eqb_true in Hinf. rewrite Hinf in Ha. eapply w_leb_trans; [exact Ha|].
    rewrite (ex_comm _ Hex). now apply w_add_infl.
  - rewrite (ex_comm _ Hex (walk_weight WT p2)). eapply w_leb_trans; [apply add_mono_l; exact H3|].
    now apply w_add_mono.
Qed.

(** ** Consistent heuristics *)
Lemma consistent_walk : consistent WT E hI -> forall i p g, wwalk WT E i p g ->
  leb (hI i) (add (walk_weight WT p) (hI g)) = true.
Proof.
  intros Hc i p g Hw. induction Hw as [i|i w j p k HE Hw IH].
  - unfold walk_weight. simpl. rewrite (ex_zero _ Hex). apply w_leb_refl.
  - eapply w_leb_trans; [exact (Hc _ _ _ HE)|]. change ((w, j) :: p) with ([(w, j)] ++ p).
    rewrite walk_weight_app. rewrite (ex_comm _ Hex (walk_weight WT p)), <- (ex_assoc _ Hex).
    unfold walk_weight at 1. simpl. rewrite (ex_comm _ Hex w zero), (ex_zero _ Hex). now apply w_add_mono.
Qed.

Lemma gs_fin i d : finite_estimates WT hI -> gs i d = add d (hI i).
Proof.
  intros Hf. unfold gs. destruct (w_eqb WT (hI i) inf) eqn:Heq; auto.
  apply eqb_true in Heq. specialize (Hf i). rewrite Heq, w_lt_irrefl in Hf. discriminate.
Qed.

Lemma consistent_min X e h D G : consistent WT E hI -> finite_estimates WT hI ->
  AInv X (@ALoop V L WT) (e :: h) D G -> ltb (G @ (vid (ev e))) (e_key e) = false ->
  forall s p, St s -> wwalk WT E s p (vid (ev e)) -> leb (D @ (vid (ev e))) (walk_weight WT p) = true.
Proof.
  intros Hc Hf HI Hst s p Hs Hw. pose proof (pop_key _ _ _ _ _ _ HI Hst) as Hk.
  destruct (start_walk _ _ _ _ HI s p _ Hs Hw) as [(u & p1 & p2 & e' & -> & H2 & H3 & H4 & H5)|(_ & H1 & _)]; auto.
  apply (ex_cancel _ Hex (hI (vid (ev e)))); [apply Hf|].
  rewrite !(ex_comm _ Hex (hI _)). rewrite <- gs_fin by auto.
  rewrite <- (a_G _ _ _ _ _ HI) by (apply (a_H _ _ _ _ _ HI e (or_introl eq_refl))).
  rewrite <- Hk. eapply w_leb_trans; [apply (heap_head_min WT e h (a_sH _ _ _ _ _ HI) e' H4)|].
  rewrite H5, gs_fin by auto. rewrite walk_weight_app.
  eapply w_leb_trans; [apply add_mono_l; exact H3|].
  rewrite (ex_comm _ Hex (walk_weight WT p2)), <- (ex_assoc _ Hex). apply w_add_mono.
  now apply consistent_walk.
Qed.

Lemma gs_strict i d d' : finite_estimates WT hI -> ltb d d' = true -> ltb (gs i d) (gs i d') = true.
Proof.
  intros Hf Hl. rewrite !gs_fin by auto. apply w_ltb_lt. apply w_ltb_lt in Hl.
  destruct (leb (add d' (hI i)) (add d (hI i))) eqn:Hle; auto.
  rewrite (ex_comm _ Hex d'), (ex_comm _ Hex d) in Hle. apply (ex_cancel _ Hex) in Hle; [congruence|auto].
Qed.
End AStarProofs.
