(** The traversal for infinite branching runs in lock step with Dijkstra's algorithm on the search graph. *)
From Coq Require Import List ZArith Bool Lia Arith Permutation.
From Verif Require Import Machine GearSpec Common CommonProofs TraversalSpec PathsModel PathsProofs Weight WeightSpec HeapModel HeapProofs DijkstraModel DijkstraProofs DijkstraPaths DijkstraPlain
  InfModel InfSpec InfGraph.
Import ListNotations.

Section InfRun.
Context {V : Type}.
Variable V_dec : forall a b : V, {a = b} + {a <> b}.
Variable edge : V -> nat -> option (V * option Z).
Notation state := (V * nat)%type.
Notation ZI := ZInfWeights.
Notation W := (option Z).
Notation add := (w_add ZI).
Notation leb := (w_leb ZI).
Notation ltb := (w_ltb ZI).
Hypothesis Hseq : edge_sequences edge.
Hypothesis Hsort : edges_sorted edge.
Hypothesis Hnn : forall v k u w, edge v k = Some (u, w) -> leb (Some 0%Z) w = true.
Variable DM : DMap V W None.
Variable PM : PMap V V.
Variable DMi : DMap state W None.
Variable PMi : PMap state state.
Variable LMi : PMap state unit.
Variables build_paths store_distances : bool.
Variable starts : list V.
Hypothesis Hnd : NoDup starts.
Variable lim : option Z.

Notation cfg := (inf_inner_cfg build_paths).
Notation sstarts := (map (fun v : V => (v, 0)) starts).
Notation sid := (fun s : state => s).
Notation snext := (snext edge).
Notation SE := (SE edge).
Notation before := (before edge).
Notation dstate := (@dij_state state state unit ZI DMi PMi LMi).
Notation dreport := (@dij_report state state unit ZI DMi PMi LMi).
Notation dstep := (dij_step sid ZI DMi PMi LMi snext cfg).
Notation dinit := (dij_init sid ZI DMi PMi LMi cfg sstarts None lim).
Notation ent := (@entry (state * nat) ZI).
Notation settled := (settled sid ZI).
Notation Inv := (Inv sid ZI DMi snext cfg SE sstarts None).
Notation BigS := (BigS sid ZI DMi PMi LMi snext cfg SE sstarts None).
Notation imp := (imp sid ZI DMi cfg SE sstarts None).
Notation SD := (@state_dec V V_dec).
Notation nstate := (@inf_state V DM PM DMi PMi LMi).
Notation nreport := (@inf_report V DM PM).
Notation nstep := (inf_step V_dec edge DM PM DMi PMi LMi build_paths store_distances).
Notation ninit := (inf_init DM PM DMi PMi LMi build_paths store_distances starts lim).
Notation next_edges_of := (next_state_edges V_dec edge DMi).
Notation ev := (ev ZI). Notation ek := (ek ZI). Notation epos := (epos ZI). Notation xpos := (xpos ZI). Notation xv := (xv ZI).

Let Hpres := SE_presents edge.
Let Hsnn := SE_nonneg edge Hseq Hsort Hnn.
Let Htree : dc_is_tree cfg = false := eq_refl.
Let Hd0' : forall i, is_start sid sstarts i -> leb (w_zero ZI) (d0 sid ZI DMi cfg sstarts None i) = true := Hd0 SD sid ZI DMi PMi LMi snext cfg Htree SE Hpres Hsnn sstarts.

Lemma not_start v j : ~ In (v, S j) sstarts.
Proof. intros H. apply in_map_iff in H. destruct H as (x & Hx & _). discriminate. Qed.

(** State [(v, S j)] has been reached from [(v, j)], with weight [w]. *)
Definition after (X : list (state * W * nat)) (v : V) (j : nat) (w : W) : Prop :=
  exists u b a w', edge v j = Some (u, b) /\ before v j = Some a /\ settled X (v, j) w' /\ w = add (w_sub b a) w'.

Record K (X : list (state * W * nat)) (H : list ent) : Prop := {
  k_H : forall e, In e H -> forall v j, ev e = (v, S j) -> after X v j (e_key e);
  k_X : forall v j w k, In ((v, S j), w, k) X -> after X v j w;
  k_nd : NoDup (map ev (filter (fun e => negb (epos e)) H) ++ map xv (filter (fun x => negb (xpos x)) X))
}.

Definition J (iters : V -> option nat) (X : list (state * W * nat)) : Prop :=
  forall v j, (exists w, settled X (v, j) w) -> edge v j <> None -> (forall w, ~ settled X (v, S j) w) -> iters v = Some (S j).

Lemma settled_in X st w k : In (st, w, k) X -> settled X st w.
Proof. intros H. exists st, k. auto. Qed.

Lemma after_cons X x v j w : after X v j w -> after (x :: X) v j w.
Proof. intros (u & b & a & w' & H1 & H2 & H3 & H4). exists u, b, a, w'. repeat (split; [assumption|]). split; auto. now apply settled_cons. Qed.

Lemma K_settled X H v j w : K X H -> settled X (v, S j) w -> after X v j w.
Proof. intros HK (st & k & Hin & Hv). subst st. eapply k_X; eauto. Qed.

(** With a state, all earlier states of the vertex are settled; the distances differ by the weight of the edge. *)
Lemma settled_base X H pc D v : Inv X pc H D -> K X H -> forall j w, settled X (v, j) w ->
  exists w0 a, settled X (v, 0) (Some w0) /\ before v j = Some (Some a) /\ w = Some (a + w0)%Z.
Proof.
  intros HI HK. induction j as [|j IH]; intros w Hs.
  - assert (Hf : exists z, w = Some z).
    { destruct Hs as (st & k & Hin & Hv). pose proof (i_impX _ _ _ _ _ _ _ _ _ _ _ _ HI _ _ _ Hin) as Hi. apply (imp_lt_inf SD sid ZI DMi PMi LMi snext cfg Htree SE Hpres Hsnn sstarts) in Hi.
      destruct w as [z|]; [eauto|discriminate]. }
    destruct Hf as (z & ->). exists z, 0%Z. split; auto.
  - pose proof (K_settled _ _ _ _ _ HK Hs) as (u & b & a & w' & He & Hb & Hs' & Hw).
    destruct (IH _ Hs') as (w0 & a0 & H0 & Hb0 & Hw'). rewrite Hb in Hb0. injection Hb0 as ->. subst w'.
    assert (Hf : exists z, w = Some z).
    { destruct Hs as (st & k & Hin & Hv). pose proof (i_impX _ _ _ _ _ _ _ _ _ _ _ _ HI _ _ _ Hin) as Hi. apply (imp_lt_inf SD sid ZI DMi PMi LMi snext cfg Htree SE Hpres Hsnn sstarts) in Hi.
      destruct w as [z|]; [eauto|discriminate]. }
    destruct Hf as (z & Hz). destruct b as [b|]; [|simpl in Hw; congruence].
    exists w0, b. split; auto. simpl. rewrite He. split; auto. rewrite Hw. simpl. f_equal. lia.
Qed.

Lemma settled_lower X H v : K X H -> forall k j, j <= k -> (exists w, settled X (v, k) w) -> exists w, settled X (v, j) w.
Proof.
  intros HK k. induction k as [|k IH]; intros j Hj Hs; [replace j with 0 by lia; auto|].
  destruct (Nat.eq_dec j (S k)) as [->|Hne]; auto. apply IH; [lia|]. destruct Hs as (w & Hs).
  destruct (K_settled _ _ _ _ _ HK Hs) as (u & b & a & w' & _ & _ & Hs' & _). eauto.
Qed.

(** *** A state that is expanded *)
Lemma popped_new X e h D : Inv X (DLoop ZI) (e :: h) D -> K X (e :: h) -> ltb (dm_get DMi (ev e) D) (e_key e) = false ->
  (forall w, ~ settled X (ev e) w) /\ dm_get DMi (ev e) D = e_key e.
Proof.
  intros HI HK Hst.
  assert (Hn : forall w, ~ settled X (ev e) w).
  { intros w Hw. destruct (settle_again sid ZI DMi snext cfg SE Hsnn sstarts None Hd0' _ _ _ _ _ _ HI Hst Hw) as (-> & Hz & _).
    assert (He : epos e = false) by (unfold DijkstraProofs.epos; rewrite Hz; reflexivity).
    pose proof (i_v0H _ _ _ _ _ _ _ _ _ _ _ _ HI e (or_introl eq_refl) He) as Hs0. apply in_map_iff in Hs0. destruct Hs0 as (v & Hv & Hin).
    destruct Hw as (st & k & HinX & Heq). subst st.
    assert (Hxp : xpos (ev e, e_key e, k) = false).
    { unfold DijkstraProofs.xpos, DijkstraProofs.xk. cbn [snd]. destruct k as [|k]; auto. exfalso.
      pose proof (i_impX _ _ _ _ _ _ _ _ _ _ _ _ HI _ _ _ HinX) as Hi.
      destruct (imp_start_zero SD sid ZI DMi PMi LMi snext cfg Htree SE Hpres Hsnn sstarts _ _ _ Hi) as [C _]; [|discriminate].
      unfold is_start. rewrite map_id. rewrite <- Hv. apply in_map_iff. eauto. }
    pose proof (k_nd _ _ HK) as Hk. cbn [filter] in Hk. rewrite He in Hk. cbn [negb map app] in Hk. inversion Hk as [|? ? Hni _]; subst.
    apply Hni. apply in_or_app. right. apply in_map_iff. exists (ev e, e_key e, k). split; auto. apply filter_In. rewrite Hxp. auto. }
  split; auto. exact (settle_first sid ZI DMi snext cfg SE sstarts None _ _ _ _ _ HI Hst Hn).
Qed.

Lemma expand_ok X e h D iters : Inv X (DLoop ZI) (e :: h) D -> K X (e :: h) -> J iters X -> ltb (dm_get DMi (ev e) D) (e_key e) = false ->
  exists iters', next_edges_of iters D (ev e) = Some (snext (ev e), iters') /\ J iters' ((ev e, e_key e, ek e) :: X) /\
    (if Nat.eqb (snd (ev e)) 0 then Some 0 else iters (fst (ev e))) = Some (snd (ev e)).
Proof.
  intros HI HK HJ Hst. destruct (popped_new _ _ _ _ HI HK Hst) as [Hn Hd].
  assert (Hf : exists z, e_key e = Some z).
  { pose proof (i_impH _ _ _ _ _ _ _ _ _ _ _ _ HI e (or_introl eq_refl)) as Hi. apply (imp_lt_inf SD sid ZI DMi PMi LMi snext cfg Htree SE Hpres Hsnn sstarts) in Hi.
    destruct (e_key e) as [z|]; [eauto|discriminate]. }
  destruct Hf as (z & Hz). destruct (ev e) as [v k] eqn:Ev.
  assert (Hset : forall v' j', (exists w, settled ((v, k, e_key e, ek e) :: X) (v', j') w) <-> (v', j') = (v, k) \/ exists w, settled X (v', j') w).
  { intros v' j'. split.
    - intros (w & st & kk & [Heq|Hin] & Hs); [injection Heq as <- _ _; auto|]. right. exists w, st, kk. auto.
    - intros [->|(w & Hs)]; [exists (e_key e), (v, k), (ek e); split; auto; now left|]. exists w. now apply settled_cons. }
  assert (HJ' : forall it, (edge v k <> None -> it v = Some (S k)) -> (forall x, x <> v -> it x = iters x) -> J it ((v, k, e_key e, ek e) :: X)).
  { intros it H1 H2 v' j' Hs He Hns. destruct (V_dec v' v) as [->|Hne].
    - destruct (Nat.eq_dec j' k) as [->|Hjk]; [auto|]. exfalso.
      apply Hset in Hs. destruct Hs as [C|Hs]; [congruence|].
      destruct (Nat.lt_ge_cases j' k) as [Hlt|Hge].
      + assert (Hsj : exists w, settled ((v, k, e_key e, ek e) :: X) (v, S j') w).
        { apply Hset. destruct (Nat.eq_dec (S j') k) as [->|Hne2]; auto. right. destruct k as [|k0]; [lia|].
          destruct (k_H _ _ HK e (or_introl eq_refl) v k0 Ev) as (u & b & a & w' & _ & _ & Hs' & _).
          apply (settled_lower X (e :: h) v HK k0); [lia|eauto]. }
        destruct Hsj as (w & Hw). now apply (Hns w).
      + assert (Hk : exists w, settled X (v, k) w) by (apply (settled_lower X (e :: h) v HK j'); auto). destruct Hk as (w & Hw). now apply (Hn w).
    - rewrite H2 by auto. apply HJ; auto.
      + apply Hset in Hs. destruct Hs as [C|Hs]; [congruence|auto].
      + intros w Hw. apply (Hns w). now apply settled_cons. }
  assert (Hput : forall x, x <> v -> forall y, put V_dec iters v y x = iters x) by (intros x Hx y; unfold put; destruct (V_dec x v); congruence).
  assert (Hputs : forall y, put V_dec iters v y v = y) by (intros y; unfold put; destruct (V_dec v v); congruence).
  unfold next_state_edges. destruct k as [|j].
  - cbn [Nat.eqb]. rewrite Hd, Hz. unfold InfGraph.snext. cbn [InfGraph.before].
    destruct (edge v 0) as [[u b]|] eqn:He.
    + exists (put V_dec iters v (Some 1)). split.
      * f_equal. f_equal. replace (w_sub (add b (Some z)) (Some z)) with (w_sub b (Some 0%Z)); auto. destruct b as [b|]; simpl; auto. f_equal. lia.
      * split; [rewrite <- Hz; apply HJ'; auto|reflexivity].
    + exists (put V_dec iters v None). split; auto. split; [rewrite <- Hz; apply HJ'; auto; congruence|reflexivity].
  - destruct (k_H _ _ HK e (or_introl eq_refl) v j Ev) as (u0 & b0 & a0 & w' & He0 & Hb0 & Hs' & Hw).
    assert (Hit : iters v = Some (S j)) by (apply HJ; eauto; congruence). cbn [fst snd Nat.eqb]. rewrite Hit.
    destruct (settled_base _ _ _ _ v HI HK j w' Hs') as (w0 & a & H0 & Hb & Hw'). rewrite Hb0 in Hb. injection Hb as ->. subst w'.
    assert (H0d : dm_get DMi (v, 0) D = Some w0) by exact (i_dX _ _ _ _ _ _ _ _ _ _ _ _ HI _ _ H0).
    assert (Hdd : dm_get DMi (v, S j) D = Some z) by (rewrite <- Hz; exact Hd).
    rewrite H0d, Hdd. destruct b0 as [b0|]; [|simpl in Hw; congruence]. rewrite Hz in Hw. simpl in Hw. injection Hw as Hw.
    unfold InfGraph.snext. cbn [InfGraph.before]. rewrite He0.
    destruct (edge v (S j)) as [[u b]|] eqn:He.
    + exists (put V_dec iters v (Some (S (S j)))). split.
      * f_equal. f_equal. replace (w_sub (add b (Some w0)) (Some z)) with (w_sub b (Some b0)); auto. destruct b as [b|]; simpl; auto. f_equal. lia.
      * split; [apply HJ'; auto|]. reflexivity.
    + exists (put V_dec iters v None). split; auto. split; [apply HJ'; auto; congruence|]. reflexivity.
Qed.

(** *** Preservation of [K] *)
Lemma K_init : K [] (d_heap dinit).
Proof.
  unfold dij_init. cbn [d_heap]. set (D := define_distances _ _ _ _ _). 
  assert (Hin : forall e, In e (heapify ZI (start_entries sid ZI DMi 256 D sstarts)) -> In (ev e) sstarts).
  { intros e He. apply (proj1 (heapify_in ZI _ _)) in He. apply start_entries_in in He. destruct He as (v & Hv & -> & _). exact Hv. }
  constructor.
  - intros e He v j Hv. apply Hin in He. rewrite Hv in He. destruct (not_start _ _ He).
  - intros v j w k [].
  - cbn [filter map]. rewrite app_nil_r.
    eapply Permutation_NoDup; [apply Permutation_sym, Permutation_map, Permutation_filter, heapify_perm|].
    assert (Hmap : forall l n, map ev (filter (fun e => negb (epos e)) (start_entries sid ZI DMi n D l)) = l).
    { induction l as [|x l IH]; intros n; simpl; auto. f_equal. apply IH. }
    rewrite Hmap. clear - Hnd. induction Hnd as [|x l Hx Hl IH]; simpl; constructor; auto.
    intros C. apply Hx. apply in_map_iff in C. destruct C as (y & Hy & Hin). congruence.
Qed.

Lemma K_stale X e h : K X (e :: h) -> K X h.
Proof.
  intros [H1 H2 H3]. constructor; auto.
  - intros e' He'. apply H1. now right.
  - cbn [filter] in H3. destruct (negb (epos e)); auto. cbn [map app] in H3. now inversion H3.
Qed.

Lemma K_settle X e h : K X (e :: h) -> K ((ev e, e_key e, ek e) :: X) h.
Proof.
  intros [H1 H2 H3]. constructor.
  - intros e' He' v j Hv. apply after_cons. apply H1; auto. now right.
  - intros v j w k [Heq|Hin]; apply after_cons; [|eapply H2; eauto]. injection Heq as Hv <- _. apply H1; auto. now left.
  - cbn [filter] in *. change (xpos (ev e, e_key e, ek e)) with (epos e). destruct (negb (epos e)); auto. cbn [map app] in *.
    eapply Permutation_NoDup; [|exact H3]. apply Permutation_middle.
Qed.

Lemma K_relax X H v w k n ew l rest D no : Inv X (DEdges ZI v w k ((n, ew, l) :: rest)) H D -> K X H -> K X (heappush ZI (add ew w, no, (n, S k)) H).
Proof.
  intros HI [H1 H2 H3]. destruct (edge_in sid ZI DMi snext cfg SE Hpres sstarts None _ _ _ _ _ _ _ _ _ _ HI) as (HE & _ & HX).
  constructor; auto.
  - intros e He v' j Hv. apply heappush_in in He. destruct He as [->|He]; [|now apply H1].
    change (n = (v', S j)) in Hv. subst n. destruct v as [v0 k0]. apply SE_inv in HE. destruct HE as (a & u & b & Hb & He & -> & [C|C]); [discriminate|].
    injection C as <- <-. exists u, b, a, w. split; auto. split; auto. split; [eapply settled_in; eauto|reflexivity].
  - eapply Permutation_NoDup; [|exact H3]. apply Permutation_app_tail, Permutation_map.
    rewrite (Permutation_filter (fun e => negb (epos e)) _ _ (heappush_perm ZI (add ew w, no, (n, S k)) H)). cbn [filter]. change (epos (add ew w, no, (n, S k))) with true. reflexivity.
Qed.

(** *** What the traversal does with the reports of the internal traversal *)
Definition base (rep : dreport) : bool := Nat.eqb (snd (dr_vertex rep)) 0.
Definition out_pred (os : list dreport) : pm_t PM :=
  fold_left (fun P rep => if base rep && build_paths
    then match pm_get PMi (dr_vertex rep) (dr_pred rep) with Some (u, _) => pm_set PM (fst (dr_vertex rep)) u P | None => P end else P) os
    (create_predecessors (fun v => v) PM build_paths starts).
Definition out_dist (os : list dreport) : dm_t DM :=
  fold_left (fun D rep => if base rep && store_distances then dm_set DM (fst (dr_vertex rep)) (dr_distance rep) D else D) os
    (define_distances ZI DM None (if store_distances then map (fun v => (v, Some 0%Z)) starts else []) false).
Fixpoint view (pre os : list dreport) : list nreport :=
  match os with
  | [] => []
  | rep :: r => (if base rep then [{| nr_vertex := fst (dr_vertex rep); nr_distance := dr_distance rep; nr_pred := out_pred (pre ++ [rep]); nr_distances := out_dist (pre ++ [rep]) |}] else [])
                  ++ view (pre ++ [rep]) r
  end.

Lemma view_app o : forall pre o', view pre (o ++ o') = view pre o ++ view (pre ++ o) o'.
Proof. induction o as [|x o IH]; intros pre o'; simpl; [now rewrite app_nil_r|]. rewrite IH, <- !app_assoc. reflexivity. Qed.

(** The calls of the neighbor function *)
Definition base_calls (X : list (state * W * nat)) : list (V * W) := map (fun x => (fst (xv x), snd (fst x))) (filter (fun x => Nat.eqb (snd (xv x)) 0) X).

(** Everything a user can see, apart from [distance] *)
Record same (pre : list dreport) (s : nstate) (i : dstate) : Prop := {
  s_in : n_in s = i;
  s_pred : n_pred s = out_pred pre;
  s_dist : n_distances s = out_dist pre;
  s_calls : n_calls s = base_calls (d_calls i);
  s_reads : n_reads s = map xv (d_calls i);
  s_nodup : NoDup (map xv (d_calls i))
}.
Record Rel (pre : list dreport) (s : nstate) (i : dstate) : Prop := {
  r_same : same pre s i;
  r_big : BigS pre i;
  r_k : K (d_calls i) (d_heap i);
  r_j : J (n_iters s) (d_calls i)
}.

Lemma handle_ok s pre i o X pc H D P Lb : same pre s i -> Big sid ZI DMi PMi LMi snext cfg SE sstarts None (pre ++ o) X pc H D P Lb -> length o <= 1 ->
  exists s1, inf_handle V_dec DM PM DMi PMi LMi build_paths store_distances s o = inl (view pre o, s1) /\ same (pre ++ o) s1 i /\ n_iters s1 = n_iters s.
Proof.
  intros [S1 S2 S3 S4 S5 S6] HB Hl. destruct o as [|rep [|? ?]]; [|clear Hl|simpl in Hl; lia].
  - exists s. rewrite app_nil_r. split; [reflexivity|]. split; [constructor; auto|auto].
  - unfold inf_handle. cbn [view]. rewrite app_nil_r. destruct (dr_vertex rep) as [v k] eqn:Ev. 
    assert (Hb : base rep = Nat.eqb k 0) by (unfold base; rewrite Ev; reflexivity). rewrite Hb.
    assert (Op : out_pred (pre ++ [rep]) = if Nat.eqb k 0 && build_paths then match pm_get PMi (v, k) (dr_pred rep) with Some (u, _) => pm_set PM v u (out_pred pre) | None => out_pred pre end else out_pred pre).
    { unfold out_pred at 1. rewrite fold_left_app. cbn [fold_left]. fold (out_pred pre). rewrite Hb, Ev. reflexivity. }
    assert (Od : out_dist (pre ++ [rep]) = if Nat.eqb k 0 && store_distances then dm_set DM v (dr_distance rep) (out_dist pre) else out_dist pre).
    { unfold out_dist at 1. rewrite fold_left_app. cbn [fold_left]. fold (out_dist pre). rewrite Hb, Ev. reflexivity. }
    rewrite Op, Od. destruct (Nat.eqb_spec k 0) as [->|Hk]; cbn [negb].
    + destruct build_paths eqn:Ebp; cbn [andb].
      * destruct (b_hist _ _ _ _ _ _ _ _ _ _ _ _ _ _ _ _ _ HB pre rep [] eq_refl) as (X1 & pc1 & H1 & HI1 & HP1 & (X2 & HX2) & _ & Hos & _).
        specialize (HP1 eq_refl).
        assert (Hin : In (rx ZI DMi PMi LMi rep) X1) by (rewrite HX2; now left).
        assert (Hdp : 0 < dr_depth rep).
        { assert (Hr : In (rx ZI DMi PMi LMi rep) (rev (filter xpos X1))) by (rewrite <- Hos; apply in_map, in_or_app; right; now left).
          apply in_rev, filter_In in Hr. destruct Hr as [_ Hr]. unfold DijkstraProofs.xpos, DijkstraProofs.xk, rx in Hr. cbn [snd] in Hr. now apply Nat.ltb_lt. }
        unfold rx in Hin. destruct (p_path _ _ _ _ _ _ _ _ _ _ _ _ _ _ HP1 (fun a b _ _ e => e) _ _ _ Hin) as (s0 & p & _ & Hc & _ & Hlen & Hpp & _).
        rewrite Ev in *.
        assert (Hq : exists u, pm_get PMi (v, 0) (dr_pred rep) = Some u /\ (v, 0) <> u).
        { remember (rev _) as q eqn:Eq in Hpp. destruct Hpp as [v1 Hg|v1 u l Hg Hne Hr]; [|eauto]. exfalso. apply (f_equal (@length _)) in Eq. rewrite rev_length in Eq. unfold chain_vertices in Eq. cbn [length] in Eq. rewrite map_length in Eq. lia. }
        destruct Hq as ([u ku] & Hg & Hne). unfold paths_predecessor. rewrite Hg. destruct (state_dec V_dec (v, 0) (u, ku)) as [C|_]; [contradiction|].
        eexists. split; [rewrite S2, S3; reflexivity|]. split; [|auto]. constructor; cbn [n_in n_pred n_distances n_calls n_reads]; rewrite ?Op, ?Od; cbn [andb]; rewrite ?Hg, ?S2, ?S3; auto.
      * eexists. split; [rewrite S2, S3; reflexivity|]. split; [|auto]. constructor; cbn [n_in n_pred n_distances n_calls n_reads]; rewrite ?Op, ?Od; cbn [andb]; rewrite ?S2, ?S3; auto.
    + exists s. split; [reflexivity|]. split; [|auto]. cbn [andb] in *. constructor; congruence.
Qed.

Lemma same_set s pre (i i' : dstate) : same pre s i -> d_calls i' = d_calls i -> same pre (n_set_in DM PM DMi PMi LMi s i') i'.
Proof. intros [S1 S2 S3 S4 S5 S6] Hc. constructor; cbn [n_in n_pred n_distances n_calls n_set_in]; auto; now rewrite Hc. Qed.

Local Ltac fixc H E := match type of E with ?l = _ => try match type of H with context [if ?c then _ else _] => change c with l in H; rewrite E in H end;
  repeat match goal with |- context [if ?c then _ else _] => change c with l; rewrite E end end.

Theorem step_sim pre s i : Rel pre s i ->
  match dstep i with
  | Go os i' => exists s', nstep s = Go (view pre os) s' /\ Rel (pre ++ os) s' i'
  | Halt os i' => exists s', nstep s = Halt (view pre os) s' /\ same (pre ++ os) s' i'
  | Raise os x i' => exists s', nstep s = Raise (view pre os) x s' /\ same (pre ++ os) s' i'
  end.
Proof.
  intros [HS HB HK HJ]. pose proof (BigS_step SD sid ZI DMi PMi LMi snext cfg Htree SE Hpres Hsnn sstarts None Hd0' pre i) as Hnext.
  pose proof (s_in _ _ _ HS) as Hin. unfold inf_step. rewrite Hin. pose proof (b_inv _ _ _ _ _ _ _ _ _ _ _ _ _ _ _ _ _ HB) as HI.
  unfold dij_step in *. destruct (d_pc i) as [|v w k rest] eqn:Hpc.
  - destruct (d_heap i) as [|[[w no] [v k]] h] eqn:Hh.
    + cbn [inf_handle view]. rewrite app_nil_r. eexists. split; [reflexivity|]. now apply same_set with (i := i).
    + cbn [dc_is_tree inf_inner_cfg negb andb] in *. destruct (w_ltb ZI (dm_get DMi v (d_distances i)) w) eqn:Hlt; fixc Hnext Hlt.
      * specialize (Hnext _ _ HB eq_refl). cbn [inf_handle view]. unfold inf_expanded. cbn [d_pc d_set_heap]. rewrite Hpc.
        eexists. split; [reflexivity|]. rewrite app_nil_r in *. constructor; auto.
        -- now apply same_set with (i := i).
        -- cbn [d_calls d_heap d_set_heap]. eapply K_stale; eauto.
      * destruct (expand_ok (d_calls i) (w, no, (v, k)) h (d_distances i) (n_iters s) HI HK HJ Hlt) as (iters' & Hse & HJ' & Hrd).
        pose proof (Big_settle SD sid ZI DMi PMi LMi snext cfg Htree SE Hpres Hsnn sstarts None Hd0' pre i (w, no, (v, k)) h HB Hpc Hh Hlt) as HB'. cbv zeta in HB'.
        change (ev (w, no, (v, k))) with v in *. change (ek (w, no, (v, k))) with k in *. change (e_key (w, no, (v, k))) with w in *.
        set (i1 := dij_settle sid ZI DMi PMi LMi cfg (d_set_heap ZI DMi PMi LMi i h) v w k) in *.
        set (o := if 0 <? k then [dij_observe ZI DMi PMi LMi v i1] else []) in *.
        destruct (handle_ok s pre i o _ _ _ _ _ _ HS HB') as (s1 & Hh1 & HS1 & Hit1); [unfold o; destruct (0 <? k); simpl; auto|].
        destruct (limit_check (d_limit i1)) as [lm|] eqn:Hlim.
        -- rewrite Hh1. unfold inf_expanded. rewrite Hpc. cbn [d_pc dij_expand].
           match goal with |- context [dij_expand ZI DMi PMi LMi ?f i1 v w k lm] => lazymatch f with snext => fail | _ => replace (dij_expand ZI DMi PMi LMi f i1 v w k lm) with (dij_expand ZI DMi PMi LMi snext i1 v w k lm) by (unfold dij_expand; rewrite Hse; reflexivity) end end.
           rewrite Hse. eexists. split; [reflexivity|].
           constructor; cbn [n_iters inf_note]; [|exact HB'| |exact HJ'].
           ++ destruct HS1 as [S1 S2 S3 S4 S5 S6]. constructor; cbn [n_in n_pred n_distances n_calls n_reads inf_note n_set_in]; [reflexivity|exact S2|exact S3| | |].
              ** unfold dij_expand. cbn [d_calls d_distances n_in n_set_in]. unfold base_calls. cbn [filter]. change (xv (v, w, k)) with v.
              rewrite S4. destruct v as [v0 j]. cbn [fst snd]. destruct (Nat.eqb_spec j 0) as [->|Hj]; [|reflexivity]. cbn [map]. f_equal. change ((v0, dm_get DMi (v0, 0) (d_distances i)) = (v0, w)). apply (f_equal (pair v0)).
              exact (proj2 (popped_new (d_calls i) (w, no, ((v0, 0), k)) h (d_distances i) HI HK Hlt)).
              ** unfold dij_expand. cbn [d_calls n_iters n_set_in]. cbn [map]. change (xv (v, w, k)) with v. rewrite Hit1, S5, Hrd. destruct v; reflexivity.
              ** unfold dij_expand. cbn [d_calls]. cbn [map]. change (xv (v, w, k)) with v. constructor; [|exact S6]. intros C. apply in_map_iff in C. destruct C as ([[x wx] kx] & Hx & Hxin).
                 apply (proj1 (popped_new (d_calls i) (w, no, (v, k)) h (d_distances i) HI HK Hlt) wx). exists x, kx. auto.
           ++ exact (K_settle (d_calls i) (w, no, (v, k)) h HK).
        -- rewrite Hh1. eexists. split; [reflexivity|]. now apply same_set with (i := i).
  - destruct rest as [|[[n ew] l] rest].
    + specialize (Hnext _ _ HB eq_refl). cbn [inf_handle view]. unfold inf_expanded. rewrite Hpc. eexists. split; [reflexivity|]. rewrite app_nil_r in *. constructor; auto.
      now apply same_set with (i := i).
    + destruct (w_leb ZI (w_inf ZI) (add ew w)) eqn:Hinf; fixc Hnext Hinf.
      * cbn [inf_handle view]. rewrite app_nil_r in *. eexists. split; [reflexivity|]. now apply same_set with (i := i).
      * cbn [dc_is_tree inf_inner_cfg negb andb] in *. destruct (w_leb ZI (dm_get DMi n (d_distances i)) (add ew w)) eqn:Hle; fixc Hnext Hle.
        -- specialize (Hnext _ _ HB eq_refl). cbn [inf_handle view]. unfold inf_expanded. rewrite Hpc. eexists. split; [reflexivity|]. rewrite app_nil_r in *. constructor; auto.
           now apply same_set with (i := i).
        -- specialize (Hnext _ _ HB eq_refl). cbn [inf_handle view]. unfold inf_expanded. rewrite Hpc. eexists. split; [reflexivity|]. rewrite app_nil_r in *. constructor; auto.
           ++ now apply same_set with (i := i).
           ++ unfold dij_relax. cbn [d_calls d_heap]. eapply K_relax; eauto.
Qed.

Lemma Rel_init : Rel [] ninit dinit.
Proof.
  constructor.
  - constructor; try reflexivity. constructor.
  - exact (BigS_init SD sid ZI DMi PMi LMi snext cfg SE sstarts None lim).
  - exact K_init.
  - intros v j (w & st & k & [] & _).
Qed.

Lemma run_sim_inf n : forall pre s i, Rel pre s i -> forall os r, run dstep n i = (os, r) ->
  exists r', run nstep n s = (view pre os, r') /\ same (pre ++ os) (outcome_state r') (outcome_state r) /\
    match r, r' with Running _, Running _ => True | Ended _, Ended _ => True | Raised x _, Raised y _ => x = y | _, _ => False end.
Proof.
  induction n as [|n IH]; intros pre s i HR os r Hrun.
  - cbn [run] in *. injection Hrun as <- <-. exists (Running s). cbn [view outcome_state]. rewrite app_nil_r. repeat split; auto; apply HR.
  - cbn [run] in *. pose proof (step_sim pre s i HR) as Hs. destruct (dstep i) as [o i'|o i'|o x i'].
    + destruct Hs as (s' & Hs & HR'). rewrite Hs. destruct (run dstep n i') as [os' r0] eqn:Hrec. injection Hrun as <- <-.
      destruct (IH _ _ _ HR' _ _ Hrec) as (r' & H1 & H2 & H3). rewrite H1. exists r'. rewrite view_app, <- app_assoc in *. auto.
    + injection Hrun as <- <-. destruct Hs as (s' & Hs & HS'). rewrite Hs. exists (Ended s'). auto.
    + injection Hrun as <- <-. destruct Hs as (s' & Hs & HS'). rewrite Hs. exists (Raised x s'). auto.
Qed.

(** The reports of the traversal are those of the internal traversal for base states. *)
Theorem inf_is_dijkstra n os' r' : inf_run V_dec edge DM PM DMi PMi LMi build_paths store_distances starts lim n = (os', r') ->
  exists os r, dij_run sid ZI DMi PMi LMi snext cfg sstarts None lim n = (os, r) /\ os' = view [] os /\
    same os (outcome_state r') (outcome_state r) /\
    match r, r' with Running _, Running _ => True | Ended _, Ended _ => True | Raised x _, Raised y _ => x = y | _, _ => False end.
Proof.
  intros Hrun. unfold dij_run. destruct (run dstep n dinit) as [os r] eqn:Hd. destruct (run_sim_inf n _ _ _ Rel_init _ _ Hd) as (r1 & H1 & H2 & H3).
  unfold inf_run in Hrun. rewrite H1 in Hrun. injection Hrun as <- <-. exists os, r. auto.
Qed.
End InfRun.
