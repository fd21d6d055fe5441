(** Proofs about the bidirectional search of shortest paths when sums are rounded. *)
From Coq Require Import List ZArith Bool Lia Arith.
From Verif Require Import Machine GearSpec Spec TraversalSpec Common CommonProofs PathsModel PathModel Weight WeightSpec HeapModel HeapProofs DijkstraModel BiSPModel BiSPSpec BiSPSide BiSPProofs BiSPRoundSpec.
Import ListNotations.

Section Round.
Variable WT : Weights.
Hypothesis Hra : rounded_addition WT.
Notation leb := (w_leb WT).
Notation add := (w_add WT).
Notation zero := (w_zero WT).
Notation fsum p d := (fold_left (fun x e => add (fst e) x) p d).
Notation bsum p d := (fold_right (fun e x => add (fst e) x) d p).

Lemma radd_mono2 a a' b b' : leb a a' = true -> leb b b' = true -> leb (add a b) (add a' b') = true.
Proof.
  intros Ha Hb. apply (w_leb_trans WT) with (add a b'); [now apply w_add_mono|]. rewrite (ra_comm WT Hra a b'), (ra_comm WT Hra a' b'). now apply w_add_mono.
Qed.
Lemma radd_le_l a b : leb zero b = true -> leb a (add a b) = true.
Proof. intros Hb. rewrite (ra_comm WT Hra). now apply w_add_infl. Qed.

(** A walk, backwards *)
Lemma walk_back {I} (E B : I -> w_t WT -> I -> Prop) : (forall a w b, E a w b -> B b w a) -> forall i p j, wwalk WT E i p j ->
  exists r, wwalk WT B j r i /\ map fst r = rev (map fst p).
Proof.
  intros Hsub i p j H. induction H as [i|i w j p k He Hw (q & Hq & Hqw)]; [exists []; split; [constructor|reflexivity]|].
  exists (q ++ [(w, i)]). split; [eapply wwalk_snoc; eauto|]. rewrite map_app, Hqw. reflexivity.
Qed.
Lemma walk_app_inv {I} (E : I -> w_t WT -> I -> Prop) p1 : forall i p2 k, wwalk WT E i (p1 ++ p2) k -> exists j, wwalk WT E i p1 j /\ wwalk WT E j p2 k.
Proof.
  induction p1 as [|[w j] p1 IH]; intros i p2 k H; [exists i; split; [constructor|exact H]|]. cbn in H. inversion H as [|? ? ? ? ? HE Hw']; subst.
  destruct (IH _ _ _ Hw') as (m & H1 & H2). exists m. split; [econstructor; eauto|exact H2].
Qed.
Lemma fsum_map {I J} (p : list (w_t WT * I)) : forall (q : list (w_t WT * J)) d, map fst p = map fst q -> fsum p d = fsum q d.
Proof. induction p as [|[w i] p IH]; intros [|[w' j] q] d H; try discriminate; [reflexivity|]. cbn in H |- *. injection H as -> H. now apply IH. Qed.
Lemma fsum_weights {I} (p : list (w_t WT * I)) : forall d, fsum p d = fold_left (fun d w => add w d) (map fst p) d.
Proof. induction p as [|[w i] p IH]; intros d; [reflexivity|]. cbn. apply IH. Qed.
Lemma bsum_weights {I} (p : list (w_t WT * I)) : forall d, bsum p d = fold_right add d (map fst p).
Proof. induction p as [|[w i] p IH]; intros d; [reflexivity|]. cbn. now rewrite IH. Qed.
Lemma fsum_back {I J} (r : list (w_t WT * I)) (p : list (w_t WT * J)) d : map fst r = rev (map fst p) -> fsum r d = bsum p d.
Proof. intros H. rewrite fsum_weights, bsum_weights, H, <- fold_left_rev_right, rev_involutive. reflexivity. Qed.

(** The length from both ends is the same for a walk and the reversed one. *)
Lemma both_ends_rev {I J} (r : list (w_t WT * I)) (p : list (w_t WT * J)) c : map fst r = rev (map fst p) -> length_from_both_ends WT r c -> length_from_both_ends WT p c.
Proof using Hra.
  intros H (r1 & r2 & -> & ->). rewrite map_app in H.
  assert (Hp : map fst p = rev (map fst r2) ++ rev (map fst r1)) by (rewrite <- rev_app_distr, H, rev_involutive; reflexivity).
  exists (firstn (length r2) p), (skipn (length r2) p). split; [symmetry; apply firstn_skipn|].
  assert (H1 : map fst (firstn (length r2) p) = rev (map fst r2)).
  { rewrite <- firstn_map, Hp, firstn_app. rewrite firstn_all2; [|rewrite rev_length, map_length; lia].
    replace (length r2 - length (rev (map fst r2))) with 0 by (rewrite rev_length, map_length; lia). cbn. apply app_nil_r. }
  assert (H2 : map fst (skipn (length r2) p) = rev (map fst r1)).
  { rewrite <- skipn_map, Hp, skipn_app. rewrite skipn_all2; [|rewrite rev_length, map_length; lia].
    replace (length r2 - length (rev (map fst r2))) with 0 by (rewrite rev_length, map_length; lia). reflexivity. }
  rewrite (fsum_back _ r2 zero H1), <- (fsum_back r1 (skipn (length r2) p) zero); [apply (ra_comm WT Hra)|]. rewrite H2, rev_involutive. reflexivity.
Qed.
End Round.

Section Both.
Context {V I L : Type}.
Variable V_dec : forall a b : V, {a = b} + {a <> b}.
Variable I_dec : forall a b : I, {a = b} + {a <> b}.
Variable vid : V -> I.
Variable WT : Weights.
Hypothesis Hra : rounded_addition WT.
Notation W := (w_t WT).
Notation leb := (w_leb WT).
Notation ltb := (w_ltb WT).
Notation add := (w_add WT).
Notation zero := (w_zero WT).
Notation inf := (w_inf WT).
Variable DM : DMap I W inf.
Variable PM : PMap I V.
Variable LM : PMap I L.
Notation "D @ i" := (dm_get DM i D) (at level 10).
Variable next_f next_b : V -> list (V * W * L).
Variables labeled build silent : bool.
Variables E B : I -> W -> I -> Prop.
Hypothesis Hf : presents_weighted WT vid next_f E.
Hypothesis Hb : presents_weighted WT vid next_b B.
Hypothesis HnnE : nonnegative WT E.
Hypothesis HnnB : nonnegative WT B.
Hypothesis Hmu : mutual WT E B.
Variables starts goals : list V.
Notation state := (@b2_state V I L WT DM PM LM).
Notation step := (b2_step V_dec vid WT DM PM LM next_f next_b labeled build silent).
Notation next_of := (next_of WT next_f next_b).
Notation E_of := (E_of WT E B).
Notation starts_of := (starts_of starts goals).
Notation SI f := (SInv vid WT DM (next_of f) (E_of f) (starts_of f)).
Notation GI := (GI vid WT DM PM LM next_f next_b E B starts goals).
Notation fsum p d := (fold_left (fun x e => add (fst e) x) p d).
Notation bsum p d := (fold_right (fun e x => add (fst e) x) d p).
Notation pres_of := (pres_of vid WT next_f next_b E B Hf Hb).
Notation nn_of := (nn_of WT E B HnnE HnnB).

Notation kz := (keys_zero vid WT DM next_f next_b E B starts goals).

Lemma conv f a w b : E_of f a w b -> E_of (negb f) b w a.
Proof using Hmu. destruct f; cbn; intros H; now apply Hmu. Qed.

(** Where the searches meet *)
Lemma rmeet f Xc Hc Dc Xo Ho Do best pw q :
  SI f Xc None Hc Dc -> SI (negb f) Xo None Ho Do -> (forall i, leb best (add (Dc @ i) (Do @ i)) = true) ->
  (forall e, In e Hc -> leb pw (e_key e) = true) -> (forall e, In e Ho -> leb q (e_key e) = true) ->
  forall p i a g b, wwalk WT (E_of f) i p g -> ltb (Do @ g) inf = true -> leb (Do @ g) b = true -> ltb (Dc @ i) inf = true -> leb (Dc @ i) a = true ->
  exists p1 p2, p = p1 ++ p2 /\ let S := add (fsum p1 a) (bsum p2 b) in leb best S = true \/ leb (add pw q) S = true.
Proof using Hra Hf Hb HnnE HnnB Hmu.
  intros HC HO Hbest Hpw Hq p. induction p as [|[w j] p IH]; intros i a g b Hw Hg Hgb Hi Hia.
  - inversion Hw; subst. exists [], []. split; [reflexivity|]. left. cbn. eapply (w_leb_trans WT); [apply (Hbest g)|]. now apply radd_mono2.
  - destruct (leb pw a) eqn:Ea.
    + destruct (walk_back WT (E_of f) (E_of (negb f)) (conv f) _ _ _ Hw) as (r & Hr & Hrw). exists [], ((w, j) :: p). split; [reflexivity|].
      cbv zeta. rewrite <- (fsum_back WT r ((w, j) :: p) b Hrw). cbn [fold_left].
      destruct (frontier_from vid WT DM _ _ (pres_of (negb f)) (nn_of (negb f)) _ _ _ _ HO b g r i Hg Hgb Hr) as [(v & _ & _ & Hle)|(e & He & Hle)].
      * left. eapply (w_leb_trans WT); [apply (Hbest i)|]. now apply radd_mono2.
      * right. apply radd_mono2; auto. eapply (w_leb_trans WT); [apply Hq; exact He|exact Hle].
    + inversion Hw as [|? ? ? ? ? HE Hw']; subst.
      destruct (s_cover _ _ _ _ _ _ _ _ _ _ HC i) as [(v & Hv & Hvi)|(e & He & Hv & Hk)]; [now apply lt_neq| |].
      * rewrite <- Hvi in HE. apply (pres_of f) in HE. apply in_map_iff in HE. destruct HE as ([[n ew] l] & Heq & Hn).
        simpl in Heq. injection Heq as -> <-.
        destruct (s_edges _ _ _ _ _ _ _ _ _ _ HC v _ n w l Hv Hn) as [[H1 H2]|(r & Hr & _)]; [|discriminate].
        destruct (IH (vid n) (add w a) g b) as (p1 & p2 & -> & H); auto; [eapply (w_leb_trans WT); [exact H2|]; now apply w_add_mono|].
        exists ((w, vid n) :: p1), p2. split; [reflexivity|exact H].
      * exfalso. pose proof (Hpw e He) as Hp. rewrite Hk in Hp. rewrite (w_leb_trans WT _ _ _ Hp Hia) in Ea. discriminate.
Qed.

Definition way (p : list (W * I)) : Prop := exists s g, is_start vid starts s /\ is_start vid goals g /\ wwalk WT E s p g.

Lemma rmeet_way f Xc Hc Dc Xo Ho Do best pw q p :
  SI f Xc None Hc Dc -> SI (negb f) Xo None Ho Do -> (forall i, leb best (add (Dc @ i) (Do @ i)) = true) ->
  (forall e, In e Hc -> leb pw (e_key e) = true) -> (forall e, In e Ho -> leb q (e_key e) = true) -> way p ->
  exists c, length_from_both_ends WT p c /\ (leb best c = true \/ leb (add pw q) c = true).
Proof using Hra Hf Hb HnnE HnnB Hmu.
  intros HC HO Hbest Hpw Hq (s & g & Hs & Hg & Hw).
  assert (Hz : forall f X op H D i, SI f X op H D -> is_start vid (starts_of f) i -> ltb (D @ i) inf = true /\ leb (D @ i) zero = true).
  { intros f' X op H D i HI Hi. rewrite (s_start _ _ _ _ _ _ _ _ _ _ HI i Hi). split; [apply zero_lt_inf|apply w_leb_refl]. }
  destruct f.
  - destruct (Hz _ _ _ _ _ _ HC Hs) as [Z1 Z2]. destruct (Hz _ _ _ _ _ _ HO Hg) as [Z3 Z4].
    destruct (rmeet true _ _ _ _ _ _ best pw q HC HO Hbest Hpw Hq p s zero g zero Hw Z3 Z4 Z1 Z2) as (p1 & p2 & -> & H).
    eexists. split; [exists p1, p2; split; reflexivity|exact H].
  - destruct (walk_back WT E B (conv true) _ _ _ Hw) as (r & Hr & Hrw).
    destruct (Hz _ _ _ _ _ _ HC Hg) as [Z1 Z2]. destruct (Hz _ _ _ _ _ _ HO Hs) as [Z3 Z4].
    destruct (rmeet false _ _ _ _ _ _ best pw q HC HO Hbest Hpw Hq r g zero s zero Hr Z3 Z4 Z1 Z2) as (p1 & p2 & -> & H).
    eexists. split; [|exact H]. apply (both_ends_rev WT Hra (p1 ++ p2) p); [exact Hrw|]. exists p1, p2. split; reflexivity.
Qed.

(** The best length is real. *)
Definition rreal (c : W) : Prop := exists p, way p /\ length_from_both_ends WT p c.
Lemma rbest_real s : GI s -> b2_best s <> inf -> ltb (b2_best s) inf = true /\ rreal (b2_best s).
Proof using Hra Hmu.
  intros G Hne. destruct (g_best_node _ _ _ _ _ _ _ _ _ _ _ s G) as [?|(H1 & H2 & H3 & H4)]; [contradiction|]. split; auto.
  destruct (s_real _ _ _ _ _ _ _ _ _ _ (g_cur _ _ _ _ _ _ _ _ _ _ _ s G) (vid (b2_node s))) as (a & p & Ha & Hp & Hpw); [now apply lt_neq|].
  destruct (s_real _ _ _ _ _ _ _ _ _ _ (g_oth _ _ _ _ _ _ _ _ _ _ _ s G) (vid (b2_node s))) as (b & q & Hbb & Hq & Hqw); [now apply lt_neq|].
  assert (K : forall a p b q, is_start vid starts a -> wwalk WT E a p (vid (b2_node s)) -> is_start vid goals b -> wwalk WT B b q (vid (b2_node s)) -> rreal (add (walk_weight WT p) (walk_weight WT q))).
  { clear - Hmu. intros a p b q Ha Hp Hb Hq. destruct (walk_back WT B E ltac:(intros x w y H; now apply Hmu) _ _ _ Hq) as (r & Hr & Hrw).
    exists (p ++ r). split; [exists a, b; split; [exact Ha|]; split; [exact Hb|]; eapply wwalk_app; eauto|].
    exists p, r. split; [reflexivity|]. f_equal. unfold walk_weight. apply fsum_back. rewrite Hrw, rev_involutive. reflexivity. }
  rewrite H4, <- Hpw, <- Hqw. destruct (b2_forwards s); [|rewrite (ra_comm WT Hra)]; eapply K; eauto.
Qed.

(** What is known about the returned length *)
Definition rgood (s : state) : Prop :=
  ltb (b2_best s) inf = true /\ rreal (b2_best s) /\
  (forall p, way p -> exists c, length_from_both_ends WT p c /\ leb (b2_best s) (add c c) = true) /\
  (b2_outdated s = false -> forall p, way p -> exists c, length_from_both_ends WT p c /\ leb (b2_best s) c = true).

Definition no_way : Prop := forall p, ~ way p.
Lemma exhausted_no_way f : exhausted vid WT E B starts goals f -> no_way.
Proof using Hmu.
  intros Hx p (s & g & Hs & Hg & Hw). destruct f; [exact (Hx s p g Hs Hw Hg)|].
  destruct (walk_back WT E B (conv true) _ _ _ Hw) as (q & Hq & _). exact (Hx g q s Hg Hq Hs).
Qed.

Definition rstep_good (s : state) (x : step_result state (@b2_result V L WT) exn) : Prop :=
  match x with
  | Go o s' => o = [] /\ GI s'
  | Halt o s' => (silent = true /\ o = [{| b2_length := inf; b2_path := of_nothing labeled |}] /\ no_way) \/
                 (o = [b2_found V_dec vid WT DM PM LM labeled build s] /\ rgood s)
  | Raise o e s' => o = [] /\ ((e = KeyErrorNotFound /\ silent = false /\ no_way) \/
                    (e = RuntimeErrorLimit /\ limit_check (b2_limit (b2_current s)) = None) \/ (e = OverflowErrorDistance /\ too_far vid WT E B starts goals))
  end.

Lemma both_ends_nonneg p c : way p -> length_from_both_ends WT p c -> leb zero c = true.
Proof using HnnE Hra.
  intros (s & g & _ & _ & Hw) (p1 & p2 & -> & ->). apply walk_app_inv in Hw. destruct Hw as (m & H1 & H2).
  refine (w_leb_trans WT _ (bsum p2 zero) _ _ _); [|apply w_add_infl; exact (wzero_le_walk WT E HnnE _ _ _ H1)].
  clear H1. induction H2 as [|i w j p k He Hw IH]; [apply w_leb_refl|]. cbn [fold_right fst]. eapply (w_leb_trans WT); [exact IH|]. apply w_add_infl. exact (HnnE _ _ _ He).
Qed.

Lemma rGI_step s : GI s -> rstep_good s (step s).
Proof using Hra Hf Hb HnnE HnnB Hmu I_dec.
  intros G. pose proof (eqb_inf _ _ _ _ _ _ _ _ _ _ _ s G) as Heqb. unfold b2_step, b2_failed. destruct (b2_pc_of s) as [|v w [|[[n ew] l] rest]] eqn:Epc.
  - pose proof (g_cur _ _ _ _ _ _ _ _ _ _ _ s G) as HC. pose proof (g_oth _ _ _ _ _ _ _ _ _ _ _ s G) as HO. rewrite Epc in HC. simpl in HC.
    destruct (b2_heap (b2_current s)) as [|[[w no] v] h] eqn:Eh.
    { pose proof (exhausted_no_way _ (empty_exhausted vid WT DM PM LM next_f next_b E B Hf Hb HnnE HnnB starts goals s G Epc Eh)) as Hno. destruct silent eqn:Es; simpl; eauto 10. }
    pose proof (head_min WT _ _ (s_sorted _ _ _ _ _ _ _ _ _ _ HC)) as Hmin. simpl in Hmin.
    cbv zeta. cbn [b2_dist b2_popped b2_limit].
    destruct (ltb (b2_dist (b2_current s) @ (vid v)) w) eqn:Est.
    { (* an outdated entry *)
      simpl. split; auto. pose proof (stale_inv vid WT DM _ _ _ _ _ _ _ HC Est) as HC'. 
      constructor; simpl; rewrite ?negb_involutive; auto.
      - apply (g_best_inf _ _ _ _ _ _ _ _ _ _ _ s G).
      - destruct (g_best_node _ _ _ _ _ _ _ _ _ _ _ s G) as [?|(H1 & H2 & H3 & H4)]; auto. right. repeat (split; [assumption|]). rewrite (ra_comm WT Hra). exact H4.
      - intros i. rewrite (ra_comm WT Hra). apply (g_best_le _ _ _ _ _ _ _ _ _ _ _ s G).
      - intros u w' Hu. apply (g_goal_o _ _ _ _ _ _ _ _ _ _ _ s G u w' Hu).
      - intros u w' Hu. apply (g_goal_c _ _ _ _ _ _ _ _ _ _ _ s G u w' Hu).
      - apply (g_others_nn _ _ _ _ _ _ _ _ _ _ _ s G).
      - pose proof (g_others _ _ _ _ _ _ _ _ _ _ _ s G) as Ho. rewrite Epc in Ho. destruct Ho as [Ho|Ho]; [now right|]. left. intros e He. apply Ho. rewrite Eh. now right.
      - discriminate. }
    assert (Hkey : w = b2_dist (b2_current s) @ (vid v) /\ ltb w inf = true).
    { destruct (s_heap _ _ _ _ _ _ _ _ _ _ HC (w, no, v)) as [H1 H2]; [now left|]. apply w_ltb_ge in Est. split; [now apply (w_leb_antisym WT)|exact H2]. }
    assert (Hw0 : leb zero w = true) by (apply (kz _ _ _ _ _ HC (w, no, v)); now left).
    destruct (negb (w_eqb WT inf (b2_best s)) && leb (b2_best s) (add w (b2_others s))) eqn:Ebr.
    { (* the end of the search *)
      simpl. right. split; [unfold b2_found; simpl; destruct (b2_forwards s); reflexivity|]. apply andb_true_iff in Ebr. destruct Ebr as [Hne Hle]. apply negb_true_iff in Hne.
      destruct Heqb as [[_ C]|[Hni _]]; [congruence|]. destruct (rbest_real s G Hni) as [H1 H2].
      assert (Hmeet : forall q, (forall e, In e (b2_heap (b2_other s)) -> leb q (e_key e) = true) -> forall p, way p -> exists c, length_from_both_ends WT p c /\ (leb (b2_best s) c = true \/ leb (add w q) c = true)).
      { intros q Hq p Hp. eapply (rmeet_way (b2_forwards s)); eauto. apply (g_best_le _ _ _ _ _ _ _ _ _ _ _ s G). }
      assert (Hfar : (forall e, In e (b2_heap (b2_other s)) -> leb (b2_others s) (e_key e) = true) -> forall p, way p -> exists c, length_from_both_ends WT p c /\ leb (b2_best s) c = true).
      { intros Hq p Hp. destruct (Hmeet _ Hq p Hp) as (c & Hc & [?|H]); exists c; (split; [exact Hc|]); auto. eapply (w_leb_trans WT); eauto. }
      split; auto. split; auto. split.
      - intros p Hp. pose proof (g_others _ _ _ _ _ _ _ _ _ _ _ s G) as Ho. rewrite Epc in Ho. destruct Ho as [Ho|Ho].
        + destruct (Hfar Ho p Hp) as (c & Hc & Hl). exists c. split; [exact Hc|]. apply (w_leb_trans WT) with c; [exact Hl|]. apply (radd_le_l WT Hra). exact (both_ends_nonneg p c Hp Hc).
        + destruct (Hmeet zero (kz _ _ _ _ _ HO) p Hp) as (c & Hc & H). exists c. split; [exact Hc|]. pose proof (both_ends_nonneg p c Hp Hc) as Hc0.
          destruct H as [H|H]; [apply (w_leb_trans WT) with c; [exact H|now apply (radd_le_l WT Hra)]|].
          rewrite (ra_zero WT Hra) in H. eapply (w_leb_trans WT); [exact Hle|]. apply (radd_mono2 WT Hra); auto.
          apply (w_leb_trans WT) with w; auto. apply (Ho (w, no, v)). rewrite Eh. now left.
      - intros Hof p Hp. apply Hfar; auto. apply (g_fresh _ _ _ _ _ _ _ _ _ _ _ s G); auto. }
    destruct (limit_check (b2_limit (b2_current s))) as [lim|] eqn:El.
    2:{ simpl. split; auto. }
    (* a vertex is expanded *)
    simpl. split; auto. pose proof (expand_inv vid WT DM _ _ _ _ _ _ _ _ _ HC Est) as HC'.
    constructor; simpl; auto.
    + apply (g_best_inf _ _ _ _ _ _ _ _ _ _ _ s G).
    + apply (g_best_node _ _ _ _ _ _ _ _ _ _ _ s G).
    + apply (g_best_le _ _ _ _ _ _ _ _ _ _ _ s G).
    + intros u w' [Heq|Hu]; [|apply (g_goal_c _ _ _ _ _ _ _ _ _ _ _ s G u w' Hu)]. injection Heq as <- <-. intros Hg.
      pose proof (g_best_le _ _ _ _ _ _ _ _ _ _ _ s G (vid v)) as Hle. rewrite (s_start _ _ _ _ _ _ _ _ _ _ HO _ Hg), (ra_zero WT Hra) in Hle.
      destruct Hkey as [Hk Hki]. rewrite <- Hk in Hle.
      assert (Hbi : ltb (b2_best s) inf = true) by (eapply w_le_lt_trans; eauto).
      destruct Heqb as [[C _]|[_ Hni]]; [rewrite C, w_lt_irrefl in Hbi; discriminate|]. rewrite Hni in Ebr. simpl in Ebr.
      rewrite (w_leb_trans WT _ w _ Hle) in Ebr; [discriminate|]. apply (radd_le_l WT Hra); auto. apply (g_others_nn _ _ _ _ _ _ _ _ _ _ _ s G).
    + apply (g_goal_o _ _ _ _ _ _ _ _ _ _ _ s G).
    + discriminate.
  - (* the end of the expansion *)
    simpl. split; auto. pose proof (g_cur _ _ _ _ _ _ _ _ _ _ _ s G) as HC. rewrite Epc in HC. simpl in HC.
    destruct (s_op _ _ _ _ _ _ _ _ _ _ HC _ _ _ eq_refl) as (_ & _ & _ & Hk). apply done_inv in HC.
    pose proof (g_others _ _ _ _ _ _ _ _ _ _ _ s G) as Ho. rewrite Epc in Ho. subst w.
    constructor; simpl; rewrite ?negb_involutive; auto.
    + apply (g_oth _ _ _ _ _ _ _ _ _ _ _ s G).
    + apply (g_best_inf _ _ _ _ _ _ _ _ _ _ _ s G).
    + destruct (g_best_node _ _ _ _ _ _ _ _ _ _ _ s G) as [?|(H1 & H2 & H3 & H4)]; auto. right. repeat (split; [assumption|]). rewrite (ra_comm WT Hra). exact H4.
    + intros i. rewrite (ra_comm WT Hra). apply (g_best_le _ _ _ _ _ _ _ _ _ _ _ s G).
    + intros u w' Hu. apply (g_goal_o _ _ _ _ _ _ _ _ _ _ _ s G u w' Hu).
    + intros u w' Hu. apply (g_goal_c _ _ _ _ _ _ _ _ _ _ _ s G u w' Hu).
    + apply (g_others_nn _ _ _ _ _ _ _ _ _ _ _ s G).
  - pose proof (g_cur _ _ _ _ _ _ _ _ _ _ _ s G) as HC. rewrite Epc in HC. simpl in HC. pose proof (g_oth _ _ _ _ _ _ _ _ _ _ _ s G) as HO.
    destruct (s_op _ _ _ _ _ _ _ _ _ _ HC _ _ _ eq_refl) as (HvX & Hinc & _ & Hk).
    pose proof (next_E vid WT _ _ (pres_of (b2_forwards s)) _ _ _ _ (Hinc _ (or_introl eq_refl))) as HE.
    destruct (leb inf (add ew w)) eqn:Eov.
    { simpl. split; auto. right; right. split; auto.
      destruct (s_X _ _ _ _ _ _ _ _ _ _ HC v w HvX) as [Hd Hdi].
      destruct (s_real _ _ _ _ _ _ _ _ _ _ HC (vid v)) as (a & p & Ha & Hp & Hpw); [rewrite Hd; now apply lt_neq|].
      exists (b2_forwards s), a, (p ++ [(ew, vid n)]), (vid n). split; [exact Ha|]. split; [eapply wwalk_snoc; eauto|].
      rewrite walk_weight_snoc, Hpw, Hd. exact Eov. }
    destruct (leb (b2_dist (b2_current s) @ (vid n)) (add ew w)) eqn:Ele.
    { simpl. split; auto. destruct G as [? ? ? ? ? ? ? ? Go ?]. rewrite Epc in Go. constructor; simpl; auto; [|discriminate]. eapply skip_inv; eauto. }
    simpl. split; auto.
    pose proof (improve_inv I_dec vid WT DM _ _ (pres_of _) (nn_of _) _ _ _ _ _ _ _ _ (b2_no (b2_current s)) _ _ HC Eov Ele) as HC'.
    set (nw := add ew w) in *. set (total := add nw (b2_dist (b2_other s) @ (vid n))).
    assert (Hsame : dm_get DM (vid n) (dm_set DM (vid n) nw (b2_dist (b2_current s))) = nw) by apply dm_get_set_same.
    assert (Hoth : forall i, i <> vid n -> dm_get DM i (dm_set DM (vid n) nw (b2_dist (b2_current s))) = b2_dist (b2_current s) @ i) by (intros; apply dm_get_set_other; auto).
    assert (Hnew : leb (if negb (leb (b2_best s) total) then total else b2_best s) (b2_best s) = true /\
                   leb (if negb (leb (b2_best s) total) then total else b2_best s) total = true).
    { destruct (leb (b2_best s) total) eqn:Et; simpl; split; auto; try apply w_leb_refl. apply w_lt_le, w_ltb_lt. exact Et. }
    destruct Hnew as [Hnew1 Hnew2].
    assert (Hnwi : ltb nw inf = true) by (now apply w_ltb_lt).
    assert (Hnw0 : leb zero nw = true).
    { pose proof (s_nn _ _ _ _ _ _ _ _ _ _ HC' (vid n)) as H0. rewrite Hsame in H0. exact H0. }
    constructor; simpl; auto.
    + eapply (w_leb_trans WT); [exact Hnew1|apply (g_best_inf _ _ _ _ _ _ _ _ _ _ _ s G)].
    + destruct (leb (b2_best s) total) eqn:Et; simpl.
      * destruct (g_best_node _ _ _ _ _ _ _ _ _ _ _ s G) as [?|(H1 & H2 & H3 & H4)]; auto. right. split; auto.
        destruct (I_dec (vid (b2_node s)) (vid n)) as [Heq|Hne].
        -- rewrite Heq, Hsame in *. split; auto. split; auto. apply (w_leb_antisym WT); [exact Et|].
           rewrite H4. unfold total. apply (radd_mono2 WT Hra); auto; [|apply w_leb_refl]. apply w_lt_le, w_ltb_lt. exact Ele.
        -- rewrite Hoth by auto. auto.
      * right. assert (Hti : ltb total inf = true). { eapply w_lt_le_trans; [apply w_ltb_lt; exact Et|apply (g_best_inf _ _ _ _ _ _ _ _ _ _ _ s G)]. }
        rewrite Hsame. split; auto. split; auto. split; auto.
        apply w_le_neq_lt; [apply (s_le_inf _ _ _ _ _ _ _ _ _ _ HO)|]. intros C. unfold total in Hti. rewrite C in Hti.
        eapply w_le_lt_contra; [|exact Hti]. now apply w_add_infl.
    + intros i. destruct (I_dec i (vid n)) as [->|Hne]; [rewrite Hsame; exact Hnew2|]. rewrite Hoth by auto.
      eapply (w_leb_trans WT); [exact Hnew1|apply (g_best_le _ _ _ _ _ _ _ _ _ _ _ s G)].
    + apply (g_goal_c _ _ _ _ _ _ _ _ _ _ _ s G).
    + apply (g_goal_o _ _ _ _ _ _ _ _ _ _ _ s G).
    + apply (g_others_nn _ _ _ _ _ _ _ _ _ _ _ s G).
    + pose proof (g_others _ _ _ _ _ _ _ _ _ _ _ s G) as Ho. rewrite Epc in Ho. exact Ho.
    + discriminate.
Qed.

Hypothesis Hdisj : forall i, is_start vid starts i -> is_start vid goals i -> False.

Lemma rGI_init first lim : GI (b2_init vid WT DM PM LM build first starts goals lim).
Proof.
  pose proof (init_inv I_dec vid WT DM (next_of true) (E_of true) starts) as H1.
  pose proof (init_inv I_dec vid WT DM (next_of false) (E_of false) goals) as H2.
  constructor; try (simpl; auto; fail).
  - simpl. apply w_leb_refl.
  - intros i. simpl b2_best. cbn [b2_init b2_current b2_other b2_start b2_dist].
    assert (Hz : forall l, leb zero (dm_get DM i (define_distances WT DM None (map (fun v => (vid v, zero)) l) false)) = true).
    { intros l. apply (s_nn _ _ _ _ _ _ _ _ _ _ (init_inv I_dec vid WT DM (next_of true) (E_of true) l)). }
    destruct (in_dec I_dec i (map vid starts)) as [Hs|Hs].
    + rewrite (D0_other vid WT DM goals i) by (intros Hg; apply (Hdisj i Hs Hg)). apply w_add_infl, Hz.
    + rewrite (D0_other vid WT DM starts i) by exact Hs. apply (radd_le_l WT Hra); auto.
  - apply w_leb_refl.
  - left. intros e He. eapply kz; [exact H2|exact He].
  - intros _ _ e He. eapply kz; [exact H2|exact He].
Qed.
End Both.
