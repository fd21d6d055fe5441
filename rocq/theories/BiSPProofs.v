(** Proofs about the bidirectional search of shortest paths: both directions together. *)
From Coq Require Import List ZArith Bool Lia Arith.
From Verif Require Import Machine GearSpec Spec TraversalSpec Common CommonProofs PathsModel PathModel Weight WeightSpec HeapModel HeapProofs DijkstraModel BiSPModel BiSPSpec BiSPSide.
Import ListNotations.

Section Exact.
Variable WT : Weights.
Hypothesis Hex : exact_addition WT.
Notation leb := (w_leb WT).
Notation add := (w_add WT).
Notation zero := (w_zero WT).

Lemma add_mono2 a a' b b' : leb a a' = true -> leb b b' = true -> leb (add a b) (add a' b') = true.
Proof.
  intros Ha Hb. apply (w_leb_trans WT) with (add a b'); [now apply w_add_mono|]. rewrite (ea_comm WT Hex a b'), (ea_comm WT Hex a' b'). now apply w_add_mono.
Qed.

Lemma add_le_l a b : leb zero b = true -> leb a (add a b) = true.
Proof. intros Hb. rewrite (ea_comm WT Hex). now apply w_add_infl. Qed.

Lemma zero_add a : add zero a = a.
Proof. rewrite (ea_comm WT Hex). apply (ea_zero WT Hex). Qed.

Lemma fold_weight_add {I} (p : list (w_t WT * I)) : forall d,
  fold_left (fun d e => add (fst e) d) p d = add d (walk_weight WT p).
Proof.
  induction p as [|[w j] p IH] using rev_ind; intros d; [simpl; unfold walk_weight; simpl; now rewrite (ea_zero WT Hex)|].
  rewrite walk_weight_snoc, fold_left_app. simpl. rewrite IH, !(ea_assoc WT Hex), (ea_comm WT Hex w d). reflexivity.
Qed.

Lemma walk_weight_cons {I} w (j : I) p : walk_weight WT ((w, j) :: p) = add w (walk_weight WT p).
Proof. unfold walk_weight at 1. simpl. rewrite fold_weight_add, (ea_zero WT Hex). reflexivity. Qed.

Lemma walk_weight_app {I} (p q : list (w_t WT * I)) : walk_weight WT (p ++ q) = add (walk_weight WT p) (walk_weight WT q).
Proof. unfold walk_weight at 1. rewrite fold_left_app, fold_weight_add. reflexivity. Qed.

Lemma wwalk_reversed {I} (E : I -> w_t WT -> I -> Prop) : forall i p j, wwalk WT E i p j ->
  exists q, wwalk WT (fun a w b => E b w a) j q i /\ walk_weight WT q = walk_weight WT p.
Proof.
  intros i p j H. induction H as [i|i w j p k He Hw (q & Hq & Hqw)]; [exists []; split; [constructor|reflexivity]|].
  exists (q ++ [(w, i)]). split; [eapply wwalk_snoc; eauto|]. rewrite walk_weight_snoc, walk_weight_cons, Hqw. reflexivity.
Qed.

Lemma wwalk_mono {I} (E E' : I -> w_t WT -> I -> Prop) : (forall i w j, E i w j -> E' i w j) -> forall i p j, wwalk WT E i p j -> wwalk WT E' i p j.
Proof. intros Hsub i p j H. induction H; econstructor; eauto. Qed.
End Exact.

Section Both.
Context {V I L : Type}.
Variable V_dec : forall a b : V, {a = b} + {a <> b}.
Variable I_dec : forall a b : I, {a = b} + {a <> b}.
Variable vid : V -> I.
Variable WT : Weights.
Hypothesis Hex : exact_addition WT.
Notation W := (w_t WT).
Notation leb := (w_leb WT).
Notation ltb := (w_ltb WT).
Notation add := (w_add WT).
Notation zero := (w_zero WT).
Notation inf := (w_inf WT).
Variable DM : DMap I W inf.
Variable PM : PMap I V.
Variable LM : PMap I L.
Notation "D @ i" := (dm_get DM i D) (at level 10).
Variable next_f next_b : V -> list (V * W * L).
Variables labeled build silent : bool.
Variables E B : I -> W -> I -> Prop.
Hypothesis Hf : presents_weighted WT vid next_f E.
Hypothesis Hb : presents_weighted WT vid next_b B.
Hypothesis HnnE : nonnegative WT E.
Hypothesis HnnB : nonnegative WT B.
Variables starts goals : list V.

Notation state := (@b2_state V I L WT DM PM LM).
Notation step := (b2_step V_dec vid WT DM PM LM next_f next_b labeled build silent).

Definition next_of (f : bool) := if f then next_f else next_b.
(** The edges given by the function for forward edges, and those given by the function for backward edges: nothing is assumed about how they belong together. *)
Definition E_of (f : bool) : I -> W -> I -> Prop := if f then E else B.
Definition starts_of (f : bool) := if f then starts else goals.

Lemma pres_of f : presents_weighted WT vid (next_of f) (E_of f).
Proof. destruct f; auto. Qed.
Lemma nn_of f : nonnegative WT (E_of f).
Proof. destruct f; simpl; auto. Qed.

(** Edges that are given by both functions. *)
Definition both (f : bool) : I -> W -> I -> Prop := fun i w j => E_of f i w j /\ E_of (negb f) j w i.

Lemma both_walk f i p g : wwalk WT (both f) i p g ->
  wwalk WT (E_of f) i p g /\ exists r, wwalk WT (E_of (negb f)) g r i /\ walk_weight WT r = walk_weight WT p.
Proof.
  intros H. split; [eapply wwalk_mono; [|exact H]; now intros a w b [Hab _]|].
  destruct (wwalk_reversed WT Hex _ _ _ _ H) as (r & Hr & Hrw). exists r. split; auto. eapply wwalk_mono; [|exact Hr]. now intros a w b [_ Hab].
Qed.

(** A walk of each direction, up to the same vertex: [c] is the sum of the weights. *)
Definition joined (c : W) : Prop :=
  exists s p v q g, is_start vid starts s /\ wwalk WT E s p v /\ is_start vid goals g /\ wwalk WT B g q v /\ add (walk_weight WT p) (walk_weight WT q) = c.

Notation SI f := (SInv vid WT DM (next_of f) (E_of f) (starts_of f)).

Lemma meet f Xc Hc Dc Xo Ho Do best pw q :
  SI f Xc None Hc Dc -> SI (negb f) Xo None Ho Do -> (forall i, leb best (add (Dc @ i) (Do @ i)) = true) ->
  (forall e, In e Hc -> leb pw (e_key e) = true) -> (forall e, In e Ho -> leb q (e_key e) = true) ->
  forall p i a g b, wwalk WT (both f) i p g -> ltb (Do @ g) inf = true -> leb (Do @ g) b = true -> ltb (Dc @ i) inf = true -> leb (Dc @ i) a = true ->
  leb best (add (add a (walk_weight WT p)) b) = true \/ leb (add pw q) (add (add a (walk_weight WT p)) b) = true.
Proof.
  intros HC HO Hbest Hpw Hq p. induction p as [|[w j] p IH]; intros i a g b Hw Hg Hgb Hi Hia.
  - inversion Hw; subst. left. eapply (w_leb_trans WT); [apply (Hbest g)|]. unfold walk_weight. simpl. rewrite (ea_zero WT Hex). now apply add_mono2.
  - destruct (leb pw a) eqn:Ea.
    + destruct (both_walk f _ _ _ Hw) as (_ & r & Hr & Hrw). rewrite <- Hrw.
      assert (Hsum : fold_left (fun d e => add (fst e) d) r b = add (walk_weight WT r) b) by (rewrite (fold_weight_add WT Hex); apply (ea_comm WT Hex)).
      rewrite <- (ea_assoc WT Hex), <- Hsum.
      destruct (frontier_from vid WT DM _ _ (pres_of (negb f)) (nn_of (negb f)) _ _ _ _ HO b g r i Hg Hgb Hr) as [(v & _ & _ & Hle)|(e & He & Hle)].
      * left. eapply (w_leb_trans WT); [apply (Hbest i)|]. now apply add_mono2.
      * right. apply add_mono2; auto. eapply (w_leb_trans WT); [apply Hq; exact He|exact Hle].
    + inversion Hw as [|? ? ? ? ? HE Hw']; subst. destruct HE as [HE _].
      destruct (s_cover _ _ _ _ _ _ _ _ _ _ HC i) as [(v & Hv & Hvi)|(e & He & Hv & Hk)]; [now apply lt_neq| |].
      * rewrite <- Hvi in HE. apply (pres_of f) in HE. apply in_map_iff in HE. destruct HE as ([[n ew] l] & Heq & Hn).
        simpl in Heq. injection Heq as -> <-.
        destruct (s_edges _ _ _ _ _ _ _ _ _ _ HC v _ n w l Hv Hn) as [[H1 H2]|(r & Hr & _)]; [|discriminate].
        rewrite (walk_weight_cons WT Hex), (ea_assoc WT Hex a), (ea_comm WT Hex a w).
        apply (IH (vid n) (add w a) g b); auto. eapply (w_leb_trans WT); [exact H2|]. now apply w_add_mono.
      * exfalso. pose proof (Hpw e He) as Hp. rewrite Hk in Hp. rewrite (w_leb_trans WT _ _ _ Hp Hia) in Ea. discriminate.
Qed.

(** [c] is not smaller than the weight of some path: first a part that has been found by the search in direction [f], then edges that both directions know, then a part
    found in the other direction. *)
Definition known (f : bool) (Dc Do : dm_t DM) (c : W) : Prop :=
  exists i a p g b, wwalk WT (both f) i p g /\ ltb (Do @ g) inf = true /\ leb (Do @ g) b = true /\ ltb (Dc @ i) inf = true /\ leb (Dc @ i) a = true /\
    leb (add (add a (walk_weight WT p)) b) c = true.

Lemma meet_known f Xc Hc Dc Xo Ho Do best pw q c :
  SI f Xc None Hc Dc -> SI (negb f) Xo None Ho Do -> (forall i, leb best (add (Dc @ i) (Do @ i)) = true) ->
  (forall e, In e Hc -> leb pw (e_key e) = true) -> (forall e, In e Ho -> leb q (e_key e) = true) ->
  known f Dc Do c -> leb best c = true \/ leb (add pw q) c = true.
Proof.
  intros HC HO Hbest Hpw Hq (i & a & p & g & b & Hw & Hg & Hgb & Hi & Hia & Hle).
  destruct (meet f _ _ _ _ _ _ best pw q HC HO Hbest Hpw Hq p i a g b Hw Hg Hgb Hi Hia) as [H|H]; [left|right]; eapply (w_leb_trans WT); eauto.
Qed.

(** Both functions describe the same graph. *)
Definition mutual : Prop := forall i w j, B i w j <-> E j w i.

Lemma conn_known f Xc opc Hc Dc Xo opo Ho Do c : mutual -> SI f Xc opc Hc Dc -> SI (negb f) Xo opo Ho Do -> wconnection vid WT E starts goals c -> known f Dc Do c.
Proof.
  intros Hmu HC HO (s & p & g & Hs & Hg & Hw & <-).
  assert (Hz : forall f X op H D i, SI f X op H D -> is_start vid (starts_of f) i -> ltb (D @ i) inf = true /\ leb (D @ i) zero = true).
  { intros f' X op H D i HI Hi. rewrite (s_start _ _ _ _ _ _ _ _ _ _ HI i Hi). split; [apply zero_lt_inf|apply w_leb_refl]. }
  destruct f.
  - exists s, zero, p, g, zero. destruct (Hz _ _ _ _ _ _ HC Hs). destruct (Hz _ _ _ _ _ _ HO Hg). split; [|repeat (split; [assumption|])].
    + eapply wwalk_mono; [|exact Hw]. intros i w j HE. split; [exact HE|]. now apply Hmu.
    + rewrite (ea_zero WT Hex), (zero_add WT Hex). apply w_leb_refl.
  - destruct (wwalk_reversed WT Hex _ _ _ _ Hw) as (q & Hq & Hqw). exists g, zero, q, s, zero. destruct (Hz _ _ _ _ _ _ HC Hg). destruct (Hz _ _ _ _ _ _ HO Hs).
    split; [|repeat (split; [assumption|])].
    + eapply wwalk_mono; [|exact Hq]. intros i w j HE. split; [now apply Hmu|exact HE].
    + rewrite (ea_zero WT Hex), (zero_add WT Hex), Hqw. apply w_leb_refl.
Qed.

(** Backward edges that are found are edges of the graph. *)
Definition faithful : Prop := forall g p j w i, is_start vid goals g -> wwalk WT B g p j -> B j w i -> E i w j.

Lemma faithful_walk : faithful -> forall g, is_start vid goals g -> forall q v, wwalk WT B g q v -> exists r, wwalk WT E v r g /\ walk_weight WT r = walk_weight WT q.
Proof.
  intros Hsub g Hg q. induction q as [|[w x] q IH] using rev_ind; intros v Hq.
  - inversion Hq; subst. exists []. split; [constructor|reflexivity].
  - apply wwalk_snoc_inv in Hq. destruct Hq as (j & Hq & He & ->). destruct (IH j Hq) as (r & Hr & Hrw).
    exists ((w, j) :: r). split; [econstructor; eauto|]. rewrite (walk_weight_cons WT Hex), walk_weight_snoc, Hrw. reflexivity.
Qed.

Lemma joined_wconnection c : faithful -> joined c -> wconnection vid WT E starts goals c.
Proof.
  intros Hsub (s & p & v & q & g & Hs & Hp & Hg & Hq & <-). destruct (faithful_walk Hsub g Hg q v Hq) as (r & Hr & Hrw).
  exists s, (p ++ r), g. split; auto. split; auto. split; [eapply wwalk_app; eauto|]. rewrite (walk_weight_app WT Hex), Hrw. reflexivity.
Qed.

Lemma mutual_faithful : mutual -> faithful.
Proof. intros Hmu g p j w i _ _ HB. now apply Hmu. Qed.

Definition op_of (pc : @b2_pc V L WT) : option (V * W * list (V * W * L)) :=
  match pc with SLoop => None | SEdges v w rest => Some (v, w, rest) end.

Record GI (s : state) : Prop := {
  g_cur : SI (b2_forwards s) (b2_calls (b2_current s)) (op_of (b2_pc_of s)) (b2_heap (b2_current s)) (b2_dist (b2_current s));
  g_oth : SI (negb (b2_forwards s)) (b2_calls (b2_other s)) None (b2_heap (b2_other s)) (b2_dist (b2_other s));
  g_best_inf : leb (b2_best s) inf = true;
  g_best_node : b2_best s = inf \/
    (ltb (b2_best s) inf = true /\ ltb (b2_dist (b2_current s) @ (vid (b2_node s))) inf = true /\ ltb (b2_dist (b2_other s) @ (vid (b2_node s))) inf = true /\
     b2_best s = add (b2_dist (b2_current s) @ (vid (b2_node s))) (b2_dist (b2_other s) @ (vid (b2_node s))));
  g_best_le : forall i, leb (b2_best s) (add (b2_dist (b2_current s) @ i) (b2_dist (b2_other s) @ i)) = true;
  g_goal_c : forall v w, In (v, w) (b2_calls (b2_current s)) -> ~ is_start vid (starts_of (negb (b2_forwards s))) (vid v);
  g_goal_o : forall v w, In (v, w) (b2_calls (b2_other s)) -> ~ is_start vid (starts_of (b2_forwards s)) (vid v);
  g_others_nn : leb zero (b2_others s) = true;
  g_others : match b2_pc_of s with
             | SLoop => (forall e, In e (b2_heap (b2_other s)) -> leb (b2_others s) (e_key e) = true) \/
                        (forall e, In e (b2_heap (b2_current s)) -> leb (b2_others s) (e_key e) = true)
             | SEdges v w rest => b2_others s = w
             end;
  g_fresh : b2_pc_of s = SLoop -> b2_outdated s = false -> forall e, In e (b2_heap (b2_other s)) -> leb (b2_others s) (e_key e) = true
}.

(** What is known about the returned length. *)
Definition good_length (s : state) : Prop :=
  ltb (b2_best s) inf = true /\ joined (b2_best s) /\
  (forall c, leb zero c = true -> known (b2_forwards s) (b2_dist (b2_current s)) (b2_dist (b2_other s)) c -> leb (b2_best s) (add c c) = true) /\
  (b2_outdated s = false -> forall c, known (b2_forwards s) (b2_dist (b2_current s)) (b2_dist (b2_other s)) c -> leb (b2_best s) c = true) /\
  b2_pc_of s = SLoop.

Lemma conn_nonneg c : wconnection vid WT E starts goals c -> leb zero c = true.
Proof. intros (s & p & g & _ & _ & Hw & <-). eapply wzero_le_walk; [exact HnnE|exact Hw]. Qed.

(** An edge weight sum that reaches infinity. *)
Definition too_far : Prop := exists f s p i, is_start vid (starts_of f) s /\ wwalk WT (E_of f) s p i /\ leb inf (walk_weight WT p) = true.

Lemma too_far_long : mutual -> too_far -> too_long vid WT E starts goals.
Proof.
  intros Hmu (f & s & p & i & Hs & Hp & Hi). destruct f; [left; exists s, p, i; auto|right]. exists s, p, i. split; auto. split; auto.
  eapply wwalk_mono; [|exact Hp]. intros a w b. simpl. apply Hmu.
Qed.

(** In direction [f], no walk leads to the other end. *)
Definition exhausted (f : bool) : Prop := forall s p i, is_start vid (starts_of f) s -> wwalk WT (E_of f) s p i -> ~ is_start vid (starts_of (negb f)) i.

Lemma exhausted_none f : mutual -> exhausted f -> forall c, ~ wconnection vid WT E starts goals c.
Proof.
  intros Hmu Hx c (s & p & g & Hs & Hg & Hw & _). destruct f; [exact (Hx s p g Hs Hw Hg)|].
  destruct (wwalk_reversed WT Hex _ _ _ _ Hw) as (q & Hq & _). apply (Hx g q s Hg); auto. eapply wwalk_mono; [|exact Hq]. intros a w b HE. now apply Hmu.
Qed.

Lemma best_real s : GI s -> b2_best s <> inf -> ltb (b2_best s) inf = true /\ joined (b2_best s).
Proof.
  intros G Hne. destruct (g_best_node s G) as [?|(H1 & H2 & H3 & H4)]; [contradiction|]. split; auto.
  destruct (s_real _ _ _ _ _ _ _ _ _ _ (g_cur s G) (vid (b2_node s))) as (a & p & Ha & Hp & Hpw); [now apply lt_neq|].
  destruct (s_real _ _ _ _ _ _ _ _ _ _ (g_oth s G) (vid (b2_node s))) as (b & q & Hbb & Hq & Hqw); [now apply lt_neq|].
  destruct (b2_forwards s); [exists a, p, (vid (b2_node s)), q, b|exists b, q, (vid (b2_node s)), p, a]; repeat (split; [assumption|]).
  - rewrite Hpw, Hqw. auto.
  - rewrite Hpw, Hqw, H4. apply (ea_comm WT Hex).
Qed.

Lemma eqb_inf s : GI s -> (b2_best s = inf /\ w_eqb WT inf (b2_best s) = true) \/ (b2_best s <> inf /\ w_eqb WT inf (b2_best s) = false).
Proof.
  intros G. unfold w_eqb. destruct (g_best_node s G) as [Heq|(H1 & _)].
  - left. rewrite Heq, w_leb_refl. auto.
  - right. split; [now apply lt_neq|]. apply w_ltb_lt in H1. rewrite H1. reflexivity.
Qed.

Lemma keys_zero f X op H D : SI f X op H D -> forall e, In e H -> leb zero (e_key e) = true.
Proof. intros HI e He. eapply (w_leb_trans WT); [|apply (s_heap _ _ _ _ _ _ _ _ _ _ HI e He)]. apply (s_nn _ _ _ _ _ _ _ _ _ _ HI). Qed.

Definition step_good (s : state) (x : step_result state (@b2_result V L WT) exn) : Prop :=
  match x with
  | Go o s' => o = [] /\ GI s'
  | Halt o s' => (silent = true /\ o = [{| b2_length := inf; b2_path := of_nothing labeled |}] /\ exists f, exhausted f) \/
                 (o = [b2_found V_dec vid WT DM PM LM labeled build s] /\ good_length s)
  | Raise o e s' => o = [] /\ ((e = KeyErrorNotFound /\ silent = false /\ exists f, exhausted f) \/
                    (e = RuntimeErrorLimit /\ limit_check (b2_limit (b2_current s)) = None) \/ (e = OverflowErrorDistance /\ too_far))
  end.

Lemma empty_exhausted s : GI s -> b2_pc_of s = SLoop -> b2_heap (b2_current s) = [] -> exhausted (b2_forwards s).
Proof.
  intros G Hpc HH a p g Ha Hw Hg.
  pose proof (g_cur s G) as HC. rewrite Hpc, HH in HC. simpl in HC.
  destruct (frontier vid WT DM _ _ (pres_of _) (nn_of _) _ _ _ _ HC a p g Ha Hw) as [(v & Hv & Hvg & _)|(e & [] & _)].
  apply (g_goal_c s G v _ Hv). now rewrite Hvg.
Qed.

Lemma GI_step s : GI s -> step_good s (step s).
Proof.
  intros G. pose proof (eqb_inf s G) as Heqb. unfold b2_step, b2_failed. destruct (b2_pc_of s) as [|v w [|[[n ew] l] rest]] eqn:Epc.
  - pose proof (g_cur s G) as HC. pose proof (g_oth s G) as HO. rewrite Epc in HC. simpl in HC.
    destruct (b2_heap (b2_current s)) as [|[[w no] v] h] eqn:Eh.
    { pose proof (empty_exhausted s G Epc Eh) as Hno. destruct silent eqn:Es; simpl; eauto 10. }
    pose proof (head_min WT _ _ (s_sorted _ _ _ _ _ _ _ _ _ _ HC)) as Hmin. simpl in Hmin.
    cbv zeta. cbn [b2_dist b2_popped b2_limit].
    destruct (ltb (b2_dist (b2_current s) @ (vid v)) w) eqn:Est.
    { (* an outdated entry *)
      simpl. split; auto. pose proof (stale_inv vid WT DM _ _ _ _ _ _ _ HC Est) as HC'. 
      constructor; simpl; rewrite ?negb_involutive; auto.
      - apply (g_best_inf s G).
      - destruct (g_best_node s G) as [?|(H1 & H2 & H3 & H4)]; auto. right. repeat (split; [assumption|]). rewrite (ea_comm WT Hex). exact H4.
      - intros i. rewrite (ea_comm WT Hex). apply (g_best_le s G).
      - intros u w' Hu. apply (g_goal_o s G u w' Hu).
      - intros u w' Hu. apply (g_goal_c s G u w' Hu).
      - apply (g_others_nn s G).
      - pose proof (g_others s G) as Ho. rewrite Epc in Ho. destruct Ho as [Ho|Ho]; [now right|]. left. intros e He. apply Ho. rewrite Eh. now right.
      - discriminate. }
    assert (Hkey : w = b2_dist (b2_current s) @ (vid v) /\ ltb w inf = true).
    { destruct (s_heap _ _ _ _ _ _ _ _ _ _ HC (w, no, v)) as [H1 H2]; [now left|]. apply w_ltb_ge in Est. split; [now apply (w_leb_antisym WT)|exact H2]. }
    assert (Hw0 : leb zero w = true) by (apply (keys_zero _ _ _ _ _ HC (w, no, v)); now left).
    destruct (negb (w_eqb WT inf (b2_best s)) && leb (b2_best s) (add w (b2_others s))) eqn:Ebr.
    { (* the end of the search *)
      simpl. right. split; [unfold b2_found; simpl; destruct (b2_forwards s); reflexivity|]. apply andb_true_iff in Ebr. destruct Ebr as [Hne Hle]. apply negb_true_iff in Hne.
      destruct Heqb as [[_ C]|[Hni _]]; [congruence|]. destruct (best_real s G Hni) as [H1 H2].
      set (kn := known (b2_forwards s) (b2_dist (b2_current s)) (b2_dist (b2_other s))).
      assert (Hmeet : forall q, (forall e, In e (b2_heap (b2_other s)) -> leb q (e_key e) = true) -> forall c, kn c -> leb (b2_best s) c = true \/ leb (add w q) c = true).
      { intros q Hq c Hc. eapply (meet_known (b2_forwards s)); eauto. apply (g_best_le s G). }
      assert (Hfar : (forall e, In e (b2_heap (b2_other s)) -> leb (b2_others s) (e_key e) = true) -> forall c, kn c -> leb (b2_best s) c = true).
      { intros Hq c Hc. destruct (Hmeet _ Hq c Hc) as [?|H]; auto. eapply (w_leb_trans WT); eauto. }
      split; auto. split; auto. split; [|split; [|exact Epc]].
      - intros c Hc0 Hc. pose proof (g_others s G) as Ho. rewrite Epc in Ho. destruct Ho as [Ho|Ho].
        + apply (w_leb_trans WT) with c; [now apply Hfar|]. now apply add_le_l.
        + destruct (Hmeet zero (keys_zero _ _ _ _ _ HO) c Hc) as [H|H]; [apply (w_leb_trans WT) with c; [exact H|now apply add_le_l]|].
          rewrite (ea_zero WT Hex) in H. eapply (w_leb_trans WT); [exact Hle|]. apply add_mono2; auto.
          apply (w_leb_trans WT) with w; auto. apply (Ho (w, no, v)). rewrite Eh. now left.
      - intros Hof c Hc. apply Hfar; auto. apply (g_fresh s G); auto. }
    destruct (limit_check (b2_limit (b2_current s))) as [lim|] eqn:El.
    2:{ simpl. split; auto. }
    (* a vertex is expanded *)
    simpl. split; auto. pose proof (expand_inv vid WT DM _ _ _ _ _ _ _ _ _ HC Est) as HC'.
    constructor; simpl; auto.
    + apply (g_best_inf s G).
    + apply (g_best_node s G).
    + apply (g_best_le s G).
    + intros u w' [Heq|Hu]; [|apply (g_goal_c s G u w' Hu)]. injection Heq as <- <-. intros Hg.
      pose proof (g_best_le s G (vid v)) as Hle. rewrite (s_start _ _ _ _ _ _ _ _ _ _ HO _ Hg), (ea_zero WT Hex) in Hle.
      destruct Hkey as [Hk Hki]. rewrite <- Hk in Hle.
      assert (Hbi : ltb (b2_best s) inf = true) by (eapply w_le_lt_trans; eauto).
      destruct Heqb as [[C _]|[_ Hni]]; [rewrite C, w_lt_irrefl in Hbi; discriminate|]. rewrite Hni in Ebr. simpl in Ebr.
      rewrite (w_leb_trans WT _ w _ Hle) in Ebr; [discriminate|]. apply add_le_l; auto. apply (g_others_nn s G).
    + apply (g_goal_o s G).
    + discriminate.
  - (* the end of the expansion *)
    simpl. split; auto. pose proof (g_cur s G) as HC. rewrite Epc in HC. simpl in HC.
    destruct (s_op _ _ _ _ _ _ _ _ _ _ HC _ _ _ eq_refl) as (_ & _ & _ & Hk). apply done_inv in HC.
    pose proof (g_others s G) as Ho. rewrite Epc in Ho. subst w.
    constructor; simpl; rewrite ?negb_involutive; auto.
    + apply (g_oth s G).
    + apply (g_best_inf s G).
    + destruct (g_best_node s G) as [?|(H1 & H2 & H3 & H4)]; auto. right. repeat (split; [assumption|]). rewrite (ea_comm WT Hex). exact H4.
    + intros i. rewrite (ea_comm WT Hex). apply (g_best_le s G).
    + intros u w' Hu. apply (g_goal_o s G u w' Hu).
    + intros u w' Hu. apply (g_goal_c s G u w' Hu).
    + apply (g_others_nn s G).
  - pose proof (g_cur s G) as HC. rewrite Epc in HC. simpl in HC. pose proof (g_oth s G) as HO.
    destruct (s_op _ _ _ _ _ _ _ _ _ _ HC _ _ _ eq_refl) as (HvX & Hinc & _ & Hk).
    pose proof (next_E vid WT _ _ (pres_of (b2_forwards s)) _ _ _ _ (Hinc _ (or_introl eq_refl))) as HE.
    destruct (leb inf (add ew w)) eqn:Eov.
    { simpl. split; auto. right; right. split; auto.
      destruct (s_X _ _ _ _ _ _ _ _ _ _ HC v w HvX) as [Hd Hdi].
      destruct (s_real _ _ _ _ _ _ _ _ _ _ HC (vid v)) as (a & p & Ha & Hp & Hpw); [rewrite Hd; now apply lt_neq|].
      exists (b2_forwards s), a, (p ++ [(ew, vid n)]), (vid n). split; [exact Ha|]. split; [eapply wwalk_snoc; eauto|].
      rewrite walk_weight_snoc, Hpw, Hd. exact Eov. }
    destruct (leb (b2_dist (b2_current s) @ (vid n)) (add ew w)) eqn:Ele.
    { simpl. split; auto. destruct G as [? ? ? ? ? ? ? ? Go ?]. rewrite Epc in Go. constructor; simpl; auto; [|discriminate]. eapply skip_inv; eauto. }
    simpl. split; auto.
    pose proof (improve_inv I_dec vid WT DM _ _ (pres_of _) (nn_of _) _ _ _ _ _ _ _ _ (b2_no (b2_current s)) _ _ HC Eov Ele) as HC'.
    set (nw := add ew w) in *. set (total := add nw (b2_dist (b2_other s) @ (vid n))).
    assert (Hsame : dm_get DM (vid n) (dm_set DM (vid n) nw (b2_dist (b2_current s))) = nw) by apply dm_get_set_same.
    assert (Hoth : forall i, i <> vid n -> dm_get DM i (dm_set DM (vid n) nw (b2_dist (b2_current s))) = b2_dist (b2_current s) @ i) by (intros; apply dm_get_set_other; auto).
    assert (Hnew : leb (if negb (leb (b2_best s) total) then total else b2_best s) (b2_best s) = true /\
                   leb (if negb (leb (b2_best s) total) then total else b2_best s) total = true).
    { destruct (leb (b2_best s) total) eqn:Et; simpl; split; auto; try apply w_leb_refl. apply w_lt_le, w_ltb_lt. exact Et. }
    destruct Hnew as [Hnew1 Hnew2].
    assert (Hnwi : ltb nw inf = true) by (now apply w_ltb_lt).
    assert (Hnw0 : leb zero nw = true).
    { pose proof (s_nn _ _ _ _ _ _ _ _ _ _ HC' (vid n)) as H0. rewrite Hsame in H0. exact H0. }
    constructor; simpl; auto.
    + eapply (w_leb_trans WT); [exact Hnew1|apply (g_best_inf s G)].
    + destruct (leb (b2_best s) total) eqn:Et; simpl.
      * destruct (g_best_node s G) as [?|(H1 & H2 & H3 & H4)]; auto. right. split; auto.
        destruct (I_dec (vid (b2_node s)) (vid n)) as [Heq|Hne].
        -- rewrite Heq, Hsame in *. split; auto. split; auto. apply (w_leb_antisym WT); [exact Et|].
           rewrite H4. unfold total. apply add_mono2; auto; [|apply w_leb_refl]. apply w_lt_le, w_ltb_lt. exact Ele.
        -- rewrite Hoth by auto. auto.
      * right. assert (Hti : ltb total inf = true). { eapply w_lt_le_trans; [apply w_ltb_lt; exact Et|apply (g_best_inf s G)]. }
        rewrite Hsame. split; auto. split; auto. split; auto.
        apply w_le_neq_lt; [apply (s_le_inf _ _ _ _ _ _ _ _ _ _ HO)|]. intros C. unfold total in Hti. rewrite C in Hti.
        eapply w_le_lt_contra; [|exact Hti]. now apply w_add_infl.
    + intros i. destruct (I_dec i (vid n)) as [->|Hne]; [rewrite Hsame; exact Hnew2|]. rewrite Hoth by auto.
      eapply (w_leb_trans WT); [exact Hnew1|apply (g_best_le s G)].
    + apply (g_goal_c s G).
    + apply (g_goal_o s G).
    + apply (g_others_nn s G).
    + pose proof (g_others s G) as Ho. rewrite Epc in Ho. exact Ho.
    + discriminate.
Qed.

Hypothesis Hdisj : forall i, is_start vid starts i -> is_start vid goals i -> False.

Lemma GI_init first lim : GI (b2_init vid WT DM PM LM build first starts goals lim).
Proof.
  pose proof (init_inv I_dec vid WT DM (next_of true) (E_of true) starts) as H1.
  pose proof (init_inv I_dec vid WT DM (next_of false) (E_of false) goals) as H2.
  constructor; try (simpl; auto; fail).
  - simpl. apply w_leb_refl.
  - intros i. simpl b2_best. cbn [b2_init b2_current b2_other b2_start b2_dist].
    assert (Hz : forall l, leb zero (dm_get DM i (define_distances WT DM None (map (fun v => (vid v, zero)) l) false)) = true).
    { intros l. apply (s_nn _ _ _ _ _ _ _ _ _ _ (init_inv I_dec vid WT DM (next_of true) (E_of true) l)). }
    destruct (in_dec I_dec i (map vid starts)) as [Hs|Hs].
    + rewrite (D0_other vid WT DM goals i) by (intros Hg; apply (Hdisj i Hs Hg)). apply w_add_infl, Hz.
    + rewrite (D0_other vid WT DM starts i) by exact Hs. apply add_le_l; auto.
  - apply w_leb_refl.
  - left. intros e He. eapply keys_zero; [exact H2|exact He].
  - intros _ _ e He. eapply keys_zero; [exact H2|exact He].
Qed.
End Both.
