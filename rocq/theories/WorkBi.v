(** Proofs for C105: the number of passes of bidirectional searches and of the traversal for infinite branching. *)
From Coq Require Import List ZArith Bool Arith Lia Permutation.
From Verif Require Import Machine GearSpec Spec TraversalSpec Common Weight WeightSpec HeapModel HeapProofs BFSModel BiBFSModel BiSpec BiReadSpec BiBFSRead DijkstraModel
  BiSPModel BiSPSpec BiSPSide BiSPProofs BiSPMore BiSPRun InfModel WorkBiSpec WorkSpec WorkProofs WorkMore.
Import ListNotations.

(** ** BSearchBreadthFirst *)
Section BFS.
Context {V I L : Type} (vid : V -> I) (VS : VSet I) (PM : PMap I V) (LM : PMap I L) (next : V -> list (V * L)) (cfg : bfs_cfg).
Notation state := (@bfs_state V I L VS PM LM).
Lemma bfs_pot_step s o s' : bfs_step vid VS PM LM next cfg s = Go o s' -> bfs_pot VS PM LM s' + work next 1 4 (b_calls s) + 1 <= bfs_pot VS PM LM s + work next 1 4 (b_calls s').
Proof.
  unfold bfs_step, bfs_pot. destruct (b_pc s) as [| |v [|[n l] rest]] eqn:Epc.
  - destruct (b_to_expand s) eqn:Eq; [discriminate|]. intros HS. injection HS as <- <-. cbn [b_set_pc b_pc b_to_expand b_calls]. rewrite Eq. lia.
  - destruct (b_to_expand s) eqn:Eq.
    + intros HS. injection HS as <- <-. cbn [b_pc b_calls]. lia.
    + destruct (limit_check _); [|discriminate]. intros HS. injection HS as <- <-. cbn [b_pc b_calls]. rewrite work_cons. lia.
  - intros HS. injection HS as <- <-. cbn [b_set_pc b_pc b_to_expand b_calls length]. destruct (b_to_expand s); lia.
  - destruct (negb _ && _); intros HS; injection HS as <- <-; cbn [b_set_pc bfs_mark b_pc b_calls length]; lia.
Qed.

(** The vertices in the order in which they are expanded: the start vertices, and then each id at most once *)
Hypothesis Ht : bc_is_tree cfg = false.
Variable starts : list V.
Definition in_order (s : state) : Prop := exists l, rev (b_calls s) ++ b_to_expand s ++ b_next s = starts ++ l /\
  NoDup (map vid l) /\ (forall v, In v l -> vs_mem VS (vid v) (b_visited s) = true) /\ (b_pc s = BWhile -> b_next s = []).
Lemma in_order_init lim : in_order (bfs_init vid VS PM LM cfg starts None lim).
Proof. exists []. cbn. split; [reflexivity|]. split; [constructor|]. split; [intros v []|reflexivity]. Qed.
Lemma in_order_step s o s' : in_order s -> bfs_step vid VS PM LM next cfg s = Go o s' -> in_order s'.
Proof using Ht.
  intros (l & H1 & H2 & H3 & H4). unfold bfs_step. destruct (b_pc s) as [| |v [|[n lb] rest]] eqn:Epc.
  - destruct (b_to_expand s) eqn:Eq; [discriminate|]. intros HS. injection HS as <- <-. exists l. cbn [b_set_pc b_pc b_to_expand b_next b_calls b_visited]. rewrite Eq. split; [exact H1|]. split; [exact H2|]. split; [exact H3|discriminate].
  - destruct (b_to_expand s) as [|v r] eqn:Eq.
    + intros HS. injection HS as <- <-. exists l. cbn [b_pc b_to_expand b_next b_calls b_visited]. split; [rewrite app_nil_r; exact H1|]. split; [exact H2|]. split; [exact H3|reflexivity].
    + destruct (limit_check _); [|discriminate]. intros HS. injection HS as <- <-. exists l. cbn [b_pc b_to_expand b_next b_calls b_visited rev]. split; [rewrite <- H1, <- !app_assoc; reflexivity|].
      split; [exact H2|]. split; [exact H3|discriminate].
  - intros HS. injection HS as <- <-. exists l. cbn [b_set_pc b_pc b_to_expand b_next b_calls b_visited]. split; [exact H1|]. split; [exact H2|]. split; [exact H3|discriminate].
  - destruct (negb _ && _) eqn:Em; intros HS; injection HS as <- <-.
    + exists l. cbn [b_set_pc b_pc b_to_expand b_next b_calls b_visited]. split; [exact H1|]. split; [exact H2|]. split; [exact H3|discriminate].
    + exists (l ++ [n]). cbn [b_set_pc bfs_mark b_pc b_to_expand b_next b_calls b_visited]. rewrite Ht in *. cbn [negb andb] in Em. split; [|split; [|split]].
      * rewrite (app_assoc starts), <- H1, <- !app_assoc. reflexivity.
      * rewrite map_app. cbn [map]. apply (Permutation_NoDup (Permutation_cons_append (map vid l) (vid n))). constructor; [|exact H2].
        intros Hin. apply in_map_iff in Hin. destruct Hin as (u & Hu & Hin). apply H3 in Hin. rewrite Hu in Hin. congruence.
      * intros u Hu. apply vs_mem_add. apply in_app_iff in Hu. destruct Hu as [Hu|[<-|[]]]; [right; auto|now left].
      * discriminate.
Qed.
Lemma in_order_work s deg ids : in_order s -> (forall v, length (next v) <= deg (vid v)) -> (forall v, In v (b_calls s) -> In (vid v) ids) ->
  work next 1 4 (b_calls s) <= work next 1 4 starts + graph_work deg 1 4 ids.
Proof.
  intros (l & H1 & H2 & _) Hd Hi. rewrite <- work_rev. symmetry in H1. destruct (app_eq_app _ _ _ _ H1) as (m & [(E1 & E2)|(E1 & E2)]).
  - rewrite E1, work_app. lia.
  - rewrite E1, work_app. assert (work next 1 4 m <= graph_work deg 1 4 ids); [|lia]. apply (work_graph vid); auto.
    + rewrite E2, map_app in H2. clear -H2. induction (map vid m) as [|x r IH]; [constructor|]. cbn in H2. inversion H2; subst. constructor; [|auto]. intros Hx. apply H1. apply in_app_iff. auto.
    + intros v Hv. apply Hi. apply in_rev. rewrite E1. apply in_app_iff. auto.
Qed.
End BFS.

Section BiBFS.
Context {V I L : Type} (V_dec : forall a b : V, {a = b} + {a <> b}) (I_dec : forall a b : I, {a = b} + {a <> b}) (vid : V -> I)
  (VS : VSet I) (PM : PMap I V) (LM : PMap I L) (next_f next_b : V -> list (V * L)) (labeled build silent : bool).
Notation state := (@bb_state V I L VS PM LM).
Notation step := (bb_step V_dec vid VS PM LM next_f next_b labeled build silent).
Notation cfg := (bb_cfg labeled build).
Notation nx f := (if f : bool then next_f else next_b).
Notation cur s := (bs_state (bb_current s)).
Notation oth s := (bs_state (bb_other s)).

Lemma consume_go reports : forall (s : state) o s', bb_consume V_dec vid VS PM LM labeled build s reports = Go o s' ->
  (bb_forwards s' = bb_forwards s /\ cur s' = cur s /\ oth s' = oth s) \/ (bb_forwards s' = negb (bb_forwards s) /\ cur s' = oth s /\ oth s' = cur s).
Proof.
  induction reports as [|r rest IH]; intros s o s'; cbn [bb_consume].
  - intros HS. injection HS as <- <-. auto.
  - destruct (match bb_prev s with Some u => _ | None => _ end).
    + intros HS. injection HS as <- <-. right. auto.
    + destruct (vs_mem _ _ _); [discriminate|]. intros HS. apply IH in HS. cbn [bb_set_current bb_forwards bb_current bb_other bs_state] in HS. exact HS.
Qed.
Lemma bb_moves (s : state) o s' : step s = Go o s' -> exists o1 b, bfs_step vid VS PM LM (nx (bb_forwards s)) cfg (cur s) = Go o1 b /\
  ((bb_forwards s' = bb_forwards s /\ cur s' = b /\ oth s' = oth s) \/ (bb_forwards s' = negb (bb_forwards s) /\ cur s' = oth s /\ oth s' = b)).
Proof.
  unfold bb_step. destruct (bfs_step _ _ _ _ _ _ _) as [o1 b|o1 b|o1 x b].
  - intros HS. apply consume_go in HS. cbn [bb_set_current bb_forwards bb_current bb_other bs_state] in HS. eauto.
  - unfold bb_fail. destruct silent; discriminate.
  - discriminate.
Qed.

Definition side_order starts goals (s : state) : Prop := in_order vid VS PM LM (if bb_forwards s then starts else goals) (cur s) /\ in_order vid VS PM LM (if bb_forwards s then goals else starts) (oth s).

Lemma bb_work starts goals lim n os s : bb_run V_dec I_dec vid VS PM LM next_f next_b labeled build silent starts goals lim n = (os, Running s) ->
  n <= 2 + work next_f 1 4 (read_forwards s) + work next_b 1 4 (read_backwards s).
Proof.
  unfold bb_run. destruct (bb_common _ _ _ _); [discriminate|]. intros HR.
  apply (run_potential _ (fun s => bfs_pot VS PM LM (cur s) + bfs_pot VS PM LM (oth s)) (fun s => work next_f 1 4 (read_forwards s) + work next_b 1 4 (read_backwards s))) in HR.
  - change (n + (bfs_pot VS PM LM (cur s) + bfs_pot VS PM LM (oth s)) + (work next_f 1 4 [] + work next_b 1 4 []) <= 1 + 1 + (work next_f 1 4 (read_forwards s) + work next_b 1 4 (read_backwards s))) in HR. rewrite !work_nil in HR. lia.
  - clear. intros s o s' HS. destruct (bb_moves s o s' HS) as (o1 & b & Hb & [(E1 & E2 & E3)|(E1 & E2 & E3)]); apply bfs_pot_step in Hb;
      unfold read_forwards, read_backwards; rewrite E1; destruct (bb_forwards s); cbn [negb]; rewrite E2, E3; lia.
Qed.
Lemma bb_order starts goals lim n os s : bb_run V_dec I_dec vid VS PM LM next_f next_b labeled build silent starts goals lim n = (os, Running s) -> side_order starts goals s.
Proof.
  unfold bb_run. destruct (bb_common _ _ _ _); [discriminate|]. intros HR.
  assert (HS : forall (pre : list (@bb_result V L)) s o s', side_order starts goals s -> step s = Go o s' -> side_order starts goals s').
  { clear. intros _ s o s' (H1 & H2) HS. destruct (bb_moves s o s' HS) as (o1 & b & Hb & [(E1 & E2 & E3)|(E1 & E2 & E3)]);
      pose proof (in_order_step vid VS PM LM _ cfg eq_refl _ _ _ _ H1 Hb) as H1'; unfold side_order; rewrite E1, E2, E3; destruct (bb_forwards s); split; assumption. }
  assert (H0 : side_order starts goals (bb_init vid VS PM LM labeled build starts goals lim)) by (split; apply in_order_init).
  exact (run_inv_any step (fun _ s => side_order starts goals s) HS n [] _ os _ H0 HR).
Qed.
Lemma bb_work_graph (E : I -> I -> Prop) starts goals (deg_f deg_b : I -> nat) ids_f ids_b lim n os r : presents vid next_f E -> presents vid next_b (fun i j => E j i) ->
  (forall v, length (next_f v) <= deg_f (vid v)) -> (forall v, length (next_b v) <= deg_b (vid v)) ->
  (forall s p i, is_start vid starts s -> walk E s p i -> (forall l, connection vid E starts goals l -> 2 * length p < l) -> In i ids_f) ->
  (forall g p i, is_start vid goals g -> walk (fun i j => E j i) g p i -> (forall l, connection vid E starts goals l -> 2 * length p + 1 < l) -> In i ids_b) ->
  bb_run V_dec I_dec vid VS PM LM next_f next_b labeled build silent starts goals lim n = (os, r) ->
  2 + work next_f 1 4 starts + graph_work deg_f 1 4 ids_f + work next_b 1 4 goals + graph_work deg_b 1 4 ids_b < n -> forall s, r <> Running s.
Proof.
  intros Hf Hb Df Db If Ib HR Hn s ->. pose proof (bb_work _ _ _ _ _ _ HR) as HW. pose proof (bb_order _ _ _ _ _ _ HR) as (O1 & O2).
  destruct (bb_reads V_dec I_dec vid VS PM LM next_f next_b labeled build silent E Hf Hb starts goals lim n os _ HR) as (R1 & R2). cbn [outcome_state] in R1, R2.
  assert (H1 : forall v, In v (read_forwards s) -> In (vid v) ids_f) by (intros v Hv; destruct (R1 v Hv) as (k & (s0 & p & K1 & K2 & <-) & K3); eauto).
  assert (H2 : forall v, In v (read_backwards s) -> In (vid v) ids_b) by (intros v Hv; destruct (R2 v Hv) as (k & (s0 & p & K1 & K2 & <-) & K3); eauto).
  unfold read_forwards, read_backwards in *. destruct (bb_forwards s).
  - pose proof (in_order_work vid VS PM LM next_f starts _ deg_f ids_f O1 Df H1). pose proof (in_order_work vid VS PM LM next_b goals _ deg_b ids_b O2 Db H2). lia.
  - pose proof (in_order_work vid VS PM LM next_f starts _ deg_f ids_f O2 Df H1). pose proof (in_order_work vid VS PM LM next_b goals _ deg_b ids_b O1 Db H2). lia.
Qed.
End BiBFS.

(** ** BSearchShortestPath *)
Section BiSP.
Context {V I L : Type} (V_dec : forall a b : V, {a = b} + {a <> b}) (I_dec : forall a b : I, {a = b} + {a <> b}) (vid : V -> I)
  (WT : Weights) (DM : DMap I (w_t WT) (w_inf WT)) (PM : PMap I V) (LM : PMap I L) (next_f next_b : V -> list (V * w_t WT * L)) (labeled build silent : bool).
Notation state := (@b2_state V I L WT DM PM LM).
Notation step := (b2_step V_dec vid WT DM PM LM next_f next_b labeled build silent).
Definition b2_pot (s : state) : nat :=
  length (b2_heap (b2_current s)) + length (b2_heap (b2_other s)) + match b2_pc_of s with SLoop => 0 | SEdges _ _ rest => 2 * length rest + 1 end.
Definition b2_paid (s : state) : nat := work next_f 2 1 (asked_forwards s) + work next_b 2 1 (asked_backwards s).

Lemma b2_pot_step s o s' : step s = Go o s' -> b2_pot s' + b2_paid s + 1 <= b2_pot s + b2_paid s'.
Proof.
  intros HS. apply moves in HS. unfold b2_pot, b2_paid, asked_forwards, asked_backwards.
  destruct HS as [w no v h s' Hpc Hh Hst E1 E2 E3 E4 E5|w no v h lim' s' Hpc Hh Hst Hbr Hl E1 E2 E3 E4 E5|v w s' Hpc E1 E2 E3 E4 E5|v w n ew lb rest s' Hpc Hov Hle E1 E2 E3 E4 E5|v w n ew lb rest s' Hpc Hov Hle E1 E2 E3 E4 E5];
    rewrite E1, E2, E3, E4, Hpc in *; destruct (b2_forwards s); cbn [negb]; cbn [next_of b2_popped b2_expanded b2_improved b2_heap b2_calls length map fst]; rewrite ?Hh, ?work_cons, ?heappush_length; cbn [length]; lia.
Qed.
Lemma b2_work first starts goals lim n os s : run step n (b2_init vid WT DM PM LM build first starts goals lim) = (os, Running s) ->
  n <= length starts + length goals + work next_f 2 1 (asked_forwards s) + work next_b 2 1 (asked_backwards s).
Proof.
  intros HR. apply (run_potential _ b2_pot b2_paid b2_pot_step) in HR. unfold b2_paid in HR.
  cbn [b2_init b2_start b2_pot b2_pc_of b2_current b2_other b2_heap b2_calls asked_forwards asked_backwards b2_forwards map] in HR.
  unfold b2_pot in HR at 2. unfold asked_forwards, asked_backwards in HR. cbn [b2_init b2_start b2_pot b2_pc_of b2_current b2_other b2_heap b2_calls b2_forwards map] in HR.
  rewrite !heapify_length, !entries_length, !work_nil in HR. unfold asked_forwards, asked_backwards. lia.
Qed.
End BiSP.

Section BiSPGraph.
Context {V I L : Type} (V_dec : forall a b : V, {a = b} + {a <> b}) (I_dec : forall a b : I, {a = b} + {a <> b}) (vid : V -> I)
  (WT : Weights) (Hex : exact_addition WT) (DM : DMap I (w_t WT) (w_inf WT)) (PM : PMap I V) (LM : PMap I L) (next_f next_b : V -> list (V * w_t WT * L)) (labeled build silent : bool).
Variable E : I -> w_t WT -> I -> Prop.
Notation B := (fun i w j => E j w i).
Hypothesis Hf : presents_weighted WT vid next_f E.
Hypothesis Hb : presents_weighted WT vid next_b B.
Hypothesis Hnn : nonnegative WT E.
Variables starts goals : list V.
Notation state := (@b2_state V I L WT DM PM LM).
Notation step := (b2_step V_dec vid WT DM PM LM next_f next_b labeled build silent).
Notation GI := (GI vid WT DM PM LM next_f next_b E B starts goals).

Lemma work_degree {A} (next : V -> list A) d l : (forall v, length (next v) <= d) -> work next 2 1 l <= (2 * d + 1) * length l.
Proof. intros Hd. induction l as [|v l IH]; [rewrite work_nil; lia|]. rewrite work_cons. cbn [length]. specialize (Hd v). nia. Qed.

Lemma b2_work_graph d_f d_b ids_f ids_b lim n os s :
  (forall v, length (next_f v) <= d_f) -> (forall v, length (next_b v) <= d_b) ->
  covered vid WT E (wconnection vid WT E starts goals) starts ids_f -> covered vid WT (fun i w j => E j w i) (wconnection vid WT E starts goals) goals ids_b ->
  b2_run V_dec I_dec vid WT DM PM LM next_f next_b labeled build silent starts goals lim n = (os, Running (Some s)) ->
  n <= length starts + length goals + (2 * d_f + 1) * (length ids_f + length starts) + (2 * d_b + 1) * (length ids_b + length goals).
Proof using Hex Hf Hb Hnn.
  intros Df Db Bf0 Bb0 HR.
  assert (Bf : bounded vid WT E B starts goals true ids_f).
  { destruct Bf0 as [H|(c & H1 & H2)]; [left; intros s0 p i K1 K2; apply H; exists s0, p; auto|right]. split; [intros i w j; tauto|]. exists c. split; [exact H1|exact H2]. }
  assert (Bb : bounded vid WT E B starts goals false ids_b).
  { destruct Bb0 as [H|(c & H1 & H2)]; [left; intros s0 p i K1 K2; apply H; exists s0, p; auto|right]. split; [intros i w j; tauto|]. exists c. split; [exact H1|exact H2]. }
  assert (HnB : nonnegative WT B) by (intros i w j Hx; exact (Hnn _ _ _ Hx)).
  assert (HR' : exists first os', b2_common I_dec vid starts goals = None /\ run step n (b2_init vid WT DM PM LM build first starts goals lim) = (os', Running s)).
  { unfold b2_run in HR. destruct starts as [|first r0]; [unfold b2_failed in HR; destruct silent; discriminate|]. destruct goals as [|g r1]; [unfold b2_failed in HR; destruct silent; discriminate|].
    destruct (b2_common _ _ _ _) eqn:Hc; [discriminate|]. destruct (run _ _ _) as [os' r] eqn:Er. exists first, os'. split; [reflexivity|]. destruct r; try discriminate. injection HR as _ <-. exact Er. }
  destruct HR' as (first & os' & Hcm & HR'). pose proof (common2_none I_dec vid starts goals Hcm) as Hdisj.
  pose proof (b2_work V_dec vid WT DM PM LM next_f next_b labeled build silent first starts goals lim n os' s HR') as HW.
  set (P := fun s : state => GI s /\ (forall g, counted I_dec vid WT DM PM LM starts goals g (side_of WT DM PM LM g s)) /\ (forall g, within vid WT DM PM LM true ids_f g (side_of WT DM PM LM g s)) /\ (forall g, within vid WT DM PM LM false ids_b g (side_of WT DM PM LM g s))).
  assert (HP : P s).
  { assert (HS : forall (pre : list (@b2_result V L WT)) s o s', P s -> step s = Go o s' -> P s').
    { intros _ a o a' (G & HC & W1 & W2) Hs. pose proof (moves _ _ _ _ _ _ _ _ _ _ _ _ _ _ Hs) as Hmv.
      destruct (GI_go V_dec I_dec vid WT Hex DM PM LM next_f next_b labeled build silent E B Hf Hb Hnn HnB starts goals a o a' G Hs) as [G' _]. split; [exact G'|].
      split; [exact (counted_moved I_dec vid WT DM PM LM next_f next_b labeled build E B Hf Hb Hnn HnB starts goals a a' G Hmv HC)|].
      split; [exact (within_moved vid WT Hex DM PM LM next_f next_b labeled build E B Hf Hb Hnn HnB starts goals true ids_f Bf a a' G Hmv W1)|
        exact (within_moved vid WT Hex DM PM LM next_f next_b labeled build E B Hf Hb Hnn HnB starts goals false ids_b Bb a a' G Hmv W2)]. }
    assert (H0 : P (b2_init vid WT DM PM LM build first starts goals lim)).
    { split; [apply (GI_init I_dec); auto|]. split; [apply counted_init|]. split; intros g _ v w Hin; exfalso; unfold side_of in Hin; destruct g; exact Hin. }
    exact (run_inv_any step (fun _ s => P s) HS n [] _ os' _ H0 HR'). }
  destruct HP as (G & HC & W1 & W2).
  assert (HB : forall f l, within vid WT DM PM LM f l f (side_of WT DM PM LM f s) -> length (b2_calls (side_of WT DM PM LM f s)) <= length l + length (starts_of starts goals f)).
  { intros f l Hw. pose proof (g_cur _ _ _ _ _ _ _ _ _ _ _ s G) as Gc. pose proof (g_oth _ _ _ _ _ _ _ _ _ _ _ s G) as Go. specialize (HC f). specialize (Hw eq_refl). unfold side_of in *.
    destruct (Bool.eqb (b2_forwards s) f) eqn:Ef; [apply eqb_prop in Ef; rewrite Ef in Gc; eapply calls_bound; eauto|].
    replace (negb (b2_forwards s)) with f in Go by (destruct f, (b2_forwards s); auto; discriminate). eapply calls_bound; eauto. }
  pose proof (HB true ids_f (W1 true)) as B1. pose proof (HB false ids_b (W2 false)) as B2. cbn [starts_of] in B1, B2.
  assert (A1 : length (asked_forwards s) <= length ids_f + length starts) by (unfold asked_forwards; rewrite map_length; unfold side_of in B1; destruct (b2_forwards s); exact B1).
  assert (A2 : length (asked_backwards s) <= length ids_b + length goals) by (unfold asked_backwards; rewrite map_length; unfold side_of in B2; destruct (b2_forwards s); exact B2).
  pose proof (work_degree next_f d_f (asked_forwards s) Df). pose proof (work_degree next_b d_b (asked_backwards s) Db). nia.
Qed.
End BiSPGraph.

(** ** TraversalShortestPathsInfBranchingSorted *)
Section Inf.
Context {V : Type} (V_dec : forall a b : V, {a = b} + {a <> b}) (edge : V -> nat -> option (V * option Z))
  (DM : DMap V (option Z) None) (PM : PMap V V) (DMi : DMap (V * nat) (option Z) None) (PMi : PMap (V * nat) (V * nat)) (LMi : PMap (V * nat) unit) (build_paths store_distances : bool).
Notation state := (@inf_state V DM PM DMi PMi LMi).
Notation step := (inf_step V_dec edge DM PM DMi PMi LMi build_paths store_distances).

Lemma handle_keeps (s : state) o out s1 : inf_handle V_dec DM PM DMi PMi LMi build_paths store_distances s o = inl (out, s1) -> n_reads s1 = n_reads s /\ n_iters s1 = n_iters s.
Proof.
  unfold inf_handle. destruct o as [|rep r]; [intros H; injection H as <- <-; auto|]. destruct (dr_vertex rep) as [v k]. destruct (negb _); [intros H; injection H as <- <-; auto|].
  destruct (if build_paths then _ else _) as [p|x]; [|discriminate]. intros H. injection H as <- <-. auto.
Qed.
Lemma inf_pot_step (s : state) o s' : step s = Go o s' -> dij_pot ZInfWeights DMi PMi LMi (n_in s') + 5 * length (n_reads s) + 1 <= dij_pot ZInfWeights DMi PMi LMi (n_in s) + 5 * length (n_reads s').
Proof.
  unfold inf_step. cbv zeta. destruct (dij_step _ _ _ _ _ _ _ (n_in s)) as [os i|os i|os x i] eqn:Ed.
  2:{ destruct (inf_handle _ _ _ _ _ _ _ _ _ _) as [[out s1]|x]; discriminate. }
  2:{ destruct (inf_handle _ _ _ _ _ _ _ _ _ _) as [[out s1]|y]; discriminate. }
  destruct (inf_handle _ _ _ _ _ _ _ _ s os) as [[out s1]|x] eqn:Eh; [|discriminate]. apply handle_keeps in Eh. destruct Eh as [Hr Hi].
  unfold dij_step in Ed. unfold inf_expanded. destruct (d_pc (n_in s)) as [|v w k [|[[x ew] l] rest]] eqn:Epc.
  - destruct (d_heap (n_in s)) as [|[[w no] [st k]] h] eqn:Ehp; [discriminate|]. destruct (_ && _).
    + injection Ed as <- <-. cbn [d_set_heap d_pc]. rewrite Epc. intros HS. injection HS as <- <-. cbn [n_set_in n_in n_reads]. unfold dij_pot. cbn [d_set_heap d_pc d_heap]. rewrite Epc, Ehp, Hr. cbn [length]. lia.
    + cbv zeta in Ed. destruct (limit_check _); [|discriminate]. injection Ed as <- <-. cbn [dij_expand d_pc].
      destruct (next_state_edges _ _ _ _ _ st) as [[es iters]|] eqn:En; [|discriminate]. intros HS. injection HS as <- <-. cbn [inf_note n_set_in n_in n_reads n_iters]. rewrite Hi, Hr.
      destruct st as [v e]. pose proof En as En'. unfold next_state_edges in En. cbn [fst snd]. destruct (if (e =? 0)%nat then Some 0 else n_iters s v) as [taken|]; [|discriminate].
      assert (Hl : length es <= 2) by (destruct (edge v taken) as [[u b]|]; injection En as <- <-; cbn; lia).
      unfold dij_pot. cbn [dij_expand dij_settle d_set_heap d_pc d_heap length]. rewrite Epc, Ehp. cbn [length]. rewrite En'. change (w_t ZInfWeights) with (option Z) in *. lia.
  - injection Ed as <- <-. cbn [d_set_pc d_pc]. intros HS. injection HS as <- <-. cbn [n_set_in n_in n_reads]. unfold dij_pot. cbn [d_set_pc d_pc d_heap]. rewrite Epc, Hr. cbn [length]. lia.
  - cbv zeta in Ed. destruct (w_leb _ _ _); [discriminate|].
    destruct (_ && _); injection Ed as <- <-; cbn [d_set_pc dij_relax d_pc]; intros HS; injection HS as <- <-; cbn [n_set_in n_in n_reads]; unfold dij_pot; cbn [d_set_pc dij_relax d_pc d_heap]; rewrite Epc, Hr, ?heappush_length; cbn [length]; lia.
Qed.
Lemma inf_work starts lim n os s : inf_run V_dec edge DM PM DMi PMi LMi build_paths store_distances starts lim n = (os, Running s) -> n <= length starts + 5 * length (n_reads s).
Proof.
  unfold inf_run. intros HR. apply (run_potential _ (fun s : state => dij_pot ZInfWeights DMi PMi LMi (n_in s)) (fun s : state => 5 * length (n_reads s)) inf_pot_step) in HR.
  cbn [inf_init n_in n_reads length] in HR. unfold dij_pot in HR at 2. unfold dij_init in HR. cbn [d_pc d_heap] in HR. rewrite heapify_length, start_entries_length, map_length in HR. lia.
Qed.
End Inf.

From Verif Require Import InfSpec InfReads InfCount.
Section InfGraph.
Context {V : Type} (V_dec : forall a b : V, {a = b} + {a <> b}) (edge : V -> nat -> option (V * option Z))
  (DM : DMap V (option Z) None) (PM : PMap V V) (DMi : DMap (V * nat) (option Z) None) (PMi : PMap (V * nat) (V * nat)) (LMi : PMap (V * nat) unit) (build_paths store_distances : bool).
Lemma inf_work_graph starts lv le lim n os s : edge_sequences edge -> edges_sorted edge -> edges_nonnegative edge -> NoDup starts -> finite_graph edge starts lv le ->
  inf_run V_dec edge DM PM DMi PMi LMi build_paths store_distances starts lim n = (os, Running s) -> n <= length starts + 5 * (length lv + length le).
Proof.
  intros Hseq Hsort Hnn Hnd (_ & _ & Hv & He) HR. pose proof (inf_work V_dec edge DM PM DMi PMi LMi build_paths store_distances starts lim n os s HR) as HW.
  pose proof (reads_of_reachable V_dec edge Hseq Hsort Hnn DM PM DMi PMi LMi build_paths store_distances starts Hnd lim n os _ HR) as Hreach.
  destruct (inf_reads V_dec edge Hseq Hsort Hnn DM PM DMi PMi LMi build_paths store_distances starts Hnd lim n os _ HR) as (H1 & _ & _ & _ & H5 & _). cbn [outcome_state] in *.
  assert (Hl : length (n_reads s) <= length (map (fun v => (v, 0)) lv ++ map (fun e => (fst e, S (snd e))) le)).
  { apply NoDup_incl_length; [exact H1|]. intros [v k] Hin. apply in_app_iff. rewrite !in_map_iff. specialize (Hreach _ _ Hin). destruct k as [|k]; [left; exists v; split; auto; now apply Hv|right].
    exists (v, k). split; auto. apply He. split; auto. destruct (H5 _ _ Hin) as (u & b & d & Hed & _). congruence. }
  rewrite app_length, !map_length in Hl. lia.
Qed.
End InfGraph.

(** ** Together *)
Lemma b2_work_all {V I L : Type} (V_dec : forall a b : V, {a = b} + {a <> b}) (I_dec : forall a b : I, {a = b} + {a <> b}) (vid : V -> I)
  (WT : Weights) (DM : DMap I (w_t WT) (w_inf WT)) (PM : PMap I V) (LM : PMap I L) (next_f next_b : V -> list (V * w_t WT * L)) (labeled build silent : bool) starts goals lim n os s :
  b2_run V_dec I_dec vid WT DM PM LM next_f next_b labeled build silent starts goals lim n = (os, Running (Some s)) ->
  n <= length starts + length goals + work next_f 2 1 (asked_forwards s) + work next_b 2 1 (asked_backwards s).
Proof.
  intros HR. unfold b2_run in HR. destruct starts as [|first r0]; [unfold b2_failed in HR; destruct silent; discriminate|]. destruct goals as [|g r1]; [unfold b2_failed in HR; destruct silent; discriminate|].
  destruct (b2_common _ _ _ _) eqn:Hc; [discriminate|]. destruct (run _ _ _) as [os' r] eqn:Er. destruct r; try discriminate. injection HR as _ <-. exact (b2_work _ _ _ _ _ _ _ _ _ _ _ _ _ _ _ _ _ _ Er).
Qed.
Lemma b2_running {V I L : Type} (V_dec : forall a b : V, {a = b} + {a <> b}) (I_dec : forall a b : I, {a = b} + {a <> b}) (vid : V -> I)
  (WT : Weights) (DM : DMap I (w_t WT) (w_inf WT)) (PM : PMap I V) (LM : PMap I L) (next_f next_b : V -> list (V * w_t WT * L)) (labeled build silent : bool) starts goals lim n os s :
  b2_run V_dec I_dec vid WT DM PM LM next_f next_b labeled build silent starts goals lim n = (os, Running s) -> exists s', s = Some s'.
Proof.
  intros HR. unfold b2_run in HR. destruct starts as [|first r0]; [unfold b2_failed in HR; destruct silent; discriminate|]. destruct goals as [|g r1]; [unfold b2_failed in HR; destruct silent; discriminate|].
  destruct (b2_common _ _ _ _) eqn:Hc; [discriminate|]. destruct (run _ _ _) as [os' r] eqn:Er. destruct r; try discriminate. injection HR as _ <-. eauto.
Qed.
Lemma b2_work_final {V I L : Type} (V_dec : forall a b : V, {a = b} + {a <> b}) (I_dec : forall a b : I, {a = b} + {a <> b}) (vid : V -> I)
    (WT : Weights) (DM : DMap I (w_t WT) (w_inf WT)) (PM : PMap I V) (LM : PMap I L) (next_f next_b : V -> list (V * w_t WT * L)) (labeled build_path fail_silently : bool)
    (starts goals : list V) (lim : option Z) :
  let search := b2_run V_dec I_dec vid WT DM PM LM next_f next_b labeled build_path fail_silently starts goals lim in
  (forall n os s, search n = (os, Running s) -> exists s', s = Some s' /\
     n <= length starts + length goals + work next_f 2 1 (asked_forwards s') + work next_b 2 1 (asked_backwards s')) /\
  (forall (E : I -> w_t WT -> I -> Prop) (d_f d_b : nat) (ids_f ids_b : list I),
     exact_addition WT -> presents_weighted WT vid next_f E -> presents_weighted WT vid next_b (fun i w j => E j w i) -> nonnegative WT E ->
     (forall v, length (next_f v) <= d_f) -> (forall v, length (next_b v) <= d_b) ->
     covered vid WT E (wconnection vid WT E starts goals) starts ids_f -> covered vid WT (fun i w j => E j w i) (wconnection vid WT E starts goals) goals ids_b ->
     forall n os r, search n = (os, r) ->
     length starts + length goals + (2 * d_f + 1) * (length ids_f + length starts) + (2 * d_b + 1) * (length ids_b + length goals) < n -> forall s, r <> Running s).
Proof.
  intros search. split.
  - intros n os s HR. destruct (b2_running _ _ _ _ _ _ _ _ _ _ _ _ _ _ _ _ _ _ HR) as (s' & ->). exists s'. split; [reflexivity|]. exact (b2_work_all _ _ _ _ _ _ _ _ _ _ _ _ _ _ _ _ _ _ HR).
  - intros E d_f d_b ids_f ids_b Hex Hf Hb Hnn Df Db Cf Cb n os r HR Hn s ->. destruct (b2_running _ _ _ _ _ _ _ _ _ _ _ _ _ _ _ _ _ _ HR) as (s' & ->).
    pose proof (b2_work_graph V_dec I_dec vid WT Hex DM PM LM next_f next_b labeled build_path fail_silently E Hf Hb Hnn starts goals d_f d_b ids_f ids_b lim n os s' Df Db Cf Cb HR). lia.
Qed.
