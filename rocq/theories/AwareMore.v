(** Each id is asked for at most once, and what a pass depends on: topological sorting, shortest paths, minimum spanning tree. *)
From Coq Require Import List Bool Arith ZArith Lia Permutation.
From Verif Require Import Machine Common CommonProofs GearSpec GearProofs Spec TraversalSpec Weight WeightSpec TopoModel TopoMore DijkstraModel DijkstraProofs DijkstraPaths HeapModel HeapProofs MSTModel AwareModel AwareSpec AwareProofs AwareOnce.
Import ListNotations.

(** The graphs a table of answers presents. *)
Lemma table_presents {V I L} (vid : V -> I) (T : I -> list (V * L)) : presents vid (fun v => T (vid v)) (fun i j => In j (map (fun e => vid (fst e)) (T i))).
Proof. intros u j. reflexivity. Qed.

Lemma table_presents_weighted {V I L} (WT : Weights) (vid : V -> I) (T : I -> list (V * w_t WT * L)) :
  presents_weighted WT vid (fun v => T (vid v)) (fun i w j => In (w, j) (map (fun e => (snd (fst e), vid (fst (fst e)))) (T i))).
Proof. intros u w j. reflexivity. Qed.

(** *** Topological sorting *)
Section Topo.
Context {V I L : Type}.
Variable I_dec : forall a b : I, {a = b} + {a <> b}.
Variable vid : V -> I.
Variable VS : VSet I.
Variable PM : PMap I V.
Variable LM : PMap I L.
Variable cfg : topo_cfg.
Hypothesis Htree : tc_is_tree cfg = false.
Notation step f := (topo_step vid VS PM LM f cfg).
Notation cids s := (map vid (map fst (t_calls s))).

Lemma topo_local f g s : (forall v, In v (topo_asks vid s) -> f v = g v) -> step f s = step g s.
Proof.
  unfold topo_step, topo_step_graph, topo_asks. rewrite Htree. destruct (t_pc s); auto. destruct (t_stack s) as [|v q]; auto.
  destruct (vs_mem VS (vid v) (t_trace_set s)); auto. destruct ((0 <? t_depth s)%Z && vs_mem VS (vid v) (t_visited s)); auto.
  unfold topo_go_expand. change (t_limit (topo_enter vid VS PM LM s v)) with (t_limit s). destruct (limit_check (t_limit s)); auto.
  intros H. unfold topo_expand. rewrite (H v); [reflexivity|now left].
Qed.

Lemma topo_called f s o s' : step f s = Go o s' -> cids s' = rev (map vid (topo_asks vid s)) ++ cids s.
Proof.
  unfold topo_step, topo_step_graph, topo_asks. rewrite Htree. intros H. destruct (t_pc s) as [|v rest].
  - destruct (t_stack s) as [|v q]; [discriminate|].
    destruct (vs_mem VS (vid v) (t_trace_set s)); [destruct (limit_check (t_limit s)); inversion H; subst; reflexivity|].
    destruct ((0 <? t_depth s)%Z && vs_mem VS (vid v) (t_visited s)); [destruct (limit_check (t_limit s)); inversion H; subst; reflexivity|].
    unfold topo_go_expand in H. change (t_limit (topo_enter vid VS PM LM s v)) with (t_limit s) in H. destruct (limit_check (t_limit s)); [|discriminate]. inversion H; subst. reflexivity.
  - destruct rest as [|[x l] rest]; [inversion H; subst; reflexivity|].
    destruct (vs_mem VS (vid x) (t_visited s)); [destruct (vs_mem VS (vid x) (t_trace_set s)); [discriminate|]|]; inversion H; subst; reflexivity.
Qed.

Lemma topo_asked_go f s : topo_asks vid s <> [] -> exists o s', step f s = Go o s'.
Proof.
  unfold topo_step, topo_step_graph, topo_asks. rewrite Htree. destruct (t_pc s); try tauto. destruct (t_stack s) as [|v q]; try tauto.
  destruct (limit_check (t_limit s)) eqn:E; try tauto.
  destruct (vs_mem VS (vid v) (t_trace_set s)); [tauto|]. destruct ((0 <? t_depth s)%Z && vs_mem VS (vid v) (t_visited s)); [tauto|].
  unfold topo_go_expand. change (t_limit (topo_enter vid VS PM LM s v)) with (t_limit s). rewrite E. eauto.
Qed.

Lemma topo_once T starts av lim n os s : NoDup (map vid starts) ->
  run (step (fun v => T (vid v))) n (topo_init vid VS PM LM cfg starts av lim) = (os, Running s) -> NoDup (cids s).
Proof.
  intros Hs HR.
  destruct (topo_depth I_dec vid VS PM LM (fun v => T (vid v)) cfg Htree _ (table_presents vid T) starts Hs av lim n os (Running s) HR) as (_ & _ & H). exact H.
Qed.
End Topo.

(** *** Minimum spanning tree *)
Section MST.
Context {V I L : Type}.
Variable vid : V -> I.
Variable WT : Weights.
Variable VS : VSet I.
Variable PM : PMap I V.
Variable LM : PMap I L.
Variable cfg : mst_cfg.
Notation step f := (mst_step vid WT VS PM LM f cfg).
Notation cids s := (map vid (m_calls s)).

Lemma mst_start_local (f g : V -> list (V * w_t WT * L)) l : (forall v, In v l -> f v = g v) -> forall no, mst_start_entries WT f no l = mst_start_entries WT g no l.
Proof. induction l as [|a l IH]; simpl; intros H no; auto. rewrite (H a), IH; auto. Qed.

Lemma mst_local f g s : (forall v, In v (mst_asks vid WT s) -> f v = g v) -> step f s = step g s.
Proof.
  unfold mst_step, mst_asks. destruct (m_pc s) as [starts| |v rest]; auto.
  - destruct (mst_limit_start (m_limit s) (length starts)); auto. intros H. unfold mst_begin. now rewrite (mst_start_local f g starts H).
  - destruct (m_heap s) as [|[k [v e]] h]; auto. destruct (vs_mem VS (vid (fst (fst e))) (m_visited s)); auto.
    change (m_limit (mst_choose vid WT VS PM LM cfg (m_set_heap WT VS PM LM s h) v e)) with (m_limit s). destruct (limit_check (m_limit s)); auto.
    intros H. unfold mst_expand. rewrite (H (fst (fst e))); [reflexivity|now left].
Qed.

Lemma mst_called f s o s' : step f s = Go o s' -> cids s' = rev (map vid (mst_asks vid WT s)) ++ cids s.
Proof.
  unfold mst_step, mst_asks. intros H. destruct (m_pc s) as [starts| |v rest].
  - destruct (mst_limit_start (m_limit s) (length starts)); [|discriminate]. inversion H; subst. simpl. now rewrite map_app, map_rev.
  - destruct (m_heap s) as [|[k [v e]] h]; [discriminate|]. destruct (vs_mem VS (vid (fst (fst e))) (m_visited s)).
    + destruct (limit_check (m_limit s)); inversion H; subst; reflexivity.
    + change (m_limit (mst_choose vid WT VS PM LM cfg (m_set_heap WT VS PM LM s h) v e)) with (m_limit s) in H. destruct (limit_check (m_limit s)); [|discriminate].
      inversion H; subst. reflexivity.
  - destruct rest as [|e rest]; [inversion H; subst; reflexivity|]. destruct (vs_mem VS _ _); inversion H; subst; reflexivity.
Qed.

Lemma mst_asked_go f s : mst_asks vid WT s <> [] -> exists o s', step f s = Go o s'.
Proof.
  unfold mst_step, mst_asks. destruct (m_pc s) as [starts| |v rest]; try tauto.
  - destruct (mst_limit_start (m_limit s) (length starts)); try tauto. eauto.
  - destruct (m_heap s) as [|[k [v e]] h]; try tauto. destruct (limit_check (m_limit s)) eqn:E; try tauto. destruct (vs_mem VS (vid (fst (fst e))) (m_visited s)); try tauto.
    change (m_limit (mst_choose vid WT VS PM LM cfg (m_set_heap WT VS PM LM s h) v e)) with (m_limit s). rewrite E. eauto.
Qed.

Lemma mst_once next starts lim n os s : NoDup (map vid starts) ->
  run (step next) n (mst_init vid WT VS PM LM cfg starts lim) = (os, Running s) -> NoDup (cids s).
Proof.
  intros Hs HR.
  set (P := fun s : @mst_state V I L WT VS PM LM => NoDup (cids s) /\ (forall i, In i (cids s) -> vs_mem VS i (m_visited s) = true) /\
              forall l, m_pc s = MStart WT l -> l = starts /\ m_calls s = [] /\ forall i, In i (map vid starts) -> vs_mem VS i (m_visited s) = true).
  assert (HP : P s); [|exact (proj1 HP)].
  eapply (run_invariant (step next) P); [|split; [|split]|exact HR].
  - clear - Hs. intros s o s' (H1 & H2 & H3) H. unfold mst_step in H. destruct (m_pc s) as [l| |v rest] eqn:Ep.
    + destruct (mst_limit_start (m_limit s) (length l)); [|discriminate]. inversion H; subst. destruct (H3 l eq_refl) as (-> & K1 & K2). unfold P. simpl.
      rewrite K1, app_nil_r, map_rev. split; [now apply NoDup_rev|]. split; [|discriminate]. intros i Hi. apply K2. now apply in_rev.
    + destruct (m_heap s) as [|[k [v e]] h]; [discriminate|]. destruct (vs_mem VS (vid (fst (fst e))) (m_visited s)) eqn:Em.
      * inversion H; subst. unfold P. simpl. split; auto. split; auto. intros l Hl. exfalso. congruence.
      * match type of H with (match ?c with _ => _ end) = _ => destruct c end; [|discriminate]. inversion H; subst. unfold P. simpl. split; [|split; [|discriminate]].
        -- constructor; auto. intros Hi. apply H2 in Hi. congruence.
        -- intros i [<-|Hi]; apply vs_mem_add; auto.
    + destruct rest as [|e rest]; [inversion H; subst; unfold P; simpl; repeat split; auto; discriminate|].
      destruct (vs_mem VS _ _); inversion H; subst; unfold P; simpl; repeat split; auto; discriminate.
  - constructor.
  - simpl. tauto.
  - simpl. intros l Hl. inversion Hl; subst. split; auto. split; auto. intros i Hi. rewrite vs_mem_of_list. auto.
Qed.
End MST.

(** *** Shortest paths *)
Section Dijkstra.
Context {V I L : Type}.
Variable I_dec : forall a b : I, {a = b} + {a <> b}.
Variable vid : V -> I.
Variable WT : Weights.
Variable DM : DMap I (w_t WT) (w_inf WT).
Variable PM : PMap I V.
Variable LM : PMap I L.
Variable cfg : dij_cfg.
Hypothesis Htree : dc_is_tree cfg = false.
Notation step f := (dij_step vid WT DM PM LM f cfg).
Notation cids s := (map vid (map (fun x => fst (fst x)) (d_calls s))).

Lemma dij_local f g s : (forall v, In v (dij_asks vid WT cfg s) -> f v = g v) -> step f s = step g s.
Proof.
  unfold dij_step, dij_asks. destruct (d_pc s); auto. destruct (d_heap s) as [|[[w no] [v k]] h]; auto.
  destruct (negb (dc_is_tree cfg) && w_ltb WT (dm_get DM (vid v) (d_distances s)) w); auto.
  cbv zeta. change (d_limit (dij_settle vid WT DM PM LM cfg (d_set_heap WT DM PM LM s h) v w k)) with (d_limit s). destruct (limit_check (d_limit s)); auto.
  intros H. unfold dij_expand. rewrite (H v); [reflexivity|now left].
Qed.

Lemma dij_called f s o s' : step f s = Go o s' -> cids s' = rev (map vid (dij_asks vid WT cfg s)) ++ cids s.
Proof.
  unfold dij_step, dij_asks. intros H. destruct (d_pc s) as [|v w k rest].
  - destruct (d_heap s) as [|[[w no] [v k]] h]; [discriminate|].
    destruct (negb (dc_is_tree cfg) && w_ltb WT (dm_get DM (vid v) (d_distances s)) w); [destruct (limit_check (d_limit s)); inversion H; subst; reflexivity|].
    cbv zeta in H. change (d_limit (dij_settle vid WT DM PM LM cfg (d_set_heap WT DM PM LM s h) v w k)) with (d_limit s) in H. destruct (limit_check (d_limit s)); [|discriminate].
    inversion H; subst. reflexivity.
  - destruct rest as [|[[x ew] l] rest]; [inversion H; subst; reflexivity|]. cbv zeta in H.
    destruct (w_leb WT (w_inf WT) (w_add WT ew w)); [discriminate|]. destruct (negb _ && _); inversion H; subst; reflexivity.
Qed.

Lemma dij_asked_go f s : dij_asks vid WT cfg s <> [] -> exists o s', step f s = Go o s'.
Proof.
  unfold dij_step, dij_asks. destruct (d_pc s); try tauto. destruct (d_heap s) as [|[[w no] [v k]] h]; try tauto. destruct (limit_check (d_limit s)) eqn:E; try tauto.
  destruct (negb (dc_is_tree cfg) && w_ltb WT (dm_get DM (vid v) (d_distances s)) w); try tauto.
  cbv zeta. change (d_limit (dij_settle vid WT DM PM LM cfg (d_set_heap WT DM PM LM s h) v w k)) with (d_limit s). rewrite E. eauto.
Qed.

Notation xz := (fun x : V * w_t WT * nat => negb (xpos WT x)).
Notation ez := (fun e : @entry (V * nat) WT => negb (epos WT e)).
(** The ids of start vertices, asked for or in the heap as such. *)
Notation start_ids X H := (map (fun x => vid (xv WT x)) (filter xz X) ++ map (fun e => vid (ev WT e)) (filter ez H)).

Lemma start_keys dist : forall l no, map (fun e => vid (ev WT e)) (filter ez (start_entries vid WT DM no dist l)) = map vid l.
Proof. induction l as [|v l IH]; simpl; intros no; auto. f_equal. apply IH. Qed.

Lemma dij_once T starts known lim n os s : (forall i e, In e (T i) -> w_leb WT (w_zero WT) (snd (fst e)) = true) ->
  (forall i, is_start vid starts i -> w_leb WT (w_zero WT) (d0 vid WT DM cfg starts known i) = true) -> NoDup (map vid starts) ->
  run (step (fun v => T (vid v))) n (dij_init vid WT DM PM LM cfg starts known lim) = (os, Running s) -> NoDup (cids s).
Proof using I_dec Htree.
  intros HT Hd0 Hs HR.
  set (E := fun i w j => In (w, j) (map (fun e => (snd (fst e), vid (fst (fst e)))) (T i))).
  assert (Hnext : presents_weighted WT vid (fun v => T (vid v)) E) by apply table_presents_weighted.
  assert (Hnn : nonnegative WT E).
  { intros i w j Hin. unfold E in Hin. rewrite in_map_iff in Hin. destruct Hin as (e & Heq & Hin). inversion Heq; subst. eapply HT; eauto. }
  set (P := fun (os : list (@dij_report V I L WT DM PM LM)) (s : @dij_state V I L WT DM PM LM) =>
     BigS vid WT DM PM LM (fun v => T (vid v)) cfg E starts known os s /\ NoDup (cids s) /\ NoDup (start_ids (d_calls s) (d_heap s))).
  assert (HP : P ([] ++ os) s); [|exact (proj1 (proj2 HP))].
  eapply (run_inv_running (step (fun v => T (vid v))) P); [|split; [|split]|exact HR].
  - clear HR. intros pre s1 o s2 (HB & H1 & H2) Hst. split.
    + eapply BigS_step; eauto.
    + unfold dij_step in Hst. destruct (d_pc s1) as [|v w k rest] eqn:Ep.
      * destruct (d_heap s1) as [|e h] eqn:Eh; [discriminate|]. destruct e as [[w no] [v k]].
        pose proof (b_inv _ _ _ _ _ _ _ _ _ _ _ _ _ _ _ _ _ HB) as HI. rewrite Ep, Eh in HI.
        rewrite Htree in Hst. simpl negb in Hst. rewrite andb_true_l in Hst.
        destruct (w_ltb WT (dm_get DM (vid v) (d_distances s1)) w) eqn:El.
        -- inversion Hst; subst. simpl. split; [exact H1|]. simpl in H2. destruct (negb (epos WT (w, no, (v, k)))); simpl in H2; [|exact H2].
           rewrite NoDup_mid in H2. now inversion H2.
        -- cbv zeta in Hst. match type of Hst with (match ?c with _ => _ end) = _ => destruct c end; [|discriminate]. inversion Hst; subst. simpl. split.
           ++ constructor; auto. intros Hin. rewrite map_map, in_map_iff in Hin. destruct Hin as ([[v2 w2] k2] & Hv2 & Hin). simpl in Hv2.
              assert (Hset : settled vid WT (d_calls s1) (vid v) w2) by (exists v2, k2; auto).
              destruct (settle_again vid WT DM (fun v => T (vid v)) cfg E Hnn starts known Hd0 _ _ _ _ _ _ HI El Hset) as (K1 & K2 & _). change (w2 = w) in K1. change (k = 0) in K2. subst w2 k.
              pose proof (i_impX _ _ _ _ _ _ _ _ _ _ _ _ HI v2 w k2 Hin) as J1. rewrite Hv2 in J1.
              pose proof (i_impH _ _ _ _ _ _ _ _ _ _ _ _ HI _ (or_introl eq_refl)) as J2. apply imp_0 in J2; auto. destruct J2 as [J2 _]. change (w = d0 vid WT DM cfg starts known (vid v)) in J2.
              destruct k2 as [|k2].
              ** apply NoDup_remove_2 in H2. apply H2. apply in_or_app. left. rewrite in_map_iff. exists (v2, w, 0). split; [exact Hv2|]. apply filter_In. auto.
              ** apply imp_S in J1. rewrite <- J2 in J1. rewrite w_lt_irrefl in J1. discriminate.
           ++ simpl in H2. unfold epos, xpos, ek, xk in *. simpl in *. destruct k as [|k]; simpl in *; [|exact H2]. rewrite NoDup_mid in H2. exact H2.
      * destruct rest as [|[[x ew] l] rest]; [inversion Hst; subst; simpl; auto|]. cbv zeta in Hst.
        destruct (w_leb WT (w_inf WT) (w_add WT ew w)); [discriminate|]. destruct (negb _ && _); inversion Hst; subst; simpl; auto. split; auto.
        eapply Permutation_NoDup; [|exact H2]. apply Permutation_app_head. apply Permutation_map.
        apply Permutation_sym. etransitivity; [apply Permutation_filter; apply heappush_perm|]. simpl. reflexivity.
  - apply BigS_init; auto.
  - constructor.
  - simpl. eapply Permutation_NoDup; [apply Permutation_map, Permutation_sym, Permutation_filter, heapify_perm|]. now rewrite start_keys.
Qed.
End Dijkstra.
