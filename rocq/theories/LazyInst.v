(** Neighbor functions whose answers are read step by step, for the strategies. *)
From Coq Require Import List Bool Arith ZArith Lia Sorted.
From Verif Require Import Machine Common GearSpec Spec TraversalSpec Weight WeightSpec BFSModel BFSProofs BFSMore NTDModel NTDProofs DijkstraModel DijkstraProofs DijkstraPlain
  AwareModel AwareSpec AwareProofs AwareOnce AwareMore LazyModel LazySpec LazyProofs.
Import ListNotations.

Section Inst.
Context {V I L : Type}.
Variable I_dec : forall a b : I, {a = b} + {a <> b}.
Variable vid : V -> I.
Variable VS : VSet I.
Variable PM : PMap I V.
Variable LM : PMap I L.

Lemma bfs_lazy cfg starts av lim (Ht : bc_is_tree cfg = false) (HN : NoDup (map vid starts)) (read : nat -> @bfs_state V I L VS PM LM -> V -> exn + option (V * L)) n os r log :
  let step f := bfs_step vid VS PM LM f cfg in let init := bfs_init vid VS PM LM cfg starts av lim in
  lazy_run step bfs_reading bfs_set_unread read 0 n init = (os, r, log) ->
  reads_like step bfs_reading bfs_set_unread read (fun v => edges_read I_dec vid log (vid v)) n init os r.
Proof.
  intros step init HR.
  refine (proj2 (lazy_table I_dec vid step bfs_asks bfs_reading bfs_set_unread read (fun _ => True) _ _ _ _ _ _ _ _ (fun s => map vid (b_calls s)) init _ _ _ _ _ _ n os r log HR)).
  - intros a s. destruct s as [[| |] ? ? ? ? ? ? ? ?]; reflexivity.
  - intros a s Hr. destruct s as [[| |] ? ? ? ? ? ? ? ?]; cbn in *; try discriminate; reflexivity.
  - intros s v e Hr. destruct s as [[| |v0 u] ? ? ? ? ? ? ? ?]; cbn in Hr; try discriminate. injection Hr as ->. destruct e as [a l]. cbn. destruct (negb (bc_is_tree cfg) && _) eqn:E; cbn; rewrite ?E; auto.
  - intros s v Hr. destruct s as [[| |v0 u] ? ? ? ? ? ? ? ?]; cbn in Hr; try discriminate. eexists _, _. split; cycle 1; [intros f; reflexivity|reflexivity].
  - intros s Hr v l Ha. destruct s as [[| |v0 u] te nx dp vi pr lb lm cl]; cbn in Hr, Ha; try discriminate. destruct te as [|x te]; try discriminate. destruct (limit_check lm) as [lm'|] eqn:El; try discriminate.
    injection Ha as -> <-. split; [reflexivity|].
    exists [], {| b_pc := BEdges v []; b_to_expand := te; b_next := nx; b_depth := dp; b_visited := vi; b_pred := pr; b_labels := lb; b_limit := lm'; b_calls := v :: cl |}.
    split; [reflexivity|split; [reflexivity|]]. intros f. cbn. rewrite El. reflexivity.
  - intros s Hr Ha. destruct s as [[| |v0 u] te ? ? ? ? ? lm ?]; cbn in *; try discriminate; destruct te as [|x te]; cbn;
      try (destruct (limit_check lm); try discriminate); (split; [reflexivity|]); intros f out s' H; try discriminate; injection H as _ <-; reflexivity.
  - intros s v Hr. destruct s as [[| |v0 u] ? ? ? ? ? ? ? ?]; cbn in *; try discriminate; reflexivity.
  - auto.
  - apply bfs_local.
  - apply bfs_called.
  - apply bfs_asked_go.
  - intros T m os' s _ HR'. exact (bfs_once vid VS PM LM cfg Ht (fun v => T (vid v)) starts av lim m os' s HN HR').
  - reflexivity.
  - reflexivity.
Qed.

Lemma ntd_lazy cfg starts av lim (Ht : nc_is_tree cfg = false) (HN : NoDup (map vid starts)) (read : nat -> @ntd_state V I L VS PM LM -> V -> exn + option (V * L)) n os r log :
  let step f := ntd_step vid VS PM LM f cfg in let init := ntd_init vid VS PM LM cfg starts av lim in
  lazy_run step ntd_reading ntd_set_unread read 0 n init = (os, r, log) ->
  reads_like step ntd_reading ntd_set_unread read (fun v => edges_read I_dec vid log (vid v)) n init os r.
Proof.
  intros step init HR.
  refine (proj2 (lazy_table I_dec vid step (ntd_asks cfg) ntd_reading ntd_set_unread read (fun _ => True) _ _ _ _ _ _ _ _ (fun s => map vid (map fst (n_calls s))) init _ _ _ _ _ _ n os r log HR)).
  - intros a s. destruct s as [[|v0 u] ? ? ? ? ? ? ? ? ?]; reflexivity.
  - intros a s Hr. destruct s as [[|v0 u] ? ? ? ? ? ? ? ? ?]; cbn in *; try discriminate; reflexivity.
  - intros s v e Hr. destruct s as [[|v0 u] ? ? ? ? ? ? ? ? ?]; cbn in Hr; try discriminate. injection Hr as ->. destruct e as [a l]. cbn. destruct (negb (nc_is_tree cfg) && _) eqn:E; cbn; rewrite ?E; auto.
  - intros s v Hr. destruct s as [[|v0 u] ? ? ? ? ? ? ? ? ?]; cbn in Hr; try discriminate. eexists _, _. split; cycle 1; [intros f; reflexivity|reflexivity].
  - intros s Hr v l Ha. unfold ntd_reading in Hr. unfold ntd_asks in Ha. unfold step, ntd_step. destruct (n_pc s); try discriminate. destruct (n_to_expand s) as [|x te]; try discriminate.
    destruct (ntd_enter VS PM LM cfg s te) as [s1|]; try discriminate. destruct (limit_check (n_limit s1)) as [lm'|]; try discriminate. injection Ha as -> <-. split; [reflexivity|].
    exists [], (ntd_expand VS PM LM (fun _ => []) s1 v lm'). split; [reflexivity|split; reflexivity].
  - intros s Hr Ha. unfold ntd_reading in Hr. unfold ntd_asks in Ha. unfold step, ntd_step. destruct (n_pc s); try discriminate. destruct (n_to_expand s) as [|x te]; [split; [reflexivity|intros; discriminate]|].
    destruct (ntd_enter VS PM LM cfg s te) as [s1|]; [|split; [reflexivity|intros; discriminate]]. destruct (limit_check (n_limit s1)) as [lm'|]; try discriminate. split; [reflexivity|intros; discriminate].
  - intros s v Hr. unfold ntd_reading in Hr. unfold ntd_asks. destruct (n_pc s); try discriminate; reflexivity.
  - auto.
  - apply ntd_local.
  - apply ntd_called.
  - apply ntd_asked_go.
  - intros T m os' s _ HR'. exact (ntd_once vid VS PM LM cfg Ht (fun v => T (vid v)) starts av lim m os' s HN HR').
  - reflexivity.
  - reflexivity.
Qed.

Variable WT : Weights.
Variable DM : DMap I (w_t WT) (w_inf WT).
Lemma dij_lazy cfg starts lim (Ht : dc_is_tree cfg = false) (HN : NoDup (map vid starts)) (read : nat -> @dij_state V I L WT DM PM LM -> V -> exn + option (V * w_t WT * L)) n os r log :
  (forall i s v e, read i s v = inr (Some e) -> w_leb WT (w_zero WT) (snd (fst e)) = true) ->
  let step f := dij_step vid WT DM PM LM f cfg in let init := dij_init vid WT DM PM LM cfg starts None lim in
  lazy_run step dij_reading dij_set_unread read 0 n init = (os, r, log) ->
  (forall j, Forall (fun e => w_leb WT (w_zero WT) (snd (fst e)) = true) (edges_read I_dec vid log j)) /\
  reads_like step dij_reading dij_set_unread read (fun v => edges_read I_dec vid log (vid v)) n init os r.
Proof.
  intros Hpos step init HR.
  assert (Hd0 : forall i, is_start vid starts i -> w_leb WT (w_zero WT) (d0 vid WT DM cfg starts None i) = true).
  { intros i Hi. erewrite (d0_start I_dec vid WT DM PM LM (fun _ => []) cfg Ht (fun _ _ _ => False)); [apply w_leb_refl| | |exact Hi]; [intros u w j; split; intros []|intros ? ? ? []]. }
  refine (lazy_table I_dec vid step (dij_asks vid WT cfg) dij_reading dij_set_unread read (fun e => w_leb WT (w_zero WT) (snd (fst e)) = true) _ _ _ _ _ _ _ Hpos
    (fun s => map vid (map (fun x => fst (fst x)) (d_calls s))) init _ _ _ _ _ _ n os r log HR).
  - intros a s. destruct s as [[|v0 w k u] hp no ds pr lb di de lm cl]; reflexivity.
  - intros a s Hr. destruct s as [[|v0 w k u] hp no ds pr lb di de lm cl]; cbn in *; try discriminate; reflexivity.
  - intros s v e Hr. destruct s as [[|v0 w k u] hp no ds pr lb di de lm cl]; cbn in Hr; try discriminate. injection Hr as ->. destruct e as [[a ew] l]. unfold step, dij_step, dij_set_unread, d_set_pc. cbn.
    destruct (w_leb WT (w_inf WT) (w_add WT ew w)) eqn:E; [intros f r0; eexists; split; reflexivity|].
    destruct (negb (dc_is_tree cfg) && w_leb WT (dm_get DM (vid a) ds) (w_add WT ew w)) eqn:E1; cbn; (split; [reflexivity|split; [reflexivity|]]); intros f r0; rewrite ?E, ?E1; reflexivity.
  - intros s v Hr. destruct s as [[|v0 w k u] hp no ds pr lb di de lm cl]; cbn in Hr; try discriminate. eexists _, _. split; cycle 1; [intros f; reflexivity|reflexivity].
  - intros s Hr v l Ha. unfold dij_reading in Hr. unfold dij_asks in Ha. unfold step, dij_step. destruct (d_pc s); try discriminate. destruct (d_heap s) as [|[[w no] [x k]] h]; try discriminate.
    destruct (limit_check (d_limit s)) as [lm'|] eqn:El; try discriminate. destruct (negb (dc_is_tree cfg) && _); try discriminate. injection Ha as -> <-. split; [reflexivity|].
    cbn [d_limit dij_settle d_set_heap]. rewrite El.
    eexists _, (dij_expand WT DM PM LM (fun _ => []) (dij_settle vid WT DM PM LM cfg (d_set_heap WT DM PM LM s h) v w k) v w k lm'). split; [reflexivity|split; [reflexivity|]]. intros f. reflexivity.
  - intros s Hr Ha. unfold dij_reading in Hr. unfold dij_asks in Ha. unfold step, dij_step. destruct (d_pc s) eqn:Ep; try discriminate. destruct (d_heap s) as [|[[w no] [x k]] h]; [split; [reflexivity|intros; discriminate]|].
    cbn [d_limit dij_settle d_set_heap]. destruct (limit_check (d_limit s)) as [lm'|] eqn:El.
    + destruct (negb (dc_is_tree cfg) && _); try discriminate. split; [reflexivity|]. intros f out s' H. injection H as _ <-. unfold dij_reading. cbn. now rewrite Ep.
    + destruct (negb (dc_is_tree cfg) && _); (split; [reflexivity|]); intros f out s' H; try discriminate. injection H as _ <-. unfold dij_reading. cbn. now rewrite Ep.
  - intros s v Hr. unfold dij_reading in Hr. unfold dij_asks. destruct (d_pc s); try discriminate; reflexivity.
  - apply dij_local.
  - apply dij_called.
  - apply dij_asked_go.
  - intros T m os' s HT HR'. refine (dij_once I_dec vid WT DM PM LM cfg Ht T starts None lim m os' s _ Hd0 HN HR'). intros i e He. assert (H := HT i). rewrite Forall_forall in H. auto.
  - reflexivity.
  - reflexivity.
Qed.

(** The graph of the edges that have been read *)
Lemma presents_read (log : list (V * (V * L))) : presents vid (fun v => edges_read I_dec vid log (vid v)) (edge_read vid log).
Proof.
  intros v j. unfold edges_read. rewrite map_map, in_map_iff. split.
  - intros ([u [a l]] & Hj & Hin). apply filter_In in Hin. destruct Hin as [Hin Hv]. cbn in *. destruct (I_dec (vid u) (vid v)); [|discriminate]. exists u, a, l. auto.
  - intros (u & a & l & Hin & Hu & Hj). exists (u, (a, l)). split; [exact Hj|]. apply filter_In. split; [exact Hin|]. cbn. destruct (I_dec (vid u) (vid v)); auto.
Qed.
Lemma presents_weighted_read (log : list (V * (V * w_t WT * L))) : presents_weighted WT vid (fun v => edges_read I_dec vid log (vid v)) (weighted_edge_read vid log).
Proof.
  intros v w j. unfold edges_read. rewrite map_map, in_map_iff. split.
  - intros ([u [[a w0] l]] & Hj & Hin). apply filter_In in Hin. destruct Hin as [Hin Hv]. cbn in *. destruct (I_dec (vid u) (vid v)); [|discriminate]. injection Hj as -> <-. exists u, a, l. auto.
  - intros (u & a & l & Hin & Hu & Hj). exists (u, (a, w, l)). split; [cbn; congruence|]. apply filter_In. split; [exact Hin|]. cbn. destruct (I_dec (vid u) (vid v)); auto.
Qed.

Lemma reads_like_reports {S O X Ed} (step : (V -> list Ed) -> S -> step_result S O X) reading set_unread read next n init os r :
  reads_like step reading set_unread read next n init os r -> exists m r', run (step next) m init = (os, r') /\ (forall s, r = Ended s -> exists s', r' = Ended s').
Proof.
  intros [(r' & H1 & H2)|(m & x & s & t & v & _ & -> & _ & _ & H1 & _)].
  - exists n, r'. split; [exact H1|]. intros s ->. destruct r'; cbn in H2; try contradiction. eauto.
  - exists m, (Running t). split; [exact H1|]. intros; discriminate.
Qed.

Lemma bfs_lazy_reports cfg starts lim (read : nat -> @bfs_state V I L VS PM LM -> V -> exn + option (V * L)) n os r log :
  bc_is_tree cfg = false -> bc_report_depth_increase cfg = false -> NoDup (map vid starts) ->
  lazy_run (fun f => bfs_step vid VS PM LM f cfg) bfs_reading bfs_set_unread read 0 n (bfs_init vid VS PM LM cfg starts None lim) = (os, r, log) ->
  let E := edge_read vid log in
  (NoDup (bfs_ids vid os) /\
   (forall rep, In rep os -> exists k, br_depth rep = Z.of_nat k /\ min_depth E (is_start vid starts) (vid (br_vertex rep)) k) /\
   StronglySorted (fun a b => br_depth a <= br_depth b)%Z os) /\
  (forall s', r = Ended s' -> forall i, reachable E (is_start vid starts) i -> is_start vid starts i \/ In i (bfs_ids vid os)).
Proof.
  intros Ht Hr HN HR E. pose proof (bfs_lazy cfg starts None lim Ht HN read n os r log HR) as HL. destruct (reads_like_reports _ _ _ _ _ _ _ _ _ HL) as (m & r' & HR' & He).
  assert (HE := presents_read log).
  destruct (bfs_none_reported I_dec vid VS PM LM (fun v => edges_read I_dec vid log (vid v)) cfg Ht Hr E HE starts lim m os r' HR') as (H1 & _ & H4).
  destruct (bfs_none_depth I_dec vid VS PM LM (fun v => edges_read I_dec vid log (vid v)) cfg Ht Hr E HE starts lim m os r' HR') as (H2 & H3 & _).
  split; [auto|]. intros s' Hs. destruct (He s' Hs) as [s2 ->]. exact (proj1 (H4 s2 eq_refl)).
Qed.

Lemma dij_lazy_reports cfg starts lim (read : nat -> @dij_state V I L WT DM PM LM -> V -> exn + option (V * w_t WT * L)) n os r log :
  dc_is_tree cfg = false -> NoDup (map vid starts) ->
  (forall i s v e, read i s v = inr (Some e) -> w_leb WT (w_zero WT) (snd (fst e)) = true) ->
  lazy_run (fun f => dij_step vid WT DM PM LM f cfg) dij_reading dij_set_unread read 0 n (dij_init vid WT DM PM LM cfg starts None lim) = (os, r, log) ->
  let E := weighted_edge_read vid log in
  (forall rep, In rep os -> is_distance WT E (is_start vid starts) (vid (dr_vertex rep)) (dr_distance rep)) /\
  StronglySorted (fun a b => w_leb WT (dr_distance a) (dr_distance b) = true) os /\
  (forall s', r = Ended s' -> forall i, wreachable WT E (is_start vid starts) i -> is_start vid starts i \/ In i (dij_ids vid os)).
Proof.
  intros Ht HN Hpos HR E. destruct (dij_lazy cfg starts lim Ht HN read n os r log Hpos HR) as [HG HL]. destruct (reads_like_reports _ _ _ _ _ _ _ _ _ HL) as (m & r' & HR' & He).
  assert (HE := presents_weighted_read log).
  assert (Hnn : nonnegative WT E).
  { intros i w j (v & u & l & Hin & Hv & Hu). assert (H := HG i). rewrite Forall_forall in H. apply (H (u, w, l)). unfold edges_read. apply in_map_iff. exists (v, (u, w, l)). split; [reflexivity|].
    apply filter_In. split; [exact Hin|]. cbn. destruct (I_dec (vid v) i); auto. }
  destruct (dij_distances I_dec vid WT DM PM LM (fun v => edges_read I_dec vid log (vid v)) cfg Ht E HE Hnn starts lim m os r' HR') as (H1 & H2). split; [exact H1|split; [exact H2|]].
  intros s' Hs. destruct (He s' Hs) as [s2 ->].
  destruct (dij_reported I_dec vid WT DM PM LM (fun v => edges_read I_dec vid log (vid v)) cfg Ht E HE Hnn starts lim m os _ HR') as (_ & _ & H3). exact (H3 s2 eq_refl).
Qed.
End Inst.
