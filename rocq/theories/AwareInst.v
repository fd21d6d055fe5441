(** The general result for the strategies. *)
From Coq Require Import List Bool Arith ZArith Lia Sorted.
From Verif Require Import Machine Common GearSpec Spec TraversalSpec Weight WeightSpec BFSModel BFSProofs BFSMore NTDModel DFSModel TopoModel DijkstraModel DijkstraProofs DijkstraPlain MSTModel
  AwareModel AwareSpec AwareProofs AwareOnce AwareMore.
Import ListNotations.

Section Inst.
Context {V I L : Type}.
Variable I_dec : forall a b : I, {a = b} + {a <> b}.
Variable V_dec : forall a b : V, {a = b} + {a <> b}.
Variable vid : V -> I.
Variable VS : VSet I.
Variable PM : PMap I V.
Variable LM : PMap I L.
Variable XM : DMap I Z 0%Z.

Lemma bfs_aware cfg starts av lim (Ht : bc_is_tree cfg = false) (HN : NoDup (map vid starts)) (answer : nat -> @bfs_state V I L VS PM LM -> V -> exn + list (V * L)) n :
  exists T, runs_like (fun f => bfs_step vid VS PM LM f cfg) bfs_asks [] answer (fun v => T (vid v)) n (bfs_init vid VS PM LM cfg starts av lim) /\
    table_of_answers (fun f => bfs_step vid VS PM LM f cfg) bfs_asks [] answer vid n (bfs_init vid VS PM LM cfg starts av lim) T.
Proof.
  destruct (aware_table I_dec vid (fun f => bfs_step vid VS PM LM f cfg) bfs_asks [] answer (fun s => map vid (b_calls s)) (fun _ => True) (bfs_init vid VS PM LM cfg starts av lim)
    (bfs_local vid VS PM LM cfg) (bfs_called vid VS PM LM cfg) (bfs_asked_go vid VS PM LM cfg) (fun T n os s _ HR => bfs_once vid VS PM LM cfg Ht (fun v => T (vid v)) starts av lim n os s HN HR) eq_refl Logic.I (fun _ _ _ => Logic.I) n) as (T & _ & H).
  exists T. exact H.
Qed.

Lemma ntd_aware cfg starts av lim (Ht : nc_is_tree cfg = false) (HN : NoDup (map vid starts)) (answer : nat -> @ntd_state V I L VS PM LM -> V -> exn + list (V * L)) n :
  exists T, runs_like (fun f => ntd_step vid VS PM LM f cfg) (ntd_asks cfg) [] answer (fun v => T (vid v)) n (ntd_init vid VS PM LM cfg starts av lim) /\
    table_of_answers (fun f => ntd_step vid VS PM LM f cfg) (ntd_asks cfg) [] answer vid n (ntd_init vid VS PM LM cfg starts av lim) T.
Proof.
  destruct (aware_table I_dec vid (fun f => ntd_step vid VS PM LM f cfg) (ntd_asks cfg) [] answer (fun s => map vid (map fst (n_calls s))) (fun _ => True) (ntd_init vid VS PM LM cfg starts av lim)
    (ntd_local vid VS PM LM cfg) (ntd_called vid VS PM LM cfg) (ntd_asked_go vid VS PM LM cfg) (fun T n os s _ HR => ntd_once vid VS PM LM cfg Ht (fun v => T (vid v)) starts av lim n os s HN HR) eq_refl Logic.I (fun _ _ _ => Logic.I) n) as (T & _ & H).
  exists T. exact H.
Qed.

Lemma dfs_aware cfg skip starts av lim (Ht : DFSModel.dc_is_tree cfg = false) (Hm : dc_mode cfg = DFS_TREE) (answer : nat -> @dfs_state V I L VS PM LM XM -> V -> exn + list (V * L)) n :
  exists T, runs_like (fun f => dfs_step V_dec vid VS PM LM XM f cfg skip) (dfs_asks V_dec vid cfg skip) [] answer (fun v => T (vid v)) n (dfs_init vid VS PM LM XM cfg starts av lim) /\
    table_of_answers (fun f => dfs_step V_dec vid VS PM LM XM f cfg skip) (dfs_asks V_dec vid cfg skip) [] answer vid n (dfs_init vid VS PM LM XM cfg starts av lim) T.
Proof.
  destruct (aware_table I_dec vid (fun f => dfs_step V_dec vid VS PM LM XM f cfg skip) (dfs_asks V_dec vid cfg skip) [] answer (fun s => map vid (map fst (f_calls s))) (fun _ => True) (dfs_init vid VS PM LM XM cfg starts av lim)
    (dfs_local V_dec vid VS PM LM XM cfg skip) (dfs_called V_dec vid VS PM LM XM cfg skip) (dfs_asked_go V_dec vid VS PM LM XM cfg skip) (fun T n os s _ HR => dfs_once V_dec vid VS PM LM XM cfg skip (fun v => T (vid v)) starts av lim n os s Ht Hm HR) eq_refl Logic.I (fun _ _ _ => Logic.I) n) as (T & _ & H).
  exists T. exact H.
Qed.

Lemma dfw_aware cfg skip starts av lim (Ht : DFSModel.dc_is_tree cfg = false) (answer : nat -> @dfw_state V I L VS PM LM -> V -> exn + list (V * L)) n :
  exists T, runs_like (fun f => dfw_step V_dec vid VS PM LM XM f cfg skip) (dfw_asks V_dec vid cfg skip) [] answer (fun v => T (vid v)) n (dfw_init vid VS PM LM cfg starts av lim) /\
    table_of_answers (fun f => dfw_step V_dec vid VS PM LM XM f cfg skip) (dfw_asks V_dec vid cfg skip) [] answer vid n (dfw_init vid VS PM LM cfg starts av lim) T.
Proof.
  destruct (aware_table I_dec vid (fun f => dfw_step V_dec vid VS PM LM XM f cfg skip) (dfw_asks V_dec vid cfg skip) [] answer (fun s => map vid (map fst (w_calls s))) (fun _ => True) (dfw_init vid VS PM LM cfg starts av lim)
    (dfw_local V_dec vid VS PM LM XM cfg skip) (dfw_called V_dec vid VS PM LM XM cfg skip) (dfw_asked_go V_dec vid VS PM LM XM cfg skip) (fun T n os s _ HR => dfw_once V_dec vid VS PM LM XM cfg skip (fun v => T (vid v)) starts av lim n os s Ht HR) eq_refl Logic.I (fun _ _ _ => Logic.I) n) as (T & _ & H).
  exists T. exact H.
Qed.

Lemma topo_aware cfg starts av lim (Ht : tc_is_tree cfg = false) (HN : NoDup (map vid starts)) (answer : nat -> @topo_state V I L VS PM LM -> V -> exn + list (V * L)) n :
  exists T, runs_like (fun f => topo_step vid VS PM LM f cfg) (topo_asks vid) [] answer (fun v => T (vid v)) n (topo_init vid VS PM LM cfg starts av lim) /\
    table_of_answers (fun f => topo_step vid VS PM LM f cfg) (topo_asks vid) [] answer vid n (topo_init vid VS PM LM cfg starts av lim) T.
Proof.
  destruct (aware_table I_dec vid (fun f => topo_step vid VS PM LM f cfg) (topo_asks vid) [] answer (fun s => map vid (map fst (t_calls s))) (fun _ => True) (topo_init vid VS PM LM cfg starts av lim)
    (topo_local vid VS PM LM cfg Ht) (topo_called vid VS PM LM cfg Ht) (topo_asked_go vid VS PM LM cfg Ht) (fun T n os s _ HR => topo_once I_dec vid VS PM LM cfg Ht T starts av lim n os s HN HR) eq_refl Logic.I (fun _ _ _ => Logic.I) n) as (T & _ & H).
  exists T. exact H.
Qed.

Variable WT : Weights.
Variable DM : DMap I (w_t WT) (w_inf WT).

Lemma mst_aware cfg starts lim (HN : NoDup (map vid starts)) (answer : nat -> @mst_state V I L WT VS PM LM -> V -> exn + list (V * w_t WT * L)) n :
  exists T, runs_like (fun f => mst_step vid WT VS PM LM f cfg) (mst_asks vid WT) [] answer (fun v => T (vid v)) n (mst_init vid WT VS PM LM cfg starts lim) /\
    table_of_answers (fun f => mst_step vid WT VS PM LM f cfg) (mst_asks vid WT) [] answer vid n (mst_init vid WT VS PM LM cfg starts lim) T.
Proof.
  destruct (aware_table I_dec vid (fun f => mst_step vid WT VS PM LM f cfg) (mst_asks vid WT) [] answer (fun s => map vid (m_calls s)) (fun _ => True) (mst_init vid WT VS PM LM cfg starts lim)
    (mst_local vid WT VS PM LM cfg) (mst_called vid WT VS PM LM cfg) (mst_asked_go vid WT VS PM LM cfg) (fun T n os s _ HR => mst_once vid WT VS PM LM cfg (fun v => T (vid v)) starts lim n os s HN HR) eq_refl Logic.I (fun _ _ _ => Logic.I) n) as (T & _ & H).
  exists T. exact H.
Qed.

Lemma dij_aware cfg starts lim (Ht : dc_is_tree cfg = false) (HN : NoDup (map vid starts)) (answer : nat -> @dij_state V I L WT DM PM LM -> V -> exn + list (V * w_t WT * L)) n :
  (forall i s v es e, answer i s v = inr es -> In e es -> w_leb WT (w_zero WT) (snd (fst e)) = true) ->
  exists T, (forall i e, In e (T i) -> w_leb WT (w_zero WT) (snd (fst e)) = true) /\
    runs_like (fun f => dij_step vid WT DM PM LM f cfg) (dij_asks vid WT cfg) [] answer (fun v => T (vid v)) n (dij_init vid WT DM PM LM cfg starts None lim) /\
    table_of_answers (fun f => dij_step vid WT DM PM LM f cfg) (dij_asks vid WT cfg) [] answer vid n (dij_init vid WT DM PM LM cfg starts None lim) T.
Proof.
  intros Hpos.
  assert (Hd0 : forall i, is_start vid starts i -> w_leb WT (w_zero WT) (d0 vid WT DM cfg starts None i) = true).
  { intros i Hi. erewrite (d0_start I_dec vid WT DM PM LM (fun _ => []) cfg Ht (fun _ _ _ => False)); [apply w_leb_refl| | |exact Hi]; [intros u w j; split; intros []|intros ? ? ? []]. }
  exact (aware_table I_dec vid (fun f => dij_step vid WT DM PM LM f cfg) (dij_asks vid WT cfg) [] answer
    (fun s => map vid (map (fun x => fst (fst x)) (d_calls s))) (fun l => forall e, In e l -> w_leb WT (w_zero WT) (snd (fst e)) = true) (dij_init vid WT DM PM LM cfg starts None lim)
    (dij_local vid WT DM PM LM cfg) (dij_called vid WT DM PM LM cfg) (dij_asked_go vid WT DM PM LM cfg)
    (fun T n os s HT HR => dij_once I_dec vid WT DM PM LM cfg Ht T starts None lim n os s HT Hd0 HN HR) eq_refl
    (fun e (H : In e []) => match H with end)
    (fun i s v => match answer i s v as a return (forall es e, a = inr es -> In e es -> w_leb WT (w_zero WT) (snd (fst e)) = true) -> forall e, In e (edges_of [] a) -> w_leb WT (w_zero WT) (snd (fst e)) = true with
                  | inl _ => fun _ e (H : In e []) => match H with end
                  | inr es => fun H e He => H es e eq_refl He
                  end (Hpos i s v)) n).
Qed.

(** The graph of the answers *)
Lemma table_edges {S O X} (step : (V -> list (V * L)) -> S -> step_result S O X) asks answer n s T : table_of_answers step asks [] answer vid n s T ->
  presents vid (fun v => T (vid v)) (edge_of_answers step asks answer vid n s).
Proof.
  intros (HT & HO & _) v j. rewrite in_map_iff. split.
  - intros ((w & l) & Hj & Hin). destruct (HO (vid v)) as [H|(k & u & Hu & Ha)]; [rewrite H in Hin; destruct Hin|]. exists k, u, (T (vid v)), w, l. auto.
  - intros (k & u & es & w & l & Ha & Hu & Hin & Hj). rewrite <- Hu, (HT _ _ _ Ha). exists (w, l). auto.
Qed.

Lemma table_weighted_edges {S O X} (step : (V -> list (V * w_t WT * L)) -> S -> step_result S O X) asks answer n s T : table_of_answers step asks [] answer vid n s T ->
  presents_weighted WT vid (fun v => T (vid v)) (weighted_edge_of_answers step asks answer vid n s).
Proof.
  intros (HT & HO & _) v x j. rewrite in_map_iff. split.
  - intros (((w & y) & l) & Hj & Hin). inversion Hj; subst. destruct (HO (vid v)) as [H|(k & u & Hu & Ha)]; [rewrite H in Hin; destruct Hin|]. exists k, u, (T (vid v)), w, l. auto.
  - intros (k & u & es & w & l & Ha & Hu & Hin & Hj). rewrite <- Hu, (HT _ _ _ Ha). exists (w, x, l). subst. auto.
Qed.

Lemma runs_like_ended {S O X A} (step : (V -> A) -> S -> step_result S O X) asks nothing answer next n s os s' : runs_like step asks nothing answer next n s ->
  aware_run step asks nothing answer 0 n s = (os, Ended s') -> run (step next) n s = (os, Ended s').
Proof. intros [H|(i & vs & x & _ & _ & H)] HR; rewrite HR in H; [now symmetry|discriminate]. Qed.

Lemma bfs_aware_reports cfg starts lim (answer : nat -> @bfs_state V I L VS PM LM -> V -> exn + list (V * L)) n os r :
  bc_is_tree cfg = false -> bc_report_depth_increase cfg = false -> NoDup (map vid starts) ->
  let step f := bfs_step vid VS PM LM f cfg in let init := bfs_init vid VS PM LM cfg starts None lim in
  let E := edge_of_answers step bfs_asks answer vid n init in
  aware_run step bfs_asks [] answer 0 n init = (os, r) ->
  (NoDup (bfs_ids vid os) /\
   (forall rep, In rep os -> exists k, br_depth rep = Z.of_nat k /\ min_depth E (is_start vid starts) (vid (br_vertex rep)) k) /\
   StronglySorted (fun a b => br_depth a <= br_depth b)%Z os) /\
  (forall s', r = Ended s' -> forall i, reachable E (is_start vid starts) i -> is_start vid starts i \/ In i (bfs_ids vid os)).
Proof.
  intros Ht Hr HN step init E HR. destruct (bfs_aware cfg starts None lim Ht HN answer n) as (T & HL & HT).
  pose proof (table_edges _ _ _ _ _ _ HT) as HE. split.
  - apply (aware_reports vid step bfs_asks [] answer init n T (fun os => NoDup (bfs_ids vid os) /\
      (forall rep, In rep os -> exists k, br_depth rep = Z.of_nat k /\ min_depth E (is_start vid starts) (vid (br_vertex rep)) k) /\
      StronglySorted (fun a b => br_depth a <= br_depth b)%Z os) os r HL); [|exact HR].
    intros m. destruct (run (step (fun v => T (vid v))) m init) as [os1 r1] eqn:E1. cbn [fst].
    destruct (bfs_none_reported I_dec vid VS PM LM (fun v => T (vid v)) cfg Ht Hr E HE starts lim m os1 r1 E1) as (H1 & _).
    destruct (bfs_none_depth I_dec vid VS PM LM (fun v => T (vid v)) cfg Ht Hr E HE starts lim m os1 r1 E1) as (H2 & H3 & _). auto.
  - intros s' ->. pose proof (runs_like_ended _ _ _ _ _ _ _ _ _ HL HR) as HR'.
    destruct (bfs_none_reported I_dec vid VS PM LM (fun v => T (vid v)) cfg Ht Hr E HE starts lim n os (Ended s') HR') as (_ & _ & H). exact (proj1 (H s' eq_refl)).
Qed.

Lemma dij_aware_reports cfg starts lim (answer : nat -> @dij_state V I L WT DM PM LM -> V -> exn + list (V * w_t WT * L)) n os r :
  dc_is_tree cfg = false -> NoDup (map vid starts) ->
  (forall i s v es e, answer i s v = inr es -> In e es -> w_leb WT (w_zero WT) (snd (fst e)) = true) ->
  let step f := dij_step vid WT DM PM LM f cfg in let init := dij_init vid WT DM PM LM cfg starts None lim in
  let E := weighted_edge_of_answers step (dij_asks vid WT cfg) answer vid n init in
  aware_run step (dij_asks vid WT cfg) [] answer 0 n init = (os, r) ->
  (forall rep, In rep os -> is_distance WT E (is_start vid starts) (vid (dr_vertex rep)) (dr_distance rep)) /\
  StronglySorted (fun a b => w_leb WT (dr_distance a) (dr_distance b) = true) os.
Proof.
  intros Ht HN Hpos step init E HR. destruct (dij_aware cfg starts lim Ht HN answer n Hpos) as (T & HG & HL & HT).
  pose proof (table_weighted_edges _ _ _ _ _ _ HT) as HE.
  assert (Hnn : nonnegative WT E).
  { intros i w j (k & v & es & u & l & Ha & Hv & Hin & Hj). destruct HT as [HT _]. rewrite <- (HT _ _ _ Ha) in Hin. exact (HG _ _ Hin). }
  apply (aware_reports vid step (dij_asks vid WT cfg) [] answer init n T (fun os =>
    (forall rep, In rep os -> is_distance WT E (is_start vid starts) (vid (dr_vertex rep)) (dr_distance rep)) /\
    StronglySorted (fun a b => w_leb WT (dr_distance a) (dr_distance b) = true) os) os r HL); [|exact HR].
  intros m. destruct (run (step (fun v => T (vid v))) m init) as [os1 r1] eqn:E1. cbn [fst].
  exact (dij_distances I_dec vid WT DM PM LM (fun v => T (vid v)) cfg Ht E HE Hnn starts lim m os1 r1 E1).
Qed.
End Inst.
