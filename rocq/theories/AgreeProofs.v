(** Proofs for C104: what different strategies report about the same graph. *)
From Coq Require Import List ZArith Bool Arith Lia Permutation.
From Verif Require Import Machine GearSpec Spec TraversalSpec Common CommonProofs PathsModel PathsSpec PathsExact Weight WeightSpec AStarSpec HeapModel
  BFSModel NTDModel DFSModel DFSSpec DijkstraModel AStarModel MSTModel MSTSpec BiSpec BiBFSModel AgreeSpec.
From Verif Require PropBFS PropNTD PropDFS PropDijkstra PropAStar PropMST PropBiBFS.
Import ListNotations.

Section Graphs.
Context {V I L : Type} (vid : V -> I) (WT : Weights) (next : V -> list (V * w_t WT * L)) (E : I -> w_t WT -> I -> Prop).

Lemma presents_unweighted : presents_weighted WT vid next E -> presents vid (no_weights next) (unweighted E).
Proof.
  intros H u j. unfold no_weights. rewrite map_map. cbn. rewrite in_map_iff. split.
  - intros (e & <- & He). exists (snd (fst e)). apply H. apply in_map_iff. eauto.
  - intros (w & Hw). apply H in Hw. apply in_map_iff in Hw. destruct Hw as (e & He & Hin). injection He as H1 H2. eauto.
Qed.
Lemma walk_weighted i p k : walk (unweighted E) i p k -> exists q, wwalk WT E i q k /\ map snd q = p.
Proof. intros H. induction H as [i|i j p k (w & He) H (q & H1 & <-)]; [exists []; split; constructor|]. exists ((w, j) :: q). split; [econstructor; eassumption|reflexivity]. Qed.
Lemma walk_without i p k : wwalk WT E i p k -> walk (unweighted E) i (map snd p) k.
Proof. intros H. induction H; cbn; econstructor; [eexists; eassumption|eassumption]. Qed.
Lemma reach_same St i : reachable (unweighted E) St i <-> wreachable WT E St i.
Proof.
  split; intros (s & p & Hs & Hw).
  - destruct (walk_weighted _ _ _ Hw) as (q & Hq & _). exists s, q. auto.
  - exists s, (map snd p). split; [exact Hs|now apply walk_without].
Qed.
End Graphs.

Section Sets.
Context {V I L : Type} (V_dec : forall a b : V, {a = b} + {a <> b}) (I_dec : forall a b : I, {a = b} + {a <> b}) (vid : V -> I) (WT : Weights) (VS : VSet I) (DM : DMap I (w_t WT) (w_inf WT)) (PM : PMap I V) (LM : PMap I L) (XM : DMap I Z 0%Z).
Context (next : V -> list (V * w_t WT * L)) (E : I -> w_t WT -> I -> Prop) (starts : list V).
Hypothesis HE : presents_weighted WT vid next E.
Notation St := (is_start vid starts).
Notation G := (unweighted E).
Notation found i := (reachable G St i /\ ~ St i).

Lemma bfs_found cfg lim n os s : bc_is_tree cfg = false -> bc_report_depth_increase cfg = false ->
  bfs_run vid VS PM LM (no_weights next) cfg starts None lim n = (os, Ended s) -> NoDup (bfs_ids vid os) /\ forall i, In i (bfs_ids vid os) <-> found i.
Proof using I_dec HE.
  intros Ht Hr HR. destruct (PropBFS.C01_bfs_reports_reachable_once I_dec vid VS PM LM (no_weights next) cfg G starts Ht Hr (presents_unweighted vid WT next E HE)) as (H & _).
  destruct (H _ _ _ _ HR) as (H1 & H2 & H3). split; [exact H1|]. intros i. split.
  - intros Hi. apply in_map_iff in Hi. destruct Hi as (rep & <- & Hi). split; apply (H2 rep Hi).
  - intros (Hi & Hn). destruct (H3 s eq_refl) as (H4 & _). destruct (H4 i Hi); tauto.
Qed.
Lemma ntd_found cfg lim n os s : nc_is_tree cfg = false ->
  ntd_run vid VS PM LM (no_weights next) cfg starts None lim n = (os, Ended s) -> NoDup (ntd_ids vid os) /\ forall i, In i (ntd_ids vid os) <-> found i.
Proof using I_dec HE.
  intros Ht HR. destruct (PropNTD.C07_ntd_reports_reachable_once I_dec vid VS PM LM (no_weights next) cfg G starts Ht (presents_unweighted vid WT next E HE)) as (H & _).
  destruct (H _ _ _ _ HR) as (H1 & H2 & _ & H3). split; [exact H1|]. intros i. split.
  - intros Hi. apply in_map_iff in Hi. destruct Hi as (rep & <- & Hi). split; apply (H2 rep Hi).
  - intros (Hi & Hn). destruct (H3 s eq_refl) as (H4 & _). destruct (H4 i Hi); tauto.
Qed.
Lemma dfs_found o cfg lim n os c : dfs_options o false = inl cfg -> dc_mode cfg = DFS_TREE -> DFSModel.dc_is_tree cfg = false ->
  (forall ev, dc_report cfg ev = true <-> ev = ENTERING_START \/ ev = ENTERING_SUCCESSOR) ->
  dfs_traverse V_dec vid VS PM LM XM (no_weights next) cfg (fun _ => false) starts None lim n = (os, Ended c) ->
  NoDup (map (fun rep => vid (fr_vertex rep)) os) /\ forall i, In i (map (fun rep => vid (fr_vertex rep)) os) <-> reachable G St i.
Proof using HE.
  intros Ho Hm Ht Hrep HR.
  destruct (PropDFS.C09_dfs_reports_reachable_once V_dec vid VS PM LM XM (no_weights next) starts o cfg (fun _ => false) None Ho Hm Ht
    (fun ev => proj1 (Hrep ev)) (proj2 (Hrep _) (or_intror eq_refl)) G (presents_unweighted vid WT next E HE)) as (H & _).
  destruct (H _ _ _ _ HR) as (H1 & H2 & _ & H3). split; [exact H1|].
  assert (Hw : forall i p j, walk G i p j <-> walk (avoiding G (in_already_visited VS None)) i p j).
  { intros i p j. split; intros W; induction W; econstructor; eauto; [split; [eassumption|intros []]|apply H0]. }
  intros i. split.
  - intros Hi. destruct (H2 i Hi) as (_ & s & p & (Hs & _) & W). exists s, p. split; [exact Hs|]. now apply Hw.
  - intros (s & p & Hs & W). destruct (H3 c eq_refl (fun _ => eq_refl) i) as [Hi|(Hi & _)]; [|exact Hi|].
    + exists s, p. split; [split; [exact Hs|intros []]|]. now apply Hw.
    + rewrite (proj2 (Hrep ENTERING_START) (or_introl eq_refl)) in Hi. discriminate.
Qed.
Lemma dij_found cfg lim n os s : dc_is_tree cfg = false -> nonnegative WT E ->
  dij_run vid WT DM PM LM next cfg starts None lim n = (os, Ended s) -> NoDup (dij_ids vid os) /\ forall i, In i (dij_ids vid os) <-> found i.
Proof using I_dec HE.
  intros Ht Hn HR. destruct (PropDijkstra.C21_dijkstra_reports_reachable_once I_dec vid WT DM PM LM next cfg E starts Ht HE Hn) as (H & _).
  destruct (H _ _ _ _ HR) as (H1 & H2 & H3). split; [exact H1|]. intros i. rewrite reach_same. split.
  - intros Hi. apply in_map_iff in Hi. destruct Hi as (rep & <- & Hi). split; apply (H2 rep Hi).
  - intros (Hi & Hns). destruct (H3 s eq_refl i Hi); tauto.
Qed.
Lemma ast_found cfg heuristic h lim n os s : ac_is_tree cfg = false -> nonnegative WT E -> exact WT -> (forall v, heuristic v = h (vid v)) ->
  ast_run vid WT DM PM LM next cfg heuristic starts None None lim n = (os, Ended s) -> forall i, In i (ast_ids vid os) <-> found i.
Proof using I_dec HE.
  intros Ht Hn Hx Hh HR. destruct (PropAStar.C54_astar_any_heuristic I_dec vid WT DM PM LM next cfg E heuristic h starts Ht HE Hn Hx Hh) as (H & _).
  destruct (H _ _ _ _ HR) as (H2 & H3). intros i. rewrite reach_same. split.
  - intros Hi. apply in_map_iff in Hi. destruct Hi as (rep & <- & Hi). destruct (H2 rep Hi) as (K1 & s0 & p & K2 & K3 & _). split; [exists s0, p; auto|exact K1].
  - intros (Hi & Hns). destruct (H3 s eq_refl) as (H4 & _). destruct (H4 i Hi) as (_ & [K|(rep & K1 & <- & _)]); [tauto|]. apply in_map_iff. eauto.
Qed.
Lemma mst_found cfg lim n os s : mst_run vid WT VS PM LM next cfg starts lim n = (os, Ended s) -> NoDup (mst_ids vid os) /\ forall i, In i (mst_ids vid os) <-> found i.
Proof using V_dec I_dec HE.
  intros HR. destruct (PropMST.C28_mst_spanning_tree V_dec I_dec vid WT VS PM LM next cfg E starts HE) as (H & _).
  destruct (H _ _ _ _ HR) as (H1 & _ & _ & _ & H5).
  assert (Hr : forall o2 o1, os = o1 ++ o2 -> NoDup (mst_ids vid o1) /\ forall i, In i (mst_ids vid o1) -> found i).
  { assert (G1 : forall m o1 o2, length o1 = m -> os = o1 ++ o2 -> NoDup (mst_ids vid o1) /\ forall i, In i (mst_ids vid o1) -> found i).
    { induction m as [|m IH]; intros o1 o2 Hl Heq; [destruct o1; [|discriminate]; split; [constructor|intros i []]|].
      destruct (exists_last (l := o1)) as (o & rep & ->); [intros ->; discriminate|]. rewrite app_length in Hl. cbn in Hl. rewrite <- app_assoc in Heq. destruct (IH o ([rep] ++ o2)) as (K1 & K2); [lia|exact Heq|].
      destruct (H1 o rep o2 Heq) as (u & w & l & _ & Hin & Hu & Hs & Hnew & _). unfold mst_ids in *. rewrite map_app. cbn. split.
      - apply NoDup_Add with (a := vid (mr_vertex rep)) (l := map (fun r => vid (mr_vertex r)) o); [|split; assumption]. pose proof (Add_app (vid (mr_vertex rep)) (map (fun r => vid (mr_vertex r)) o) []) as Ha. now rewrite app_nil_r in Ha.
      - intros i Hi. apply in_app_iff in Hi. destruct Hi as [Hi|[<-|[]]]; [now apply K2|]. split; [|exact Hs].
        assert (He : G (vid u) (vid (mr_vertex rep))) by (exists w; apply HE; apply in_map_iff; exists (mr_vertex rep, w, l); auto).
        assert (Hru : reachable G St (vid u)).
        { destruct Hu as [Hu|Hu]; [exists (vid u), []; split; [now apply in_map|constructor]|]. apply K2. apply in_map_iff in Hu. destruct Hu as (r' & <- & Hr'). apply in_map_iff. eauto. }
        destruct Hru as (s0 & p & K3 & K4). exists s0, (p ++ [vid (mr_vertex rep)]). split; [exact K3|]. clear -K4 He. induction K4; cbn; econstructor; eauto. constructor. }
    intros o2 o1. apply (G1 (length o1)). reflexivity. }
  destruct (Hr [] os) as (K1 & K2); [now rewrite app_nil_r|]. split; [exact K1|]. intros i. split; [apply K2|]. intros (Hi & Hns). destruct (H5 s eq_refl i); [now apply reach_same|tauto|assumption].
Qed.
End Sets.

Lemma same_elements {A} (l1 l2 : list A) (P : A -> Prop) : NoDup l1 /\ (forall i, In i l1 <-> P i) -> NoDup l2 /\ (forall i, In i l2 <-> P i) -> Permutation l1 l2.
Proof. intros (H1 & H2) (H3 & H4). apply NoDup_Permutation; auto. intros i. rewrite H2, H4. reflexivity. Qed.

(** Unit weights: the weight of a walk is the number of its edges. *)
Lemma unit_walk_weight {I} (E : I -> option Z -> I -> Prop) i p j : unit_weights E -> wwalk ZInfWeights E i p j ->
  forall d, fold_left (fun d e => zi_add (fst e) d) p (Some d) = Some (d + Z.of_nat (length p))%Z.
Proof.
  intros Hu H. induction H as [i|i w j p k He H IH]; intros d; cbn [fold_left length fst]; [f_equal; lia|].
  rewrite (Hu _ _ _ He). cbn [zi_add]. rewrite IH. f_equal. lia.
Qed.
Lemma unit_nonnegative {I} (E : I -> option Z -> I -> Prop) : unit_weights E -> nonnegative ZInfWeights E.
Proof. intros Hu i w j He. rewrite (Hu _ _ _ He). reflexivity. Qed.
Lemma unit_distance {I} (E : I -> option Z -> I -> Prop) Start i k : unit_weights E -> min_depth (unweighted E) Start i k -> is_distance ZInfWeights E Start i (Some (Z.of_nat k)).
Proof.
  intros Hu ((s & p & Hs & Hw & Hl) & Hm). destruct (walk_weighted ZInfWeights E _ _ _ Hw) as (q & Hq & Hqp). split.
  - exists s, q. repeat split; auto. unfold walk_weight. change (w_zero ZInfWeights) with (Some 0%Z). etransitivity; [exact (unit_walk_weight E _ _ _ Hu Hq 0%Z)|]. rewrite <- Hl, <- Hqp, map_length. reflexivity.
  - intros s' p' Hs' Hw'. pose proof (Hm s' (map snd p') Hs' (walk_without ZInfWeights E _ _ _ Hw')) as Hle. rewrite map_length in Hle.
    replace (walk_weight ZInfWeights p') with (Some (0 + Z.of_nat (length p'))%Z) by (symmetry; exact (unit_walk_weight E _ _ _ Hu Hw' 0%Z)).
    change ((Z.of_nat k <=? 0 + Z.of_nat (length p'))%Z = true). apply Z.leb_le. change (w_t ZInfWeights) with (option Z) in *. lia.
Qed.

Section Lengths.
Context {V I L : Type} (V_dec : forall a b : V, {a = b} + {a <> b}) (I_dec : forall a b : I, {a = b} + {a <> b}) (vid : V -> I) (VS : VSet I) (PM : PMap I V) (LM : PMap I L).

Lemma bfs_dijkstra_depth (DM : DMap I (option Z) None) (next : V -> list (V * option Z * L)) (E : I -> option Z -> I -> Prop) bcfg dcfg starts blim bn bos br dlim dn dos dr :
  presents_weighted ZInfWeights vid next E -> unit_weights E -> bc_is_tree bcfg = false -> bc_report_depth_increase bcfg = false -> dc_is_tree dcfg = false ->
  bfs_run vid VS PM LM (no_weights next) bcfg starts None blim bn = (bos, br) -> dij_run vid ZInfWeights DM PM LM next dcfg starts None dlim dn = (dos, dr) ->
  forall b d, In b bos -> In d dos -> vid (br_vertex b) = vid (dr_vertex d) -> dr_distance d = Some (br_depth b).
Proof using I_dec.
  intros HE Hu H1 H2 H3 HB HD b d Hb Hd Heq.
  destruct (PropBFS.C02_bfs_depth_minimal I_dec vid VS PM LM (no_weights next) bcfg (unweighted E) starts blim bn bos br H1 H2 (presents_unweighted vid ZInfWeights next E HE) HB) as (K1 & _).
  destruct (PropDijkstra.C20_dijkstra_distance_minimal I_dec vid ZInfWeights DM PM LM next dcfg E starts dlim dn dos dr H3 HE (unit_nonnegative E Hu) HD) as (K2 & _).
  destruct (K1 b Hb) as (k & -> & Hk). pose proof (K2 d Hd) as Hd'. rewrite <- Heq in Hd'.
  exact (is_distance_unique ZInfWeights E _ _ _ _ Hd' (unit_distance E _ _ _ Hu Hk)).
Qed.

Lemma astar_dijkstra (WT : Weights) (DM : DMap I (w_t WT) (w_inf WT)) (next : V -> list (V * w_t WT * L)) (E : I -> w_t WT -> I -> Prop) acfg dcfg heuristic h starts alim an aos ar dlim dn dos dr :
  presents_weighted WT vid next E -> nonnegative WT E -> exact WT -> ac_is_tree acfg = false -> dc_is_tree dcfg = false ->
  (forall v, heuristic v = h (vid v)) -> consistent WT E h -> finite_estimates WT h ->
  ast_run vid WT DM PM LM next acfg heuristic starts None None alim an = (aos, ar) -> dij_run vid WT DM PM LM next dcfg starts None dlim dn = (dos, dr) ->
  forall a d, In a aos -> In d dos -> vid (ar_vertex a) = vid (dr_vertex d) -> ar_path_length a = dr_distance d.
Proof using V_dec I_dec.
  intros HE Hn Hx H1 H2 Hh Hc Hf HA HD a d Ha Hd Heq.
  destruct (PropAStar.C27_astar_consistent V_dec I_dec vid WT DM PM LM next acfg E heuristic h starts alim an aos ar H1 HE Hn Hx Hh Hc Hf HA) as (_ & K1 & _).
  destruct (PropDijkstra.C20_dijkstra_distance_minimal I_dec vid WT DM PM LM next dcfg E starts dlim dn dos dr H2 HE Hn HD) as (K2 & _).
  pose proof (K1 a Ha) as A1. rewrite Heq in A1. exact (is_distance_unique WT E _ _ _ _ A1 (K2 d Hd)).
Qed.

Lemma bidirectional_bfs_agrees (next_f next_b : V -> list (V * L)) (E : I -> I -> Prop) bcfg labeled build_path fail_silently starts goals blim bn bos bs lim n os r :
  presents vid next_f E -> presents vid next_b (fun i j => E j i) -> bc_is_tree bcfg = false -> bc_report_depth_increase bcfg = false ->
  bfs_run vid VS PM LM next_f bcfg starts None blim bn = (bos, Ended bs) ->
  bb_run V_dec I_dec vid VS PM LM next_f next_b labeled build_path fail_silently starts goals lim n = (os, r) ->
  (forall x, In x os -> (0 <= br_length x)%Z ->
     ((exists s g, In s starts /\ In g goals /\ vid s = vid g) /\ br_length x = 0%Z) \/
     ((forall s g, In s starts -> In g goals -> vid s <> vid g) /\
      (exists b g, In b bos /\ In g goals /\ vid (br_vertex b) = vid g /\ br_depth b = br_length x) /\
      (forall b g, In b bos -> In g goals -> vid (br_vertex b) = vid g -> (br_length x <= br_depth b)%Z))) /\
  ((exists x, In x os /\ (br_length x < 0)%Z) \/ (exists s, r = Raised KeyErrorNotFound s) ->
     forall g, In g goals -> ~ In (vid g) (bfs_ids vid bos) /\ ~ In (vid g) (map vid starts)).
Proof using V_dec I_dec.
  intros Hf Hb H1 H2 HB HR.
  destruct (PropBiBFS.C31_bidirectional_bfs_exact V_dec I_dec vid VS PM LM next_f next_b labeled build_path fail_silently E starts goals lim Hf Hb) as (HX & _). specialize (HX n os r HR).
  destruct (PropBFS.C02_bfs_depth_minimal I_dec vid VS PM LM next_f bcfg E starts blim bn bos (Ended bs) H1 H2 Hf HB) as (KD & _).
  destruct (PropBFS.C01_bfs_reports_reachable_once I_dec vid VS PM LM next_f bcfg E starts H1 H2 Hf) as (KR & _). destruct (KR _ _ _ _ HB) as (_ & KR1 & KR2). destruct (KR2 bs eq_refl) as (KR3 & _). clear KR KR2.
  assert (Hnone : (forall k, ~ connection vid E starts goals k) -> forall g, In g goals -> ~ In (vid g) (bfs_ids vid bos) /\ ~ In (vid g) (map vid starts)).
  { intros Hno g Hg. split.
    - intros Hin. apply in_map_iff in Hin. destruct Hin as (b & Hbg & Hin). destruct (KR1 b Hin) as (_ & s & p & Hs & Hw). rewrite Hbg in Hw. apply (Hno (length p)). exists s, p, (vid g). repeat split; auto. now apply in_map.
    - intros Hin. apply (Hno 0). exists (vid g), [], (vid g). repeat split; auto; [now apply in_map|constructor]. }
  split.
  - intros x Hx Hpos. destruct r as [s|s|e s]; [subst os; contradiction| |destruct HX as (-> & _); contradiction].
    destruct HX as (y & -> & Hy). destruct Hx as [->|[]]. destruct Hy as [(k & Hk & (s0 & p & g0 & Hs & Hg & Hw & Hl) & Hmin)|(_ & Hm & _)]; [|lia].
    destruct (in_dec I_dec g0 (map vid starts)) as [Hin|Hnin].
    + left. apply in_map_iff in Hin. destruct Hin as (s1 & Hs1 & Hin). pose proof Hg as Hg'. apply in_map_iff in Hg'. destruct Hg' as (g1 & Hg1 & Hg1'). split; [exists s1, g1; repeat split; auto; congruence|].
      assert (k <= 0); [|rewrite Hk; lia]. apply Hmin. exists g0, [], g0. repeat split; auto; [|constructor]. apply in_map_iff. eauto.
    + assert (Hk0 : k <> 0 -> forall s g, In s starts -> In g goals -> vid s <> vid g).
      { intros Hne s9 g9 Hs' Hg' Heq. apply Hne. assert (k <= 0); [|lia]. apply Hmin. exists (vid s9), [], (vid s9). repeat split; [now apply in_map|rewrite Heq; now apply in_map|constructor]. }
      right. split; [|split].
      * apply Hk0. intros ->. destruct p; [|discriminate Hl]. inversion Hw; subst. contradiction.
      * destruct (KR3 g0) as [Hst|Hrep]; [exists s0, p; auto|contradiction|]. apply in_map_iff in Hrep. destruct Hrep as (b & Hbg & Hbin). apply in_map_iff in Hg. destruct Hg as (g1 & Hg1 & Hg1').
        exists b, g1. repeat split; auto; [congruence|]. destruct (KD b Hbin) as (k' & Hk' & (s' & p' & Hs' & Hw' & Hl') & Hm'). rewrite Hk', Hk. f_equal. rewrite Hbg in *.
        assert (k <= k') by (apply Hmin; exists s', p', g0; repeat split; auto; apply in_map_iff; eauto). specialize (Hm' s0 p Hs Hw). lia.
      * intros b g Hbin Hg' Hbg. destruct (KD b Hbin) as (k' & Hk' & (s' & p' & Hs' & Hw' & Hl') & Hm'). rewrite Hk', Hk. assert (k <= k'); [|lia]. apply Hmin. exists s', p', (vid g). rewrite Hbg in Hw'. repeat split; auto. now apply in_map.
  - intros [(x & Hx & Hneg)|(s & ->)].
    + apply Hnone. destruct r as [s|s|e s]; [subst os; contradiction| |destruct HX as (-> & _); contradiction].
      destruct HX as (y & -> & Hy). destruct Hx as [->|[]]. destruct Hy as [(k & Hk & _)|(_ & _ & Hno)]; [lia|exact Hno].
    + apply Hnone. destruct HX as (_ & [(He & _)|(_ & _ & Hno)]); [discriminate|exact Hno].
Qed.
End Lengths.

Lemma all_agree {V I L : Type} (V_dec : forall a b : V, {a = b} + {a <> b}) (I_dec : forall a b : I, {a = b} + {a <> b}) (vid : V -> I) (WT : Weights)
    (VS : VSet I) (DM : DMap I (w_t WT) (w_inf WT)) (PM : PMap I V) (LM : PMap I L) (XM : DMap I Z 0%Z)
    (next : V -> list (V * w_t WT * L)) (E : I -> w_t WT -> I -> Prop) (starts : list V) (HE : presents_weighted WT vid next E) bcfg blim bn bos bs :
  bc_is_tree bcfg = false -> bc_report_depth_increase bcfg = false ->
  bfs_run vid VS PM LM (no_weights next) bcfg starts None blim bn = (bos, Ended bs) ->
  (forall cfg lim n os s, nc_is_tree cfg = false -> ntd_run vid VS PM LM (no_weights next) cfg starts None lim n = (os, Ended s) ->
     Permutation (ntd_ids vid os) (bfs_ids vid bos)) /\
  (forall o cfg lim n os c, dfs_options o false = inl cfg -> dc_mode cfg = DFS_TREE -> DFSModel.dc_is_tree cfg = false ->
     (forall ev, dc_report cfg ev = true <-> ev = ENTERING_START \/ ev = ENTERING_SUCCESSOR) ->
     dfs_traverse V_dec vid VS PM LM XM (no_weights next) cfg (fun _ => false) starts None lim n = (os, Ended c) ->
     NoDup (map (fun rep => vid (fr_vertex rep)) os) /\
     forall i, In i (map (fun rep => vid (fr_vertex rep)) os) <-> is_start vid starts i \/ In i (bfs_ids vid bos)) /\
  (forall cfg lim n os s, DijkstraModel.dc_is_tree cfg = false -> nonnegative WT E -> dij_run vid WT DM PM LM next cfg starts None lim n = (os, Ended s) ->
     Permutation (dij_ids vid os) (bfs_ids vid bos)) /\
  (forall cfg lim n os s, mst_run vid WT VS PM LM next cfg starts lim n = (os, Ended s) -> Permutation (mst_ids vid os) (bfs_ids vid bos)) /\
  (forall cfg heuristic h lim n os s, ac_is_tree cfg = false -> nonnegative WT E -> exact WT -> (forall v, heuristic v = h (vid v)) ->
     ast_run vid WT DM PM LM next cfg heuristic starts None None lim n = (os, Ended s) ->
     forall i, In i (ast_ids vid os) <-> In i (bfs_ids vid bos)).
Proof.
  intros Ht Hr HB. pose proof (bfs_found I_dec vid WT VS PM LM next E starts HE bcfg blim bn bos bs Ht Hr HB) as (B1 & B2). repeat split.
  - intros cfg lim n os s Hn HR. eapply same_elements; [exact (ntd_found I_dec vid WT VS PM LM next E starts HE _ _ _ _ _ Hn HR)|split; assumption].
  - apply (dfs_found V_dec vid WT VS PM LM XM next E starts HE o cfg lim n os c); assumption.
  - intros Hi. assert (Hx : reachable (unweighted E) (is_start vid starts) i) by (apply (dfs_found V_dec vid WT VS PM LM XM next E starts HE o cfg lim n os c); assumption).
    destruct (in_dec I_dec i (map vid starts)); [left; assumption|right]. now apply B2.
  - intros Hi. apply (dfs_found V_dec vid WT VS PM LM XM next E starts HE o cfg lim n os c); try assumption. destruct Hi as [Hi|Hi]; [exists i, []; split; [exact Hi|constructor]|now apply B2].
  - intros cfg lim n os s Hc Hn HR. eapply same_elements; [exact (dij_found I_dec vid WT DM PM LM next E starts HE _ _ _ _ _ Hc Hn HR)|split; assumption].
  - intros cfg lim n os s HR. eapply same_elements; [exact (mst_found V_dec I_dec vid WT VS PM LM next E starts HE _ _ _ _ _ HR)|split; assumption].
  - intros Hi. apply B2. apply (ast_found I_dec vid WT DM PM LM next E starts HE cfg heuristic h lim n os s); assumption.
  - intros Hi. apply (ast_found I_dec vid WT DM PM LM next E starts HE cfg heuristic h lim n os s); try assumption. now apply B2.
Qed.
