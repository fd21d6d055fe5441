(** Proofs for C122: what is independent of the order in which edges and start vertices are given. *)
From Coq Require Import List ZArith Bool Arith Lia Permutation Sorted.
From Verif Require Import Machine GearSpec Spec TraversalSpec Common PathsModel PathsSpec Weight WeightSpec BFSModel NTDModel DijkstraModel MSTModel MSTSpec MSTProofs MSTMoreSpec
  BiSpec BiBFSModel AgreeProofs.
From Verif Require PropBFS PropNTD PropDijkstra PropMST PropMSTMore PropBiBFS.
Import ListNotations.

Lemma pairs_perm {I D} (l1 l2 : list (I * D)) (Q : I -> D -> Prop) : (forall i d d', Q i d -> Q i d' -> d = d') ->
  NoDup (map fst l1) -> NoDup (map fst l2) -> (forall i, In i (map fst l1) <-> In i (map fst l2)) ->
  (forall i d, In (i, d) l1 -> Q i d) -> (forall i d, In (i, d) l2 -> Q i d) -> Permutation l1 l2.
Proof.
  intros HQ N1 N2 HI H1 H2. apply NoDup_Permutation; [exact (NoDup_map_inv _ _ N1)|exact (NoDup_map_inv _ _ N2)|].
  assert (G : forall a b : list (I * D), (forall i, In i (map fst a) -> In i (map fst b)) -> (forall i d, In (i, d) a -> Q i d) -> (forall i d, In (i, d) b -> Q i d) ->
    forall x, In x a -> In x b).
  { intros a b Hab Ha Hb [i d] Hin. assert (Hi : In i (map fst b)) by (apply Hab; apply in_map_iff; exists (i, d); auto).
    apply in_map_iff in Hi. destruct Hi as ([i' d'] & Hi & Hin'). cbn in Hi. subst i'. rewrite (HQ i d d'); auto. }
  intros x. split; apply G; auto; intros i; apply HI.
Qed.
Lemma sorted_perm {A} (R : A -> A -> Prop) (Hanti : forall a b, R a b -> R b a -> a = b) : forall l1 l2, StronglySorted R l1 -> StronglySorted R l2 -> Permutation l1 l2 -> l1 = l2.
Proof.
  induction l1 as [|a l1 IH]; intros l2 S1 S2 P; [now apply Permutation_nil in P|].
  destruct l2 as [|b l2]; [now apply Permutation_sym, Permutation_nil in P|].
  apply StronglySorted_inv in S1. apply StronglySorted_inv in S2. destruct S1 as [S1 F1], S2 as [S2 F2]. rewrite Forall_forall in F1, F2.
  assert (E : a = b).
  { assert (Ha : In a (b :: l2)) by (eapply Permutation_in; [exact P|now left]). assert (Hb : In b (a :: l1)) by (eapply Permutation_in; [apply Permutation_sym, P|now left]).
    destruct Ha as [->|Ha]; [reflexivity|]. destruct Hb as [->|Hb]; [reflexivity|]. apply Hanti; [now apply F1|now apply F2]. }
  subst b. f_equal. apply IH; auto. exact (Permutation_cons_inv P).
Qed.
Lemma sorted_map {A B} (f : A -> B) (R : B -> B -> Prop) l : StronglySorted (fun a b => R (f a) (f b)) l -> StronglySorted R (map f l).
Proof. induction 1 as [|a l S IH F]; cbn; constructor; auto. rewrite Forall_forall in *. intros x Hx. apply in_map_iff in Hx. destruct Hx as (y & <- & Hy). now apply F. Qed.

(** Multisets of weights with the same number of elements above each limit are equal. *)
Section Counts.
Variable WT : Weights.
Definition above (t w : w_t WT) : Z := if w_leb WT w t then 0%Z else 1%Z.
Definition total_above (t : w_t WT) (l : list (w_t WT)) : Z := fold_right (fun w z => (above t w + z)%Z) 0%Z l.
Lemma above_monotone t : monotone WT (above t).
Proof.
  intros a b H. unfold above. destruct (w_leb WT a t) eqn:Ea; [destruct (w_leb WT b t); lia|].
  destruct (w_leb WT b t) eqn:Eb; [|lia]. rewrite (w_leb_trans WT _ _ _ H Eb) in Ea. discriminate.
Qed.
Lemma total_above_cons t a l : total_above t (a :: l) = (above t a + total_above t l)%Z.
Proof. reflexivity. Qed.
Lemma total_above_perm t l1 l2 : Permutation l1 l2 -> total_above t l1 = total_above t l2.
Proof. unfold total_above. induction 1; cbn [fold_right]; try reflexivity; try congruence. lia. Qed.
Lemma total_above_nonneg t l : (0 <= total_above t l)%Z.
Proof. induction l; [apply Z.le_refl|]. rewrite total_above_cons. unfold above. destruct (w_leb WT a t); lia. Qed.
Lemma maximum (l : list (w_t WT)) : l <> [] -> exists m, In m l /\ forall x, In x l -> w_leb WT x m = true.
Proof.
  induction l as [|a l IH]; [congruence|]. intros _. destruct l as [|b l].
  - exists a. split; [now left|]. intros x [<-|[]]. destruct (w_leb_total WT a a); auto.
  - destruct IH as (m & Hm & H); [discriminate|]. destruct (w_leb_total WT a m) as [E|E].
    + exists m. split; [now right|]. intros x [<-|Hx]; auto.
    + exists a. split; [now left|]. intros x [<-|Hx]; [destruct (w_leb_total WT a a); auto|]. eapply w_leb_trans; [apply H, Hx|exact E].
Qed.
Lemma total_above_zero t l : total_above t l = 0%Z <-> forall x, In x l -> w_leb WT x t = true.
Proof.
  split.
  - induction l as [|a l IH]; [intros _ x []|]. rewrite total_above_cons. pose proof (total_above_nonneg t l). unfold above. destruct (w_leb WT a t) eqn:E; [|lia].
    intros Hz x [<-|Hx]; [exact E|]. apply IH; [lia|exact Hx].
  - induction l as [|a l IH]; intros H; [reflexivity|]. rewrite total_above_cons. unfold above. rewrite (H a) by now left. rewrite IH by (intros; apply H; now right). reflexivity.
Qed.
Lemma counts_perm : forall k l1 l2, length l1 = k -> length l2 = k -> (forall t, total_above t l1 = total_above t l2) -> Permutation l1 l2.
Proof.
  induction k as [|k IH]; intros l1 l2 L1 L2 H.
  - destruct l1; [|discriminate]. destruct l2; [constructor|discriminate].
  - destruct (maximum l1) as (m1 & I1 & M1); [intros ->; discriminate|]. destruct (maximum l2) as (m2 & I2 & M2); [intros ->; discriminate|].
    assert (E : m1 = m2).
    { apply (w_leb_antisym WT).
      - apply (proj1 (total_above_zero m2 l1)); [|exact I1]. rewrite H. now apply total_above_zero.
      - apply (proj1 (total_above_zero m1 l2)); [|exact I2]. rewrite <- H. now apply total_above_zero. }
    subst m2. apply in_split in I1. apply in_split in I2. destruct I1 as (a1 & b1 & ->), I2 as (a2 & b2 & ->).
    rewrite !app_length in *. cbn in L1, L2.
    assert (P1 := Permutation_middle a1 b1 m1). assert (P2 := Permutation_middle a2 b2 m1).
    apply Permutation_trans with (m1 :: a1 ++ b1); [now apply Permutation_sym|]. apply Permutation_trans with (m1 :: a2 ++ b2); [|exact P2].
    constructor. apply IH; [rewrite app_length; lia|rewrite app_length; lia|]. intros t. specialize (H t).
    rewrite <- (total_above_perm t _ _ P1), <- (total_above_perm t _ _ P2) in H. rewrite !total_above_cons in H. lia.
Qed.
End Counts.

Section Starts.
Context {V I : Type} (vid : V -> I) (starts1 starts2 : list V).
Hypothesis Hst : forall i, In i (map vid starts1) <-> In i (map vid starts2).
Lemma start_same i : is_start vid starts1 i <-> is_start vid starts2 i. Proof. apply Hst. Qed.
Lemma reachable_same E i : reachable E (is_start vid starts1) i <-> reachable E (is_start vid starts2) i.
Proof. split; intros (s & p & H & W); exists s, p; (split; [now apply start_same|exact W]). Qed.
Lemma wreachable_same WT E i : wreachable WT E (is_start vid starts1) i <-> wreachable WT E (is_start vid starts2) i.
Proof. split; intros (s & p & H & W); exists s, p; (split; [now apply start_same|exact W]). Qed.
Lemma min_depth_same E i k : min_depth E (is_start vid starts2) i k -> min_depth E (is_start vid starts1) i k.
Proof. intros [(s & p & H & W) M]. split; [exists s, p; split; [now apply start_same|exact W]|]. intros s' p' H'. apply M. now apply start_same. Qed.
Lemma is_distance_same WT E i d : is_distance WT E (is_start vid starts2) i d -> is_distance WT E (is_start vid starts1) i d.
Proof. intros [(s & p & H & W) M]. split; [exists s, p; split; [now apply start_same|exact W]|]. intros s' p' H'. apply M. now apply start_same. Qed.
End Starts.

Lemma min_depth_fun {I} (E : I -> I -> Prop) St i k k' : min_depth E St i k -> min_depth E St i k' -> k = k'.
Proof. intros [(s & p & H & W & <-) M] [(s' & p' & H' & W' & <-) M']. specialize (M _ _ H' W'). specialize (M' _ _ H W). lia. Qed.
Lemma is_distance_fun {I} WT (E : I -> w_t WT -> I -> Prop) St i d d' : is_distance WT E St i d -> is_distance WT E St i d' -> d = d'.
Proof. intros [(s & p & H & W & <-) M] [(s' & p' & H' & W' & <-) M']. apply (w_leb_antisym WT); [now apply (M s')|now apply (M' s)]. Qed.

Section Unweighted.
Context {V I L : Type} (V_dec : forall a b : V, {a = b} + {a <> b}) (I_dec : forall a b : I, {a = b} + {a <> b}) (vid : V -> I) (VS : VSet I) (PM : PMap I V) (LM : PMap I L).
Context (next1 next2 : V -> list (V * L)) (E : I -> I -> Prop) (starts1 starts2 : list V).
Hypothesis H1 : presents vid next1 E.
Hypothesis H2 : presents vid next2 E.
Hypothesis Hst : forall i, In i (map vid starts1) <-> In i (map vid starts2).

Lemma bfs_order c1 c2 lim1 lim2 n1 n2 os1 os2 s1 s2 : bc_is_tree c1 = false -> bc_is_tree c2 = false -> bc_report_depth_increase c1 = false -> bc_report_depth_increase c2 = false ->
  bfs_run vid VS PM LM next1 c1 starts1 None lim1 n1 = (os1, Ended s1) -> bfs_run vid VS PM LM next2 c2 starts2 None lim2 n2 = (os2, Ended s2) ->
  Permutation (map (fun rep => (vid (br_vertex rep), br_depth rep)) os1) (map (fun rep => (vid (br_vertex rep), br_depth rep)) os2) /\ map br_depth os1 = map br_depth os2.
Proof.
  intros T1 T2 R1 R2 E1 E2.
  destruct (PropBFS.C01_bfs_reports_reachable_once I_dec vid VS PM LM next1 c1 E starts1 T1 R1 H1) as (A1 & _). destruct (A1 _ _ _ _ E1) as (N1 & F1 & G1).
  destruct (PropBFS.C01_bfs_reports_reachable_once I_dec vid VS PM LM next2 c2 E starts2 T2 R2 H2) as (A2 & _). destruct (A2 _ _ _ _ E2) as (N2 & F2 & G2).
  destruct (PropBFS.C02_bfs_depth_minimal I_dec vid VS PM LM next1 c1 E starts1 lim1 n1 os1 _ T1 R1 H1 E1) as (D1 & S1 & _).
  destruct (PropBFS.C02_bfs_depth_minimal I_dec vid VS PM LM next2 c2 E starts2 lim2 n2 os2 _ T2 R2 H2 E2) as (D2 & S2 & _).
  assert (P : Permutation (map (fun rep => (vid (br_vertex rep), br_depth rep)) os1) (map (fun rep => (vid (br_vertex rep), br_depth rep)) os2)).
  { apply (pairs_perm _ _ (fun i d => exists k, d = Z.of_nat k /\ min_depth E (is_start vid starts1) i k)).
    - intros i d d' (k & -> & K) (k' & -> & K'). f_equal. exact (min_depth_fun _ _ _ _ _ K K').
    - rewrite map_map. exact N1.
    - rewrite map_map. exact N2.
    - intros i. rewrite !map_map. cbn. split; intros Hi.
      + assert (Hf : reachable E (is_start vid starts1) i /\ ~ is_start vid starts1 i) by (apply in_map_iff in Hi; destruct Hi as (rep & <- & Hi); split; apply (F1 rep Hi)).
        destruct Hf as [Hr Hn]. destruct (G2 s2 eq_refl) as (G & _). destruct (G i) as [C|C]; [now apply (reachable_same vid starts1 starts2 Hst)|destruct Hn; now apply Hst|exact C].
      + assert (Hf : reachable E (is_start vid starts2) i /\ ~ is_start vid starts2 i) by (apply in_map_iff in Hi; destruct Hi as (rep & <- & Hi); split; apply (F2 rep Hi)).
        destruct Hf as [Hr Hn]. destruct (G1 s1 eq_refl) as (G & _). destruct (G i) as [C|C]; [now apply (reachable_same vid starts1 starts2 Hst)|destruct Hn; now apply Hst|exact C].
    - intros i d Hi. apply in_map_iff in Hi. destruct Hi as (rep & [= <- <-] & Hi). exact (D1 rep Hi).
    - intros i d Hi. apply in_map_iff in Hi. destruct Hi as (rep & [= <- <-] & Hi). destruct (D2 rep Hi) as (k & K1 & K2). exists k. split; [exact K1|]. now apply (min_depth_same vid starts1 starts2 Hst). }
  split; [exact P|]. apply (sorted_perm Z.le); [lia|now apply sorted_map|now apply sorted_map|].
  apply (Permutation_map snd) in P. now rewrite !map_map in P.
Qed.
Lemma ntd_order c1 c2 lim1 lim2 n1 n2 os1 os2 s1 s2 : nc_is_tree c1 = false -> nc_is_tree c2 = false ->
  ntd_run vid VS PM LM next1 c1 starts1 None lim1 n1 = (os1, Ended s1) -> ntd_run vid VS PM LM next2 c2 starts2 None lim2 n2 = (os2, Ended s2) ->
  Permutation (ntd_ids vid os1) (ntd_ids vid os2).
Proof.
  intros T1 T2 E1 E2.
  destruct (PropNTD.C07_ntd_reports_reachable_once I_dec vid VS PM LM next1 c1 E starts1 T1 H1) as (A1 & _). destruct (A1 _ _ _ _ E1) as (N1 & F1 & _ & G1).
  destruct (PropNTD.C07_ntd_reports_reachable_once I_dec vid VS PM LM next2 c2 E starts2 T2 H2) as (A2 & _). destruct (A2 _ _ _ _ E2) as (N2 & F2 & _ & G2).
  apply NoDup_Permutation; [exact N1|exact N2|]. intros i. split; intros Hi.
  - assert (Hf : reachable E (is_start vid starts1) i /\ ~ is_start vid starts1 i) by (apply in_map_iff in Hi; destruct Hi as (rep & <- & Hi); split; apply (F1 rep Hi)).
    destruct Hf as [Hr Hn]. destruct (G2 s2 eq_refl) as (G & _). destruct (G i) as [C|C]; [now apply (reachable_same vid starts1 starts2 Hst)|destruct Hn; now apply Hst|exact C].
  - assert (Hf : reachable E (is_start vid starts2) i /\ ~ is_start vid starts2 i) by (apply in_map_iff in Hi; destruct Hi as (rep & <- & Hi); split; apply (F2 rep Hi)).
    destruct Hf as [Hr Hn]. destruct (G1 s1 eq_refl) as (G & _). destruct (G i) as [C|C]; [now apply (reachable_same vid starts1 starts2 Hst)|destruct Hn; now apply Hst|exact C].
Qed.

Context (back1 back2 : V -> list (V * L)) (goals1 goals2 : list V).
Hypothesis B1 : presents vid back1 (fun i j => E j i).
Hypothesis B2 : presents vid back2 (fun i j => E j i).
Hypothesis Hgo : forall i, In i (map vid goals1) <-> In i (map vid goals2).
Lemma connection_same k : connection vid E starts1 goals1 k <-> connection vid E starts2 goals2 k.
Proof using Hst Hgo. split; intros (s & p & g & K1 & K2 & K3); exists s, p, g; (split; [now apply Hst|split; [now apply Hgo|exact K3]]). Qed.
Lemma bb_order lab1 lab2 bp1 bp2 fs n1 n2 os1 os2 r1 r2 :
  bb_run V_dec I_dec vid VS PM LM next1 back1 lab1 bp1 fs starts1 goals1 None n1 = (os1, r1) -> (forall s, r1 <> Running s) ->
  bb_run V_dec I_dec vid VS PM LM next2 back2 lab2 bp2 fs starts2 goals2 None n2 = (os2, r2) -> (forall s, r2 <> Running s) ->
  map br_length os1 = map br_length os2 /\
  match r1, r2 with Ended _, Ended _ => True | Raised x _, Raised y _ => x = y | _, _ => False end.
Proof.
  intros E1 N1 E2 N2.
  destruct (PropBiBFS.C31_bidirectional_bfs_exact V_dec I_dec vid VS PM LM next1 back1 lab1 bp1 fs E starts1 goals1 None H1 B1) as [X1 _]. specialize (X1 _ _ _ E1).
  destruct (PropBiBFS.C31_bidirectional_bfs_exact V_dec I_dec vid VS PM LM next2 back2 lab2 bp2 fs E starts2 goals2 None H2 B2) as [X2 _]. specialize (X2 _ _ _ E2).
  destruct r1 as [t1|t1|x1 t1]; [now destruct (N1 t1)| |]; (destruct r2 as [t2|t2|x2 t2]; [now destruct (N2 t2)| |]).
  - split; [|exact Logic.I]. destruct X1 as (y1 & -> & Y1), X2 as (y2 & -> & Y2). cbn. f_equal.
    destruct Y1 as [(k1 & -> & K1)|(_ & -> & K1)], Y2 as [(k2 & -> & K2)|(_ & -> & K2)]; try reflexivity.
    + f_equal. destruct K1 as [C1 M1], K2 as [C2 M2]. apply Nat.le_antisymm; [apply M1; now apply connection_same|apply M2; now apply connection_same].
    + destruct K1 as [C1 _]. apply connection_same in C1. now destruct (K2 _ C1).
    + destruct K2 as [C2 _]. apply connection_same in C2. now destruct (K1 _ C2).
  - exfalso. destruct X1 as (y1 & _ & Y1), X2 as (_ & [(_ & C)|(_ & Hf & K2)]); [congruence|]. destruct Y1 as [(k & _ & [C _])|(C & _)]; [|congruence].
    apply connection_same in C. exact (K2 _ C).
  - exfalso. destruct X2 as (y2 & _ & Y2), X1 as (_ & [(_ & C)|(_ & Hf & K1)]); [congruence|]. destruct Y2 as [(k & _ & [C _])|(C & _)]; [|congruence].
    apply connection_same in C. exact (K1 _ C).
  - destruct X1 as (-> & [(_ & C)|(-> & _)]); [congruence|]. destruct X2 as (-> & [(_ & C)|(-> & _)]); [congruence|]. auto.
Qed.
End Unweighted.

Section Weighted.
Context {V I L : Type} (V_dec : forall a b : V, {a = b} + {a <> b}) (I_dec : forall a b : I, {a = b} + {a <> b}) (vid : V -> I) (WT : Weights).
Context (VS : VSet I) (DM : DMap I (w_t WT) (w_inf WT)) (PM : PMap I V) (LM : PMap I L).
Context (next1 next2 : V -> list (V * w_t WT * L)) (E : I -> w_t WT -> I -> Prop) (starts1 starts2 : list V).
Hypothesis H1 : presents_weighted WT vid next1 E.
Hypothesis H2 : presents_weighted WT vid next2 E.
Hypothesis Hst : forall i, In i (map vid starts1) <-> In i (map vid starts2).

Lemma dij_order c1 c2 lim1 lim2 n1 n2 os1 os2 s1 s2 : nonnegative WT E -> dc_is_tree c1 = false -> dc_is_tree c2 = false ->
  dij_run vid WT DM PM LM next1 c1 starts1 None lim1 n1 = (os1, Ended s1) -> dij_run vid WT DM PM LM next2 c2 starts2 None lim2 n2 = (os2, Ended s2) ->
  Permutation (map (fun rep => (vid (dr_vertex rep), dr_distance rep)) os1) (map (fun rep => (vid (dr_vertex rep), dr_distance rep)) os2) /\ map dr_distance os1 = map dr_distance os2.
Proof.
  intros Hn T1 T2 E1 E2.
  destruct (dij_found I_dec vid WT DM PM LM next1 E starts1 H1 c1 lim1 n1 os1 s1 T1 Hn E1) as [N1 F1].
  destruct (dij_found I_dec vid WT DM PM LM next2 E starts2 H2 c2 lim2 n2 os2 s2 T2 Hn E2) as [N2 F2].
  destruct (PropDijkstra.C20_dijkstra_distance_minimal I_dec vid WT DM PM LM next1 c1 E starts1 lim1 n1 os1 _ T1 H1 Hn E1) as (D1 & S1).
  destruct (PropDijkstra.C20_dijkstra_distance_minimal I_dec vid WT DM PM LM next2 c2 E starts2 lim2 n2 os2 _ T2 H2 Hn E2) as (D2 & S2).
  assert (P : Permutation (map (fun rep => (vid (dr_vertex rep), dr_distance rep)) os1) (map (fun rep => (vid (dr_vertex rep), dr_distance rep)) os2)).
  { apply (pairs_perm _ _ (is_distance WT E (is_start vid starts1))).
    - apply is_distance_fun.
    - rewrite map_map. exact N1.
    - rewrite map_map. exact N2.
    - intros i. rewrite !map_map. cbn. unfold DijkstraModel.dij_ids in *. rewrite F1, F2, (reachable_same vid starts1 starts2 Hst), (start_same vid starts1 starts2 Hst). reflexivity.
    - intros i d Hi. apply in_map_iff in Hi. destruct Hi as (rep & [= <- <-] & Hi). exact (D1 rep Hi).
    - intros i d Hi. apply in_map_iff in Hi. destruct Hi as (rep & [= <- <-] & Hi). apply (is_distance_same vid starts1 starts2 Hst). exact (D2 rep Hi). }
  split; [exact P|]. apply (sorted_perm (fun a b => w_leb WT a b = true)); [apply w_leb_antisym|now apply sorted_map|now apply sorted_map|].
  apply (Permutation_map snd) in P. now rewrite !map_map in P.
Qed.

Notation T os := (mst_edges vid WT PM LM os).
Lemma mst_attaches next starts cfg lim n os s : presents_weighted WT vid next E -> mst_run vid WT VS PM LM next cfg starts lim n = (os, Ended s) ->
  attaches WT E (is_start vid starts) (T os) /\ length (T os) = length os.
Proof using V_dec I_dec.
  intros HE HR. destruct (PropMST.C28_mst_spanning_tree V_dec I_dec vid WT VS PM LM next cfg E starts HE) as (A & _). destruct (A _ _ _ _ HR) as (K1 & _ & _ & K4 & K5). clear A.
  assert (K : forall rep, In rep os -> exists u w l, mr_edge rep = Some (u, (mr_vertex rep, w, l)) /\ In (mr_vertex rep, w, l) (next u)).
  { intros rep Hin. apply in_split in Hin. destruct Hin as (o1 & o2 & Ho). destruct (K1 o1 rep o2 Ho) as (u & w & l & Q1 & Q2 & _). eauto. }
  split; [split|].
  - intros i w j Hin. unfold mst_edges in Hin. apply in_flat_map in Hin. destruct Hin as (rep & Hin & Hr). destruct (K rep Hin) as (u & w' & l & Q1 & Q2). rewrite Q1 in Hr.
    destruct Hr as [[= <- <- <-]|[]]. apply HE. apply in_map_iff. exists (mr_vertex rep, w', l). auto.
  - intros i Hi. destruct (K5 s eq_refl i Hi) as [Hs|Hs]; [exists i; split; [exact Hs|constructor]|].
    apply in_map_iff in Hs. destruct Hs as (rep & <- & Hin). exact (K4 rep Hin).
  - clear -K. induction os as [|rep os IH]; [reflexivity|]. unfold mst_edges. cbn. destruct (K rep) as (u & w & l & -> & _); [now left|]. cbn. f_equal. apply IH. intros; apply K; now right.
Qed.
Lemma total_above_measure t (F : list (I * w_t WT * I)) : total_measure WT (above WT t) F = total_above WT t (map (edge_weight WT) F).
Proof. unfold total_measure, total_above. induction F as [|a F IH]; [reflexivity|]. cbn [map fold_right]. now rewrite IH. Qed.
Lemma attaches_same F : attaches WT E (is_start vid starts1) F <-> attaches WT E (is_start vid starts2) F.
Proof using Hst.
  split; intros [A1 A2]; (split; [exact A1|]); intros i Hi.
  - apply (wreachable_same vid starts1 starts2 Hst) in Hi. destruct (A2 i Hi) as (s & Hs & Hl). exists s. split; [now apply Hst|exact Hl].
  - apply (wreachable_same vid starts1 starts2 Hst) in Hi. destruct (A2 i Hi) as (s & Hs & Hl). exists s. split; [now apply Hst|exact Hl].
Qed.
Lemma mst_order c1 c2 lim1 lim2 n1 n2 os1 os2 s1 s2 : undirected WT E ->
  mst_run vid WT VS PM LM next1 c1 starts1 lim1 n1 = (os1, Ended s1) -> mst_run vid WT VS PM LM next2 c2 starts2 lim2 n2 = (os2, Ended s2) ->
  Permutation (mst_ids vid os1) (mst_ids vid os2) /\ Permutation (map (edge_weight WT) (T os1)) (map (edge_weight WT) (T os2)).
Proof.
  intros Hu E1 E2.
  destruct (mst_found V_dec I_dec vid WT VS PM LM next1 E starts1 H1 c1 lim1 n1 os1 s1 E1) as [N1 F1].
  destruct (mst_found V_dec I_dec vid WT VS PM LM next2 E starts2 H2 c2 lim2 n2 os2 s2 E2) as [N2 F2].
  assert (P : Permutation (mst_ids vid os1) (mst_ids vid os2)).
  { apply NoDup_Permutation; auto. intros i. rewrite F1, F2, (reachable_same vid starts1 starts2 Hst), (start_same vid starts1 starts2 Hst). reflexivity. }
  split; [exact P|].
  destruct (mst_attaches next1 starts1 c1 lim1 n1 os1 s1 H1 E1) as [A1 L1]. destruct (mst_attaches next2 starts2 c2 lim2 n2 os2 s2 H2 E2) as [A2 L2].
  assert (Hl : length os1 = length os2) by (apply Permutation_length in P; unfold mst_ids in P; now rewrite !map_length in P).
  apply (counts_perm WT (length os1)); [rewrite map_length; exact L1|rewrite map_length, L2; symmetry; exact Hl|].
  intros t. rewrite <- !total_above_measure. apply Z.le_antisymm.
  - apply (PropMSTMore.C102_mst_minimal_in_every_measure I_dec vid WT VS PM LM next1 c1 E starts1 H1 _ _ _ _ _ Hu E1 (above_monotone WT t)); [now apply attaches_same|left; congruence].
  - apply (PropMSTMore.C102_mst_minimal_in_every_measure I_dec vid WT VS PM LM next2 c2 E starts2 H2 _ _ _ _ _ Hu E2 (above_monotone WT t)); [now apply attaches_same|left; congruence].
Qed.
End Weighted.
