(** Proofs for C122, part 2: A* with consistent heuristics, and infinite branching. *)
From Coq Require Import List ZArith Bool Arith Lia Permutation Sorted.
From Verif Require Import Machine GearSpec Spec TraversalSpec Common Weight WeightSpec AStarSpec AStarModel InfModel InfSpec AgreeProofs OrderProofs.
From Verif Require PropAStar PropInf.
Import ListNotations.

Section AStar.
Context {V I L : Type} (V_dec : forall a b : V, {a = b} + {a <> b}) (I_dec : forall a b : I, {a = b} + {a <> b}) (vid : V -> I) (WT : Weights).
Context (DM : DMap I (w_t WT) (w_inf WT)) (PM : PMap I V) (LM : PMap I L).
Context (next1 next2 : V -> list (V * w_t WT * L)) (E : I -> w_t WT -> I -> Prop) (starts1 starts2 : list V).
Hypothesis H1 : presents_weighted WT vid next1 E.
Hypothesis H2 : presents_weighted WT vid next2 E.
Hypothesis Hst : forall i, In i (map vid starts1) <-> In i (map vid starts2).

Lemma ast_order_same heuristic1 heuristic2 h1 h2 c1 c2 lim1 lim2 n1 n2 os1 os2 s1 s2 : nonnegative WT E -> exact WT ->
  (forall v, heuristic1 v = h1 (vid v)) -> consistent WT E h1 -> finite_estimates WT h1 ->
  (forall v, heuristic2 v = h2 (vid v)) -> consistent WT E h2 -> finite_estimates WT h2 ->
  ac_is_tree c1 = false -> ac_is_tree c2 = false ->
  ast_run vid WT DM PM LM next1 c1 heuristic1 starts1 None None lim1 n1 = (os1, Ended s1) ->
  ast_run vid WT DM PM LM next2 c2 heuristic2 starts2 None None lim2 n2 = (os2, Ended s2) ->
  Permutation (map (fun rep => (vid (ar_vertex rep), ar_path_length rep)) os1) (map (fun rep => (vid (ar_vertex rep), ar_path_length rep)) os2).
Proof.
  intros Hn Hx Q1 C1 F1 Q2 C2 F2 T1 T2 E1 E2.
  pose proof (ast_found I_dec vid WT DM PM LM next1 E starts1 H1 c1 heuristic1 h1 lim1 n1 os1 s1 T1 Hn Hx Q1 E1) as G1.
  pose proof (ast_found I_dec vid WT DM PM LM next2 E starts2 H2 c2 heuristic2 h2 lim2 n2 os2 s2 T2 Hn Hx Q2 E2) as G2.
  destruct (PropAStar.C27_astar_consistent V_dec I_dec vid WT DM PM LM next1 c1 E heuristic1 h1 starts1 lim1 n1 os1 _ T1 H1 Hn Hx Q1 C1 F1 E1) as (N1 & D1 & _).
  destruct (PropAStar.C27_astar_consistent V_dec I_dec vid WT DM PM LM next2 c2 E heuristic2 h2 starts2 lim2 n2 os2 _ T2 H2 Hn Hx Q2 C2 F2 E2) as (N2 & D2 & _).
  apply (pairs_perm _ _ (is_distance WT E (is_start vid starts1))).
  - apply is_distance_fun.
  - rewrite map_map. exact N1.
  - rewrite map_map. exact N2.
  - intros i. rewrite !map_map. cbn. unfold ast_ids in *. rewrite G1, G2, (reachable_same vid starts1 starts2 Hst), (start_same vid starts1 starts2 Hst). reflexivity.
  - intros i d Hi. apply in_map_iff in Hi. destruct Hi as (rep & [= <- <-] & Hi). exact (D1 rep Hi).
  - intros i d Hi. apply in_map_iff in Hi. destruct Hi as (rep & [= <- <-] & Hi). apply (is_distance_same vid starts1 starts2 Hst). exact (D2 rep Hi).
Qed.
End AStar.

Section Inf.
Context {V : Type} (V_dec : forall a b : V, {a = b} + {a <> b}) (edge1 edge2 : V -> nat -> option (V * option Z)).
Context (DM : DMap V (option Z) None) (PM : PMap V V) (DMi : DMap (V * nat) (option Z) None) (PMi : PMap (V * nat) (V * nat)) (LMi : PMap (V * nat) unit).
Context (starts1 starts2 : list V).
Notation ZI := ZInfWeights.
Lemma wwalk_same (E1 E2 : V -> option Z -> V -> Prop) : (forall u w v, E1 u w v -> E2 u w v) -> forall u p v, wwalk ZI E1 u p v -> wwalk ZI E2 u p v.
Proof. intros H u p v W. induction W; econstructor; eauto. Qed.
Lemma distance_same (E1 E2 : V -> option Z -> V -> Prop) (S1 S2 : V -> Prop) v d : (forall u w t, E1 u w t <-> E2 u w t) -> (forall u, S1 u <-> S2 u) ->
  is_distance ZI E1 S1 v d -> is_distance ZI E2 S2 v d.
Proof.
  intros HE HS [(s & p & H & W & Q) M]. split.
  - exists s, p. split; [now apply HS|]. split; [|exact Q]. revert W. apply wwalk_same. intros; now apply HE.
  - intros s' p' H' W'. apply (M s'); [now apply HS|]. revert W'. apply wwalk_same. intros; now apply HE.
Qed.
Lemma inf_order bp1 bp2 st1 st2 lim1 lim2 n1 n2 os1 os2 s1 s2 :
  edge_sequences edge1 -> edges_sorted edge1 -> edges_nonnegative edge1 -> NoDup starts1 ->
  edge_sequences edge2 -> edges_sorted edge2 -> edges_nonnegative edge2 -> NoDup starts2 ->
  (forall v w u, inf_edge edge1 v w u <-> inf_edge edge2 v w u) -> (forall v, In v starts1 <-> In v starts2) ->
  inf_run V_dec edge1 DM PM DMi PMi LMi bp1 st1 starts1 lim1 n1 = (os1, Ended s1) ->
  inf_run V_dec edge2 DM PM DMi PMi LMi bp2 st2 starts2 lim2 n2 = (os2, Ended s2) ->
  Permutation (map (fun rep => (nr_vertex rep, nr_distance rep)) os1) (map (fun rep => (nr_vertex rep, nr_distance rep)) os2) /\
  map nr_distance os1 = map nr_distance os2.
Proof.
  intros A1 A2 A3 A4 B1 B2 B3 B4 HE HS E1 E2.
  destruct (PropInf.C30_distances V_dec edge1 DM PM DMi PMi LMi bp1 st1 starts1 lim1 n1 os1 _ A1 A2 A3 A4 E1) as (N1 & S1 & D1 & G1).
  destruct (PropInf.C30_distances V_dec edge2 DM PM DMi PMi LMi bp2 st2 starts2 lim2 n2 os2 _ B1 B2 B3 B4 E2) as (N2 & S2 & D2 & G2).
  assert (R : forall v d, is_distance ZI (inf_edge edge1) (fun u => In u starts1) v d <-> is_distance ZI (inf_edge edge2) (fun u => In u starts2) v d).
  { intros v d. split; apply distance_same; auto; intros; symmetry; auto. }
  assert (Hreach : forall (E : V -> option Z -> V -> Prop) (St : V -> Prop) v d, is_distance ZI E St v d -> wreachable ZI E St v) by (intros E St v d [(s & p & H & W & _) _]; exists s, p; auto).
  assert (P : Permutation (map (fun rep => (nr_vertex rep, nr_distance rep)) os1) (map (fun rep => (nr_vertex rep, nr_distance rep)) os2)).
  { apply (pairs_perm _ _ (is_distance ZI (inf_edge edge1) (fun u => In u starts1))).
    - apply is_distance_fun.
    - rewrite map_map. exact N1.
    - rewrite map_map. exact N2.
    - intros v. rewrite !map_map. cbn. split; intros Hv; apply in_map_iff in Hv; destruct Hv as (rep & <- & Hv).
      + destruct (D1 rep Hv) as (K1 & K2 & _). destruct (G2 s2 eq_refl (nr_vertex rep)) as [C|C]; [apply (Hreach _ _ _ (nr_distance rep)), R, K2|destruct K1; now apply HS|exact C].
      + destruct (D2 rep Hv) as (K1 & K2 & _). destruct (G1 s1 eq_refl (nr_vertex rep)) as [C|C]; [apply (Hreach _ _ _ (nr_distance rep)), R, K2|destruct K1; now apply HS|exact C].
    - intros v d Hv. apply in_map_iff in Hv. destruct Hv as (rep & [= <- <-] & Hv). apply (D1 rep Hv).
    - intros v d Hv. apply in_map_iff in Hv. destruct Hv as (rep & [= <- <-] & Hv). apply R. apply (D2 rep Hv). }
  split; [exact P|]. apply (sorted_perm (fun a b => w_leb ZI a b = true)); [apply w_leb_antisym|now apply sorted_map|now apply sorted_map|].
  apply (Permutation_map snd) in P. now rewrite !map_map in P.
Qed.
End Inf.
