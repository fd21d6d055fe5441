(** Proofs for C123: further edges and start vertices, and lower weights, never lose vertices and never lead to larger depths or distances. *)
From Coq Require Import List ZArith Bool Arith Lia.
From Verif Require Import Machine GearSpec Spec TraversalSpec Common Weight WeightSpec BFSModel NTDModel DijkstraModel BiSpec BiBFSModel AgreeProofs.
From Verif Require PropBFS PropNTD PropDijkstra PropBiBFS.
Import ListNotations.

Lemma walk_grows {I} (E1 E2 : I -> I -> Prop) : (forall i j, E1 i j -> E2 i j) -> forall i p k, walk E1 i p k -> walk E2 i p k.
Proof. intros H i p k W. induction W; econstructor; eauto. Qed.

Section Unweighted.
Context {V I L : Type} (V_dec : forall a b : V, {a = b} + {a <> b}) (I_dec : forall a b : I, {a = b} + {a <> b}) (vid : V -> I) (VS : VSet I) (PM : PMap I V) (LM : PMap I L).
Context (next1 next2 : V -> list (V * L)) (E1 E2 : I -> I -> Prop) (starts1 starts2 : list V).
Hypothesis H1 : presents vid next1 E1.
Hypothesis H2 : presents vid next2 E2.
Hypothesis HE : forall i j, E1 i j -> E2 i j.
Hypothesis Hst : forall i, In i (map vid starts1) -> In i (map vid starts2).
Lemma reachable_grows i : reachable E1 (is_start vid starts1) i -> reachable E2 (is_start vid starts2) i.
Proof using HE Hst. intros (s & p & H & W). exists s, p. split; [now apply Hst|]. exact (walk_grows _ _ HE _ _ _ W). Qed.

Lemma bfs_grows c1 c2 lim1 lim2 n1 n2 os1 r1 os2 s2 : bc_is_tree c1 = false -> bc_is_tree c2 = false -> bc_report_depth_increase c1 = false -> bc_report_depth_increase c2 = false ->
  bfs_run vid VS PM LM next1 c1 starts1 None lim1 n1 = (os1, r1) -> bfs_run vid VS PM LM next2 c2 starts2 None lim2 n2 = (os2, Ended s2) ->
  forall rep1, In rep1 os1 -> In (vid (br_vertex rep1)) (map vid starts2) \/
    exists rep2, In rep2 os2 /\ vid (br_vertex rep2) = vid (br_vertex rep1) /\ (br_depth rep2 <= br_depth rep1)%Z.
Proof.
  intros T1 T2 R1 R2 Q1 Q2 rep1 Hin.
  destruct (PropBFS.C01_bfs_reports_reachable_once I_dec vid VS PM LM next1 c1 E1 starts1 T1 R1 H1) as (A1 & _). destruct (A1 _ _ _ _ Q1) as (_ & F1 & _).
  destruct (PropBFS.C01_bfs_reports_reachable_once I_dec vid VS PM LM next2 c2 E2 starts2 T2 R2 H2) as (A2 & _). destruct (A2 _ _ _ _ Q2) as (_ & _ & G2).
  destruct (PropBFS.C02_bfs_depth_minimal I_dec vid VS PM LM next1 c1 E1 starts1 lim1 n1 os1 _ T1 R1 H1 Q1) as (D1 & _).
  destruct (PropBFS.C02_bfs_depth_minimal I_dec vid VS PM LM next2 c2 E2 starts2 lim2 n2 os2 _ T2 R2 H2 Q2) as (D2 & _).
  destruct (G2 s2 eq_refl) as (G & _). destruct (G (vid (br_vertex rep1))) as [C|C]; [apply reachable_grows; apply (F1 rep1 Hin)|now left|right].
  apply in_map_iff in C. destruct C as (rep2 & C & C2). exists rep2. split; [exact C2|]. split; [exact C|].
  destruct (D1 rep1 Hin) as (k1 & -> & (s & p & K1 & K2 & K3) & _). destruct (D2 rep2 C2) as (k2 & -> & _ & M). rewrite <- K3. apply Nat2Z.inj_le. apply (M s); [now apply Hst|].
  rewrite C. exact (walk_grows _ _ HE _ _ _ K2).
Qed.
Lemma ntd_grows c1 c2 lim1 lim2 n1 n2 os1 r1 os2 s2 : nc_is_tree c1 = false -> nc_is_tree c2 = false ->
  ntd_run vid VS PM LM next1 c1 starts1 None lim1 n1 = (os1, r1) -> ntd_run vid VS PM LM next2 c2 starts2 None lim2 n2 = (os2, Ended s2) ->
  forall i, In i (ntd_ids vid os1) -> In i (map vid starts2) \/ In i (ntd_ids vid os2).
Proof.
  intros T1 T2 Q1 Q2 i Hi.
  destruct (PropNTD.C07_ntd_reports_reachable_once I_dec vid VS PM LM next1 c1 E1 starts1 T1 H1) as (A1 & _). destruct (A1 _ _ _ _ Q1) as (_ & F1 & _).
  destruct (PropNTD.C07_ntd_reports_reachable_once I_dec vid VS PM LM next2 c2 E2 starts2 T2 H2) as (A2 & _). destruct (A2 _ _ _ _ Q2) as (_ & _ & _ & G2).
  destruct (G2 s2 eq_refl) as (G & _). apply in_map_iff in Hi. destruct Hi as (rep & <- & Hi). apply G, reachable_grows. apply (F1 rep Hi).
Qed.

Context (back1 back2 : V -> list (V * L)) (goals1 goals2 : list V).
Hypothesis B1 : presents vid back1 (fun i j => E1 j i).
Hypothesis B2 : presents vid back2 (fun i j => E2 j i).
Hypothesis Hgo : forall i, In i (map vid goals1) -> In i (map vid goals2).
Lemma bb_grows lab1 lab2 bp1 bp2 fs1 fs2 n1 n2 x1 s1 os2 r2 :
  bb_run V_dec I_dec vid VS PM LM next1 back1 lab1 bp1 fs1 starts1 goals1 None n1 = ([x1], Ended s1) -> (0 <= br_length x1)%Z ->
  bb_run V_dec I_dec vid VS PM LM next2 back2 lab2 bp2 fs2 starts2 goals2 None n2 = (os2, r2) -> (forall s, r2 <> Running s) ->
  (exists s2, r2 = Ended s2) /\ exists x2, os2 = [x2] /\ (0 <= br_length x2 <= br_length x1)%Z.
Proof.
  intros Q1 Hp Q2 N2.
  destruct (PropBiBFS.C31_bidirectional_bfs_exact V_dec I_dec vid VS PM LM next1 back1 lab1 bp1 fs1 E1 starts1 goals1 None H1 B1) as [X1 _]. specialize (X1 _ _ _ Q1). cbn in X1.
  destruct (PropBiBFS.C31_bidirectional_bfs_exact V_dec I_dec vid VS PM LM next2 back2 lab2 bp2 fs2 E2 starts2 goals2 None H2 B2) as [X2 _]. specialize (X2 _ _ _ Q2).
  destruct X1 as (y & [= <-] & [(k & K & (C & _))|(_ & C & _)]); [|lia].
  assert (C' : connection vid E2 starts2 goals2 k).
  { destruct C as (s & p & g & Z1 & Z2 & Z3 & Z4). exists s, p, g. split; [now apply Hst|]. split; [now apply Hgo|]. split; [exact (walk_grows _ _ HE _ _ _ Z3)|exact Z4]. }
  destruct r2 as [t2|t2|e2 t2]; [now destruct (N2 t2)| |].
  - split; [now exists t2|]. destruct X2 as (x2 & -> & [(k2 & K2 & (_ & M))|(_ & _ & M)]); [|now destruct (M k)].
    exists x2. split; [reflexivity|]. specialize (M k C'). lia.
  - exfalso. destruct X2 as (_ & [(_ & X)|(_ & _ & M)]); [congruence|]. exact (M k C').
Qed.
End Unweighted.

Section Weighted.
Context {V I L : Type} (I_dec : forall a b : I, {a = b} + {a <> b}) (vid : V -> I) (WT : Weights).
Context (DM : DMap I (w_t WT) (w_inf WT)) (PM : PMap I V) (LM : PMap I L).
Context (next1 next2 : V -> list (V * w_t WT * L)) (E1 E2 : I -> w_t WT -> I -> Prop) (starts1 starts2 : list V).
Hypothesis H1 : presents_weighted WT vid next1 E1.
Hypothesis H2 : presents_weighted WT vid next2 E2.
Hypothesis HE : forall i w j, E1 i w j -> exists w', E2 i w' j /\ w_leb WT w' w = true.
Hypothesis Hst : forall i, In i (map vid starts1) -> In i (map vid starts2).
Hypothesis Hadd : forall w' w d, w_leb WT w' w = true -> w_leb WT (w_add WT w' d) (w_add WT w d) = true.
Lemma wwalk_grows i p k : wwalk WT E1 i p k -> forall d' d, w_leb WT d' d = true -> exists q, wwalk WT E2 i q k /\
  w_leb WT (fold_left (fun d e => w_add WT (fst e) d) q d') (fold_left (fun d e => w_add WT (fst e) d) p d) = true.
Proof using HE Hadd.
  induction 1 as [i|i w j p k He W IH]; intros d' d Hd; [exists []; split; [constructor|exact Hd]|].
  destruct (HE _ _ _ He) as (w' & He' & Hw). destruct (IH (w_add WT w' d') (w_add WT w d)) as (q & Q1 & Q2).
  { eapply w_leb_trans; [apply w_add_mono, Hd|]. now apply Hadd. }
  exists ((w', j) :: q). split; [now apply wwalk_cons|exact Q2].
Qed.
Lemma dij_grows c1 c2 lim1 lim2 n1 n2 os1 r1 os2 s2 : nonnegative WT E1 -> nonnegative WT E2 -> dc_is_tree c1 = false -> dc_is_tree c2 = false ->
  dij_run vid WT DM PM LM next1 c1 starts1 None lim1 n1 = (os1, r1) -> dij_run vid WT DM PM LM next2 c2 starts2 None lim2 n2 = (os2, Ended s2) ->
  forall rep1, In rep1 os1 -> In (vid (dr_vertex rep1)) (map vid starts2) \/
    exists rep2, In rep2 os2 /\ vid (dr_vertex rep2) = vid (dr_vertex rep1) /\ w_leb WT (dr_distance rep2) (dr_distance rep1) = true.
Proof.
  intros P1 P2 T1 T2 Q1 Q2 rep1 Hin.
  destruct (PropDijkstra.C20_dijkstra_distance_minimal I_dec vid WT DM PM LM next1 c1 E1 starts1 lim1 n1 os1 _ T1 H1 P1 Q1) as (D1 & _).
  destruct (PropDijkstra.C20_dijkstra_distance_minimal I_dec vid WT DM PM LM next2 c2 E2 starts2 lim2 n2 os2 _ T2 H2 P2 Q2) as (D2 & _).
  destruct (PropDijkstra.C21_dijkstra_reports_reachable_once I_dec vid WT DM PM LM next2 c2 E2 starts2 T2 H2 P2) as (A2 & _). destruct (A2 _ _ _ _ Q2) as (_ & _ & G2).
  destruct (D1 rep1 Hin) as ((s & p & K1 & K2 & K3) & _).
  destruct (wwalk_grows _ _ _ K2 (w_zero WT) (w_zero WT)) as (q & W1 & W2); [destruct (w_leb_total WT (w_zero WT) (w_zero WT)); auto|].
  destruct (in_dec I_dec (vid (dr_vertex rep1)) (map vid starts2)) as [C|C]; [now left|right].
  assert (Hr : In (vid (dr_vertex rep1)) (dij_ids vid os2)).
  { destruct (G2 s2 eq_refl (vid (dr_vertex rep1))) as [X|X]; [exists s, q; split; [now apply Hst|exact W1]|now destruct C|exact X]. }
  apply in_map_iff in Hr. destruct Hr as (rep2 & Z1 & Z2). exists rep2. split; [exact Z2|]. split; [exact Z1|].
  destruct (D2 rep2 Z2) as (_ & M). rewrite <- K3. eapply w_leb_trans; [apply (M s q); [now apply Hst|rewrite Z1; exact W1]|exact W2].
Qed.
End Weighted.
