(** Graphs for C107 and C108 *)
From Coq Require Import List ZArith Bool Arith Lia.
From Verif Require Import Machine GearSpec Common Spec DFSModel SCCSpec ArtSpec ArtModel Examples DFSExamples.
Import ListNotations.
Open Scope nat_scope.

(** An undirected graph, given by its edges *)
Definition und_next (es : list (nat * nat)) (v : nat) : list (nat * unit) :=
  flat_map (fun e => (if fst e =? v then [(snd e, tt)] else []) ++ (if snd e =? v then [(fst e, tt)] else [])) es.
Lemma und_edge es u v : edge_of (und_next es) u v <-> In (u, v) es \/ In (v, u) es.
Proof.
  unfold edge_of, und_next. rewrite in_map_iff. split.
  - intros ((w & []) & <- & H). apply in_flat_map in H. destruct H as ((a & b) & He & H). cbn [fst snd] in *. apply in_app_or in H.
    destruct H as [H|H]; match type of H with context [?x =? ?y] => destruct (Nat.eqb_spec x y) as [->|] end; try contradiction; destruct H as [H|[]]; injection H as ->; auto.
  - intros [H|H].
    + exists (v, tt). split; [reflexivity|]. apply in_flat_map. exists (u, v). split; [exact H|]. cbn. rewrite Nat.eqb_refl. apply in_or_app. left. now left.
    + exists (v, tt). split; [reflexivity|]. apply in_flat_map. exists (v, u). split; [exact H|]. cbn. rewrite Nat.eqb_refl. apply in_or_app. right. now left.
Qed.
Lemma und_undirected es : undirected (edge_of (und_next es)).
Proof. intros u v H. apply und_edge in H. apply und_edge. tauto. Qed.

(** docs/source/reduction_of_other_problems.rst:761-773: the documented graph (each edge is added in both directions) *)
Definition doc_edges : list (nat * nat) :=
  [(0, 1); (1, 2); (2, 3); (0, 4); (1, 5); (1, 6); (2, 7); (4, 8); (6, 9); (7, 9); (7, 10); (8, 11); (9, 10); (8, 12); (11, 13); (12, 13)].

(** Closed sets: a walk that avoids [v] does not leave a set [S] of vertices whose edges lead to [S] or [v]. *)
Lemma no_way (E : nat -> nat -> Prop) (S : nat -> bool) v : (forall x y, S x = true -> E x y -> S y = true \/ y = v) ->
  forall a p b, walk E a p b -> S a = true -> S b = false -> In v p.
Proof.
  intros Hc a p b Hw. induction Hw as [a|a x p b He Hw IH]; intros Ha Hb; [congruence|]. destruct (Hc a x Ha He) as [K| ->]; [right; auto|now left].
Qed.
Lemma und_closed es (S : nat -> bool) v :
  forallb (fun e => (negb (S (fst e)) || S (snd e) || (snd e =? v)) && (negb (S (snd e)) || S (fst e) || (fst e =? v))) es = true ->
  forall x y, S x = true -> edge_of (und_next es) x y -> S y = true \/ y = v.
Proof.
  intros H x y Hx He. apply und_edge in He. rewrite forallb_forall in H. destruct He as [He|He]; apply H in He; cbn [fst snd] in He; apply andb_prop in He; destruct He as (H1 & H2).
  - rewrite Hx in H1. cbn in H1. apply orb_prop in H1. destruct H1 as [H1|H1]; [auto|apply Nat.eqb_eq in H1; auto].
  - rewrite Hx in H2. cbn in H2. apply orb_prop in H2. destruct H2 as [H2|H2]; [auto|apply Nat.eqb_eq in H2; auto].
Qed.

Lemma pair_biconnected es a b : In (a, b) es -> biconnected (edge_of (und_next es)) [a; b].
Proof.
  intros H v x y Hx Hy Nx Ny. destruct Hx as [<-|[<-|[]]], Hy as [<-|[<-|[]]].
  - exists []. split; [constructor|intros ? []].
  - exists [b]. split; [econstructor; [apply und_edge; auto|constructor]|]. intros z [<-|[]]. split; [right; now left|exact Ny].
  - exists [a]. split; [econstructor; [apply und_edge; auto|constructor]|]. intros z [<-|[]]. split; [now left|exact Ny].
  - exists []. split; [constructor|intros ? []].
Qed.

(** MY and GYB: the neighbor TM of MY leads to MY only, the other neighbors of GYB to GYB only. *)
Lemma my_gyb : biconnected_component (edge_of (und_next doc_edges)) [0; 1].
Proof.
  split; [repeat constructor; cbn; lia|]. split; [apply pair_biconnected; now left|]. intros D HD HB x Hx.
  assert (Ha : x = 0 \/ x = 1 \/ x <> 0 /\ x <> 1) by lia. destruct Ha as [->|[->|(N0 & N1)]]; [now left|right; now left|exfalso].
  set (S0 := fun y => (y =? 4) || (y =? 8) || (11 <=? y)). set (S1 := fun y => negb (S0 y) && (2 <=? y)).
  destruct (S0 x) eqn:Ex.
  - destruct (HB 0 x 1 Hx (HD 1 (or_intror (or_introl eq_refl))) N0 ltac:(discriminate)) as (p & Hp & Hn).
    assert (Hin : In 0 p) by (apply (no_way (edge_of (und_next doc_edges)) S0 0 (und_closed doc_edges S0 0 eq_refl) x p 1 Hp Ex eq_refl)). exact (proj2 (Hn 0 Hin) eq_refl).
  - assert (Ex1 : S1 x = true) by (unfold S1; rewrite Ex; apply andb_true_intro; split; [reflexivity|apply Nat.leb_le; lia]).
    destruct (HB 1 x 0 Hx (HD 0 (or_introl eq_refl)) N1 ltac:(discriminate)) as (p & Hp & Hn).
    assert (Hin : In 1 p) by (apply (no_way (edge_of (und_next doc_edges)) S1 1 (und_closed doc_edges S1 1 eq_refl) x p 0 Hp Ex1 eq_refl)). exact (proj2 (Hn 1 Hin) eq_refl).
Qed.

Theorem documented_components :
  exists cs s, bic_run Nat.eq_dec hVS hPM hPM hXM (und_next doc_edges) 0 None 200 = (Some cs, Ended s) /\
    In [1; 4; 0] cs /\ ~ biconnected (edge_of (und_next doc_edges)) [1; 4; 0] /\
    biconnected_component (edge_of (und_next doc_edges)) [0; 1] /\ forall C, In C cs -> ~ (incl C [0; 1] /\ incl [0; 1] C).
Proof.
  exists [[11; 13; 12; 8]; [8; 4]; [3; 2]; [2; 7; 10; 9; 6; 1]; [5; 1]; [1; 4; 0]]. eexists. split; [vm_compute; reflexivity|]. split; [cbn; tauto|]. split; [|split; [exact my_gyb|]].
  - intros HB. destruct (HB 0 4 1) as (p & Hp & Hn); [cbn; tauto|cbn; tauto|discriminate|discriminate|]. set (S0 := fun y => (y =? 4) || (y =? 8) || (11 <=? y)).
    assert (Hin : In 0 p) by (apply (no_way (edge_of (und_next doc_edges)) S0 0 (und_closed doc_edges S0 0 eq_refl) 4 p 1 Hp eq_refl eq_refl)). exact (proj2 (Hn 0 Hin) eq_refl).
  - intros C HC (K1 & K2). assert (In 0 C) by (apply K2; now left). assert (K3 : forall x, In x C -> x = 0 \/ x = 1) by (intros x Hx; apply K1 in Hx; cbn in Hx; lia).
    cbn in HC. repeat (destruct HC as [<-|HC]; [match goal with K : forall x, In x ?l -> _ |- _ => first [specialize (K 4); cbn in K; lia|cbn in H; lia] end|]). destruct HC.
Qed.

Theorem inner_components :
  exists cs s, bic_run Nat.eq_dec hVS hPM hPM hXM (und_next [(0, 2); (0, 1); (1, 3); (1, 2)]) 0 None 200 = (Some cs, Ended s) /\
    In [3; 2; 1] cs /\ ~ biconnected (edge_of (und_next [(0, 2); (0, 1); (1, 3); (1, 2)])) [3; 2; 1].
Proof.
  exists [[3; 2; 1]]. eexists. split; [vm_compute; reflexivity|]. split; [now left|]. intros HB. destruct (HB 1 3 2) as (p & Hp & Hn); [cbn; tauto|cbn; tauto|discriminate|discriminate|].
  assert (Hin : In 1 p) by (apply (no_way _ (fun y => y =? 3) 1 (und_closed [(0, 2); (0, 1); (1, 3); (1, 2)] (fun y => y =? 3) 1 eq_refl) 3 p 2 Hp eq_refl eq_refl)). exact (proj2 (Hn 1 Hin) eq_refl).
Qed.

Theorem missing_components :
  exists s, bic_run Nat.eq_dec hVS hPM hPM hXM (und_next [(0, 1)]) 0 None 200 = (Some [], Ended s) /\ biconnected_component (edge_of (und_next [(0, 1)])) [0; 1].
Proof.
  eexists. split; [vm_compute; reflexivity|]. split; [repeat constructor; cbn; lia|]. split; [apply pair_biconnected; now left|]. intros D HD HB x Hx.
  assert (Ha : x = 0 \/ x = 1 \/ x <> 0 /\ x <> 1) by lia. destruct Ha as [->|[->|(N0 & N1)]]; [now left|right; now left|exfalso].
  destruct (HB 0 x 1 Hx (HD 1 (or_intror (or_introl eq_refl))) N0 ltac:(discriminate)) as (p & Hp & Hn).
  assert (Hin : In 0 p). { apply (no_way _ (fun y => negb (y <=? 1)) 0 (und_closed [(0, 1)] (fun y => negb (y <=? 1)) 0 eq_refl) x p 1 Hp); [|reflexivity]. destruct (Nat.leb_spec x 1); [lia|reflexivity]. }
  exact (proj2 (Hn 0 Hin) eq_refl).
Qed.
