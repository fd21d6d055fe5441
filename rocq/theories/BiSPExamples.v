(** Examples for bidirectional searches of shortest paths. *)
From Coq Require Import List ZArith Bool Arith Lia.
From Verif Require Import Machine GearSpec Common TraversalSpec Weight WeightSpec PathsModel PathModel BiSPModel BiSPSpec Examples.
Import ListNotations.

(** A graph that is given by a list of edges: from, to, weight.  The labels identify the edges. *)
Definition el (l : list (nat * nat * nat)) : list (nat * nat * Z) := map (fun e => (fst e, Z.of_nat (snd e))) l.
Definition el_graph (edges : list (nat * nat * Z)) (i : nat) (w : option Z) (j : nat) : Prop := exists z, w = Some z /\ In (i, j, z) edges.
Definition el_forth (edges : list (nat * nat * Z)) (v : nat) : list (nat * option Z * nat) :=
  map (fun e => (snd (fst e), Some (snd e), 100 * v + snd (fst e))) (filter (fun e => Nat.eqb (fst (fst e)) v) edges).
Definition el_back (edges : list (nat * nat * Z)) (v : nat) : list (nat * option Z * nat) :=
  map (fun e => (fst (fst e), Some (snd e), 100 * fst (fst e) + v)) (filter (fun e => Nat.eqb (snd (fst e)) v) edges).

Lemma el_forth_presents edges : presents_weighted ZI (fun v => v) (el_forth edges) (el_graph edges).
Proof.
  intros u w j. unfold el_forth, el_graph. rewrite map_map, in_map_iff. split.
  - intros ([[a b] z] & Heq & Hin). simpl in Heq. injection Heq as <- <-. apply filter_In in Hin. destruct Hin as [Hin Ha].
    simpl in Ha. apply Nat.eqb_eq in Ha. subst a. eauto.
  - intros (z & -> & Hin). exists (u, j, z). split; auto. apply filter_In. split; auto. apply Nat.eqb_refl.
Qed.

Lemma el_back_presents edges : presents_weighted ZI (fun v => v) (el_back edges) (fun i w j => el_graph edges j w i).
Proof.
  intros u w j. unfold el_back, el_graph. rewrite map_map, in_map_iff. split.
  - intros ([[a b] z] & Heq & Hin). simpl in Heq. injection Heq as <- <-. apply filter_In in Hin. destruct Hin as [Hin Ha].
    simpl in Ha. apply Nat.eqb_eq in Ha. subst b. eauto.
  - intros (z & -> & Hin). exists (j, u, z). split; auto. apply filter_In. split; auto. apply Nat.eqb_refl.
Qed.

Lemma el_nonnegative edges : forallb (fun e => (0 <=? snd e)%Z) edges = true -> nonnegative ZI (el_graph edges).
Proof. intros H i w j (z & -> & Hin). rewrite forallb_forall in H. exact (H _ Hin). Qed.

(** Vertices: 0 is the start vertex, 1 the goal vertex. *)
Definition missed_edges : list (nat * nat * Z) :=
  el [(0, 2, 1); (0, 3, 2); (0, 4, 100); (0, 5, 101); (4, 6, 48); (5, 8, 5); (8, 9, 5); (9, 6, 8); (6, 1, 3); (7, 1, 1); (6, 7, 1)].

Definition b2_example edges (starts goals : list nat) n :=
  b2_run Nat.eq_dec Nat.eq_dec (fun v => v) ZI hDMZ hPM hPM (el_forth edges) (el_back edges) true true false starts goals None n.

Lemma missed_shortest :
  exists (next_f next_b : nat -> list (nat * option Z * nat)) (E : nat -> option Z -> nat -> Prop) (starts goals : list nat),
  presents_weighted ZI (fun v => v) next_f E /\ presents_weighted ZI (fun v => v) next_b (fun i w j => E j w i) /\ nonnegative ZI E /\
  exists n x r, b2_run Nat.eq_dec Nat.eq_dec (fun v => v) ZI hDMZ hPM hPM next_f next_b true true false starts goals None n = ([x], r) /\
    b2_length x = Some 150%Z /\ path_vertices_from_start (b2_path x) 10 = POk [0; 4; 6; 7; 1] /\ wconnection (fun v => v) ZI E starts goals (Some 121%Z).
Proof.
  exists (el_forth missed_edges), (el_back missed_edges), (el_graph missed_edges), [0], [1].
  split; [apply el_forth_presents|]. split; [apply el_back_presents|]. split; [apply el_nonnegative; reflexivity|].
  exists 60. eexists. eexists. split; [vm_compute; reflexivity|]. split; [vm_compute; reflexivity|]. split; [vm_compute; reflexivity|].
  exists 0, [(Some 101%Z, 5); (Some 5%Z, 8); (Some 5%Z, 9); (Some 8%Z, 6); (Some 1%Z, 7); (Some 1%Z, 1)], 1.
  split; [left; reflexivity|]. split; [left; reflexivity|]. split; [|reflexivity].
  repeat (eapply wwalk_cons; [eexists; split; [reflexivity|]; vm_compute; intuition|]). constructor.
Qed.

(** All edges have weight 3. *)
Definition steps_edges : list (nat * nat * Z) :=
  el [(0, 2, 3); (0, 3, 3); (2, 4, 3); (3, 4, 3); (4, 5, 3); (5, 1, 3); (3, 6, 3); (6, 7, 3); (7, 1, 3); (4, 0, 3)].

Lemma steps_equal : equal_weights ZI (el_graph steps_edges).
Proof.
  exists (Some 3%Z). intros i w j (z & -> & Hin). assert (H : forallb (fun e => (snd e =? 3)%Z) steps_edges = true) by reflexivity.
  rewrite forallb_forall in H. specialize (H _ Hin). simpl in H. apply Z.eqb_eq in H. now subst.
Qed.

(** A graph with different weights, in which the search is exact. *)
Definition plain_edges : list (nat * nat * Z) :=
  el [(0, 2, 4); (0, 3, 1); (3, 2, 2); (2, 4, 5); (3, 4, 9); (4, 1, 1); (3, 1, 12)].
