(** Graphs for the bidirectional searches, with mutually inverse neighbor functions. *)
From Coq Require Import List ZArith Lia Arith.
From Verif Require Import Machine Spec TraversalSpec GearSpec Common PathsModel PathModel BFSModel BiBFSModel Examples.
Import ListNotations.

(** The graph [g_next] (Examples.v) backwards. *)
Definition g_back (v : nat) : list (nat * nat) :=
  match v with
  | 0 => [(3, 30); (5, 50)]
  | 1 => [(0, 10)]
  | 2 => [(0, 20); (0, 21); (2, 22)]
  | 3 => [(1, 13); (2, 23)]
  | 4 => [(3, 34)]
  | _ => []
  end.

Lemma g_back_presents : presents (fun v => v) g_back (fun i j => graph_of g_next j i).
Proof.
  unfold presents, graph_of. intros u j.
  destruct u as [|[|[|[|[|[|u]]]]]]; destruct j as [|[|[|[|[|[|j]]]]]]; simpl; intuition (try discriminate; try lia).
Qed.

(** The identity of a number is its last digit: two numbers can be the same vertex. *)
Definition digit (v : nat) : nat := match v with 11 => 1 | _ => v end.
Definition digit_edge (i j : nat) : Prop := i = 0 /\ j = 1.
Definition digit_next (v : nat) : list (nat * unit) := match v with 0 => [(11, tt)] | _ => [] end.
Definition digit_back (v : nat) : list (nat * unit) := match v with 1 => [(0, tt)] | 11 => [(0, tt)] | _ => [] end.

Lemma digit_presents : presents digit digit_next digit_edge.
Proof.
  unfold presents, digit_edge. intros u j. destruct u as [|u]; simpl.
  - split; [intros [<-|[]]; auto|intros [_ ->]; auto].
  - split; [intros []|]. intros [H _]. exfalso. unfold digit in H. do 10 (destruct u as [|u]; [discriminate|]). destruct u; discriminate.
Qed.

Lemma digit_back_presents : presents digit digit_back (fun i j => digit_edge j i).
Proof.
  unfold presents, digit_edge. intros u j. unfold digit_back, digit.
  destruct u as [|[|u]]; simpl.
  - split; [intros []|intros [_ H]; discriminate].
  - split; [intros [<-|[]]; auto|intros [-> _]; auto].
  - do 9 (destruct u as [|u]; [simpl; split; [intros []|intros [_ H]; discriminate]|]).
    destruct u as [|u]; simpl.
    + split; [intros [<-|[]]; auto|intros [-> _]; auto].
    + split; [intros []|intros [_ H]; discriminate].
Qed.

Lemma bidirectional_same_ids :
  exists (vid : nat -> nat) (next_f next_b : nat -> list (nat * unit)) (E : nat -> nat -> Prop) starts goals,
  presents vid next_f E /\ presents vid next_b (fun i j => E j i) /\
  exists n x r, bb_run Nat.eq_dec Nat.eq_dec vid hVS hPM hPM next_f next_b false true false starts goals None n = ([x], r) /\
    br_length x = 1%Z /\ path_vertices_from_start (br_path x) 10 = POk [0; 11; 1] /\ ~ E (vid 11) (vid 1).
Proof.
  exists digit, digit_next, digit_back, digit_edge, [0], [1]. split; [apply digit_presents|]. split; [apply digit_back_presents|].
  exists 20. eexists _, _. split; [vm_compute; reflexivity|]. split; [vm_compute; reflexivity|]. split; [vm_compute; reflexivity|].
  intros [H _]. discriminate H.
Qed.
