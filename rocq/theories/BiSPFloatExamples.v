(** Example data for C118. *)
From Coq Require Import List ZArith Bool Arith Lia.
From Verif Require Import Machine GearSpec Spec TraversalSpec Common Weight WeightSpec FloatModel Examples PropFloat.
Import ListNotations.
Local Open Scope Z_scope.

(** Python's floats 0.1, 0.2 and 0.3 along 0 - 1 - 2 - 3 *)
Definition bf_next (v : nat) : list (nat * w_t PyFloat * nat) :=
  match v with
  | 0 => [(1, pf 3602879701896397 1019, 1)]
  | 1 => [(2, pf 3602879701896397 1020, 12)]
  | 2 => [(3, pf 5404319552844595 1020, 23)]
  | _ => []
  end%nat.
Definition bf_prev (v : nat) : list (nat * w_t PyFloat * nat) :=
  match v with
  | 1 => [(0, pf 3602879701896397 1019, 1)]
  | 2 => [(1, pf 3602879701896397 1020, 12)]
  | 3 => [(2, pf 5404319552844595 1020, 23)]
  | _ => []
  end%nat.
Definition bf_graph : nat -> w_t PyFloat -> nat -> Prop := wgraph_of (WT := PyFloat) bf_next.

Lemma bf_conv : presents_weighted PyFloat (fun v : nat => v) bf_prev (fun i w j => bf_graph j w i).
Proof.
  intros v w i. unfold bf_graph, wgraph_of. set (a := pf 3602879701896397 1019). set (b := pf 3602879701896397 1020). set (c := pf 5404319552844595 1020).
  unfold bf_next, bf_prev. fold a b c. clearbody a b c. split; intros H.
  - destruct v as [|[|[|[|v]]]]; cbn [map fst snd In] in H; try contradiction; destruct H as [H|[]]; injection H as <- <-; left; reflexivity.
  - destruct i as [|[|[|i]]]; cbn [map fst snd In] in H; try contradiction; destruct H as [H|[]]; injection H as <- <-; left; reflexivity.
Qed.
