(** Specification for C104: the same graph for strategies for graphs with and without weights. *)
From Coq Require Import List ZArith.
From Verif Require Import Weight WeightSpec.
Import ListNotations.

(** The neighbor function without the weights *)
Definition no_weights {V W L} (next : V -> list (V * W * L)) (v : V) : list (V * L) := map (fun e => (fst (fst e), snd e)) (next v).
(** The graph without the weights *)
Definition unweighted {I W} (E : I -> W -> I -> Prop) (i j : I) : Prop := exists w, E i w j.
(** Each edge has weight one. *)
Definition unit_weights {I} (E : I -> option Z -> I -> Prop) : Prop := forall i w j, E i w j -> w = Some 1%Z.
