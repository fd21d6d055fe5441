(** Graphs whose vertices may have infinitely many edges.  The edges of a vertex are given as a sequence:
    [edge v k] is edge number [k] of vertex [v] as (end vertex, weight), [None] behind the last edge. *)
From Coq Require Import List ZArith.
From Verif Require Import Weight WeightSpec.

Section InfSpec.
Context {V : Type}.
Variable edge : V -> nat -> option (V * option Z).

(** An exhausted iterator delivers nothing more. *)
Definition edge_sequences : Prop := forall v k, edge v k = None -> edge v (S k) = None.

(** The edges of each vertex are sorted by ascending weight. *)
Definition edges_sorted : Prop := forall v k u a u' b, edge v k = Some (u, a) -> edge v (S k) = Some (u', b) -> w_leb ZInfWeights a b = true.

(** The graph *)
Definition inf_edge (v : V) (w : option Z) (u : V) : Prop := exists k, edge v k = Some (u, w).

(** No weight is negative. *)
Definition edges_nonnegative : Prop := forall v k u w, edge v k = Some (u, w) -> w_leb ZInfWeights (Some 0%Z) w = true.

(** No weight is infinite. *)
Definition edges_finite : Prop := forall v k u w, edge v k = Some (u, w) -> w <> None.

(** The vertices that can be reached from [starts], and the positions of their edges, each once *)
Definition finite_graph (starts lv : list V) (le : list (V * nat)) : Prop :=
  NoDup lv /\ NoDup le /\ (forall v, In v lv <-> wreachable ZInfWeights inf_edge (fun s => In s starts) v) /\
  (forall v k, In (v, k) le <-> wreachable ZInfWeights inf_edge (fun s => In s starts) v /\ edge v k <> None).
End InfSpec.
