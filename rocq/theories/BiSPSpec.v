(** Specification vocabulary for searches of shortest paths from start vertices to goal vertices. *)
From Coq Require Import List ZArith Lia.
From Verif Require Import TraversalSpec Weight WeightSpec.
Import ListNotations.

(** Sums of weights depend neither on the order of the summands nor on brackets: exact arithmetic. *)
Record exact_addition (WT : Weights) : Prop := {
  ea_comm : forall a b, w_add WT a b = w_add WT b a;
  ea_assoc : forall a b c, w_add WT a (w_add WT b c) = w_add WT (w_add WT a b) c;
  ea_zero : forall a, w_add WT a (w_zero WT) = a
}.

Lemma ZWeights_exact inf H : exact_addition (ZWeights inf H).
Proof. constructor; simpl; intros; lia. Qed.

Lemma ZInfWeights_exact : exact_addition ZInfWeights.
Proof. constructor; simpl; unfold zi_add; intros; repeat match goal with x : option Z |- _ => destruct x end; auto; f_equal; lia. Qed.

Section BiSPSpec.
Context {V I : Type}.
Variable vid : V -> I.
Variable WT : Weights.
Variable E : I -> w_t WT -> I -> Prop.
Variables starts goals : list V.

(** There is a path with weight [c] from a start vertex to a goal vertex. *)
Definition wconnection (c : w_t WT) : Prop :=
  exists s p g, is_start vid starts s /\ is_start vid goals g /\ wwalk WT E s p g /\ walk_weight WT p = c.

(** The smallest weight of such a path is [c]. *)
Definition shortest_wconnection (c : w_t WT) : Prop := wconnection c /\ forall c', wconnection c' -> w_leb WT c c' = true.

(** Some walk reaches a weight that the gear regards as infinite. *)
Definition too_long : Prop :=
  (exists s p i, is_start vid starts s /\ wwalk WT E s p i /\ w_leb WT (w_inf WT) (walk_weight WT p) = true) \/
  (exists g p i, is_start vid goals g /\ wwalk WT (fun a w b => E b w a) g p i /\ w_leb WT (w_inf WT) (walk_weight WT p) = true).
End BiSPSpec.

(** All edges have the same weight. *)
Definition equal_weights {I} (WT : Weights) (E : I -> w_t WT -> I -> Prop) : Prop := exists w0, forall i w j, E i w j -> w = w0.

(** All paths from the given vertices to a vertex have the same weight; this is the case, e.g., in trees. *)
Definition path_independent {I} (WT : Weights) (E : I -> w_t WT -> I -> Prop) (Start : I -> Prop) : Prop :=
  forall s p s' p' i, Start s -> Start s' -> wwalk WT E s p i -> wwalk WT E s' p' i -> walk_weight WT p = walk_weight WT p'.
