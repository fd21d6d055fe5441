(** Specification: the vertices that a bidirectional search reads *)
From Coq Require Import List.
From Verif Require Import Machine GearSpec Spec TraversalSpec BFSModel BiBFSModel.

(** [v] can be reached from [starts] by a walk with [k] edges *)
Definition steps_away {V I} (vid : V -> I) (E : I -> I -> Prop) (starts : list V) (v : V) (k : nat) : Prop :=
  exists s p, is_start vid starts s /\ walk E s p (vid v) /\ length p = k.

(** The vertices that the first (second) of the two neighbor functions has been called for *)
Definition read_forwards {V I L} {VS : VSet I} {PM : PMap I V} {LM : PMap I L} (s : @bb_state V I L VS PM LM) : list V :=
  b_calls (bs_state (if bb_forwards s then bb_current s else bb_other s)).
Definition read_backwards {V I L} {VS : VSet I} {PM : PMap I V} {LM : PMap I L} (s : @bb_state V I L VS PM LM) : list V :=
  b_calls (bs_state (if bb_forwards s then bb_other s else bb_current s)).
