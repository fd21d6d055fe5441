(** Specification for C105: what a search between start and goal vertices has read, and what it needs to read. *)
From Coq Require Import List.
From Verif Require Import GearSpec TraversalSpec Weight WeightSpec BiSPModel BiSPSpec.
Import ListNotations.

(** The vertices that BSearchShortestPath has called the first (second) of the two neighbor functions for *)
Definition asked_forwards {V I L} {WT : Weights} {DM : DMap I (w_t WT) (w_inf WT)} {PM : PMap I V} {LM : PMap I L} (s : @b2_state V I L WT DM PM LM) : list V :=
  map fst (b2_calls (if b2_forwards s then b2_current s else b2_other s)).
Definition asked_backwards {V I L} {WT : Weights} {DM : DMap I (w_t WT) (w_inf WT)} {PM : PMap I V} {LM : PMap I L} (s : @b2_state V I L WT DM PM LM) : list V :=
  map fst (b2_calls (if b2_forwards s then b2_other s else b2_current s)).

(** [ids] contains everything that can be reached from [from] in [E]; or it contains everything that can be reached by paths that are not longer than some path from a start vertex to a goal vertex (whose
    weight satisfies [connected]). *)
Definition covered {V I} (vid : V -> I) (WT : Weights) (E : I -> w_t WT -> I -> Prop) (connected : w_t WT -> Prop) (from : list V) (ids : list I) : Prop :=
  (forall i, wreachable WT E (is_start vid from) i -> In i ids) \/
  (exists c, connected c /\ forall s p i, is_start vid from s -> wwalk WT E s p i -> w_leb WT (walk_weight WT p) c = true -> In i ids).
