(** Specification vocabulary for series of traversals with a common mapping of distances. *)
From Coq Require Import List ZArith Bool.
From Verif Require Import Spec TraversalSpec Weight WeightSpec DijkstraModel DistSeriesModel.
Import ListNotations.

Section DistSeriesSpec.
Context {V I : Type}.
Variable vid : V -> I.
Variable WT : Weights.
Variable E : I -> w_t WT -> I -> Prop.

(** The traversals of the series keep distances, and the graph is not declared to be a tree. *)
Definition dround_ok (r : dround V) : Prop := dc_is_tree (dr_cfg r) = false /\ dc_keep_distances (dr_cfg r) = true.

(** The vertices from which the distances are measured: a start vertex that can already be reached from those of earlier traversals keeps the distance it has. *)
Definition more_sources (Src : I -> Prop) (r : dround V) : I -> Prop := fun i => Src i \/ (is_start vid (dr_starts r) i /\ ~ wreachable WT E Src i).
Definition series_sources (Src : I -> Prop) (rs : list (dround V)) : I -> Prop := fold_left more_sources rs Src.
(** All start vertices of the series *)
Definition all_starts (Src : I -> Prop) (rs : list (dround V)) : I -> Prop := fun i => Src i \/ exists r, In r rs /\ is_start vid (dr_starts r) i.

(** [m] tells the distances from the vertices [Src]: the right distance for each vertex that can be reached, and none for the others. *)
Definition tells_distances (Src : I -> Prop) (m : I -> w_t WT) : Prop :=
  forall i, (wreachable WT E Src i -> is_distance WT E Src i (m i) /\ w_ltb WT (m i) (w_inf WT) = true) /\ (m i <> w_inf WT -> wreachable WT E Src i).

(** [m] tells weights of walks that begin at vertices of [Src]. *)
Definition tells_walks (Src : I -> Prop) (m : I -> w_t WT) : Prop :=
  forall i, m i = w_inf WT \/ (w_ltb WT (m i) (w_inf WT) = true /\ exists s p, Src s /\ wwalk WT E s p i /\ walk_weight WT p = m i).
End DistSeriesSpec.
