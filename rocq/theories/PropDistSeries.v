(** Property of series of traversals TraversalShortestPaths that share one mapping of distances: C92. *)
From Coq Require Import List ZArith Bool Arith Lia Sorted.
From Verif Require Import Machine Common GearSpec Spec TraversalSpec Weight WeightSpec DijkstraModel Examples
  DistSeriesModel DistSeriesSpec DistSeriesProofs.
Import ListNotations.

(** C92. A program gives one mapping (option known_distances) to a series of traversals, with keep_distances, one after the other.
    The mapping tells the distances from the vertices [Src] at first (with [Src] empty: it tells none). For all graphs with non-negative
    weights, gears, start vertices and limits: when the traversals come to their ends, then each of them ([r]) leaves the mapping with
    the distances from [Src] and all start vertices so far, except for start vertices that have already been reachable before their turn.
    Each traversal reports the vertices for which it makes the distance smaller, each once, in the
    order of their distances, and with these distances. *)
Theorem C92_series_of_known_distances :
  forall {V I L : Type} (I_dec : forall a b : I, {a = b} + {a <> b}) (vid : V -> I) (WT : Weights)
    (DM : DMap I (w_t WT) (w_inf WT)) (PM : PMap I V) (LM : PMap I L)
    (next : V -> list (V * w_t WT * L)) (E : I -> w_t WT -> I -> Prop),
  presents_weighted WT vid next E -> nonnegative WT E ->
  forall (Src : I -> Prop) (m0 : dm_t DM) (rs1 : list (dround V)) (r : dround V) (rs2 : list (dround V)),
  tells_distances WT E Src (fun i => dm_get DM i m0) -> Forall dround_ok (rs1 ++ r :: rs2) ->
  Forall (fun x => snd (fst x) = true) (dist_series vid WT DM PM LM next m0 (rs1 ++ [r])) ->
  let Before := series_sources vid WT E Src rs1 in
  let Now := more_sources vid WT E Before r in
  exists os m m', nth_error (dist_series vid WT DM PM LM next m0 (rs1 ++ r :: rs2)) (length rs1) = Some (os, true, m') /\
    tells_distances WT E Before (fun i => dm_get DM i m) /\
    tells_distances WT E Now (fun i => dm_get DM i m') /\
    NoDup (dij_ids vid os) /\
    StronglySorted (fun a b => w_leb WT (dr_distance a) (dr_distance b) = true) os /\
    (forall rep, In rep os -> is_distance WT E Now (vid (dr_vertex rep)) (dr_distance rep)) /\
    (forall i, In i (dij_ids vid os) <->
       w_ltb WT (dm_get DM i m') (dm_get DM i m) = true /\ (is_start vid (dr_starts r) i -> wreachable WT E Before i)).
Proof.
  intros V I L I_dec vid WT DM PM LM next E HE Hn Src m0 rs1 r rs2.
  exact (series_reports I_dec vid WT DM PM LM next E HE Hn Src m0 rs1 r rs2).
Qed.
Print Assumptions C92_series_of_known_distances.

(** C92. If the program may leave the traversals before they end, or limits stop them, then the mapping still tells, after each
    of them, only weights of walks from the start vertices, so never less than a distance. *)
Theorem C92_series_left_early :
  forall {V I L : Type} (I_dec : forall a b : I, {a = b} + {a <> b}) (vid : V -> I) (WT : Weights)
    (DM : DMap I (w_t WT) (w_inf WT)) (PM : PMap I V) (LM : PMap I L)
    (next : V -> list (V * w_t WT * L)) (E : I -> w_t WT -> I -> Prop),
  presents_weighted WT vid next E -> nonnegative WT E ->
  forall (rs : list (dround V)) (Src : I -> Prop) (m0 : dm_t DM),
  Forall dround_ok rs -> tells_walks WT E Src (fun i => dm_get DM i m0) ->
  forall x, In x (dist_series vid WT DM PM LM next m0 rs) ->
  tells_walks WT E (all_starts vid Src rs) (fun i => dm_get DM i (snd x)).
Proof.
  intros V I L I_dec vid WT DM PM LM next E HE Hn.
  exact (series_walks I_dec vid WT DM PM LM next E HE Hn).
Qed.
Print Assumptions C92_series_left_early.

(** Traversals from 2, from 5 and from 4, beginning with an empty mapping *)
Definition dr_ex (starts : list nat) (n : nat) : dround nat := {| dr_cfg := dij_default; dr_starts := starts; dr_limit := None; dr_passes := n |}.
Definition dr_show rs := map (fun x => (map (fun rep => (dr_vertex rep, dr_distance rep)) (fst (fst x)), snd (fst x),
  map (fun i => dm_get hDMZ i (snd x)) [0; 1; 2; 3; 4; 5; 6])) (dist_series id_nat ZI hDMZ hPM hPM w_next (dm_empty hDMZ) rs).
Example C92_example :
  tells_distances ZI (@wgraph_of nat ZI w_next) (fun _ => False) (fun i => dm_get hDMZ i (dm_empty hDMZ)) /\
  Forall dround_ok [dr_ex [2] 60; dr_ex [5; 6] 60; dr_ex [4] 60] /\
  dr_show [dr_ex [2] 60; dr_ex [5; 6] 60; dr_ex [4] 60] =
    [([(1, Some 2%Z); (3, Some 3%Z); (4, Some 3%Z); (0, Some 10%Z)], true,
      [Some 10%Z; Some 2%Z; Some 0%Z; Some 3%Z; Some 3%Z; None; None]);
     ([(0, Some 1%Z)], true, [Some 1%Z; Some 2%Z; Some 0%Z; Some 3%Z; Some 3%Z; Some 0%Z; Some 0%Z]);
     ([], true, [Some 1%Z; Some 2%Z; Some 0%Z; Some 3%Z; Some 3%Z; Some 0%Z; Some 0%Z])].
Proof.
  split; [intros i; split; [intros (s & p & [] & _)|intros H; destruct H; reflexivity]|].
  split; [repeat constructor|vm_compute; reflexivity].
Qed.

(** The first traversal is left early: the mapping tells 4 for the vertex 1, whose distance is 3, and 1 is used as start vertex. *)
Example C92_example_left_early :
  Forall dround_ok [dr_ex [0] 3; dr_ex [1] 60] /\
  dr_show [dr_ex [0] 3; dr_ex [1] 60] =
    [([], false, [Some 0%Z; Some 4%Z; Some 1%Z; None; None; None; None]);
     ([(3, Some 5%Z); (4, Some 5%Z)], true, [Some 0%Z; Some 4%Z; Some 1%Z; Some 5%Z; Some 5%Z; None; None])].
Proof. split; [repeat constructor|vm_compute; reflexivity]. Qed.
