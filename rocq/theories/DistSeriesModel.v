(** Model of programs that give one mapping of distances (option known_distances) to several traversals TraversalShortestPaths, one after the other. *)
From Coq Require Import List ZArith Bool.
From Verif Require Import Machine Common GearSpec Spec Weight DijkstraModel.
Import ListNotations.

Section DistSeries.
Context {V I L : Type}.
Variable vid : V -> I.
Variable WT : Weights.
Variable DM : DMap I (w_t WT) (w_inf WT).
Variable PM : PMap I V.
Variable LM : PMap I L.
Variable next : V -> list (V * w_t WT * L).

(** A traversal of the series: options, start vertices, calculation_limit, and the number of passes after which the program leaves it *)
Record dround := { dr_cfg : dij_cfg; dr_starts : list V; dr_limit : option Z; dr_passes : nat }.

(** shortest_paths.py:187-205, 262: the given mapping is used and changed by the traversal.
    Results: the reports of each traversal, whether it has come to its end, and the mapping after it *)
Fixpoint dist_series (shared : dm_t DM) (rs : list dround) : list (list (@dij_report V I L WT DM PM LM) * bool * dm_t DM) :=
  match rs with
  | [] => []
  | r :: rest =>
      let '(os, e) := dij_run vid WT DM PM LM next (dr_cfg r) (dr_starts r) (Some shared) (dr_limit r) (dr_passes r) in
      let after := d_distances (outcome_state e) in
      (os, match e with Ended _ => true | _ => false end, after) :: dist_series after rest
  end.

(** The mapping after the last traversal *)
Definition last_mapping (shared : dm_t DM) (res : list (list (@dij_report V I L WT DM PM LM) * bool * dm_t DM)) : dm_t DM :=
  match rev res with [] => shared | (_, _, m) :: _ => m end.
End DistSeries.
Arguments dround V : clear implicits. Arguments dr_cfg {V}. Arguments dr_starts {V}. Arguments dr_limit {V}. Arguments dr_passes {V}.
