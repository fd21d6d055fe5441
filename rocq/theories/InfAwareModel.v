(** Model of [TraversalShortestPathsInfBranchingSortedFlex] with a neighbor function that looks at the attribute [distance] of the traversal when it is called, and returns an iterator
    whose elements depend on that value (src/nographs/_strategies/traversals/with_weights/extra_infinite_branching.py:193-225; example: docs/source/reduction_of_other_problems.rst:441-446).

    [f v d] is the sequence of edges of vertex [v] if [distance] is [d] at the call.  The iterator keeps this [d] (in a local variable, for a generator). *)
From Coq Require Import List ZArith Bool Arith.
From Verif Require Import Machine GearSpec Common Weight DijkstraModel InfModel.
Import ListNotations.

Section InfAware.
Context {V : Type}.
Variable V_dec : forall a b : V, {a = b} + {a <> b}.
Variable f : V -> option Z -> nat -> option (V * option Z).
Variable DM : DMap V (option Z) None.
Variable PM : PMap V V.
Variable DMi : DMap (V * nat) (option Z) None.
Variable PMi : PMap (V * nat) (V * nat).
Variable LMi : PMap (V * nat) unit.
Variables build_paths store_distances : bool.
Notation nstate := (@inf_state V DM PM DMi PMi LMi).

(** The value of [distance] when the neighbor function was called for [v] (lines 203-206), or when it is called in the next pass: the distance of the base state. *)
Definition called_distance (s : nstate) (v : V) : option Z :=
  match find (fun c => if V_dec (fst c) v then true else false) (n_calls s) with
  | Some c => snd c
  | None => dm_get DMi (v, 0) (d_distances (n_in s))
  end.

(** One pass *)
Definition ainf_step (s : nstate) : step_result nstate (@inf_report V DM PM) exn :=
  inf_step V_dec (fun v k => f v (called_distance s v) k) DM PM DMi PMi LMi build_paths store_distances s.

Definition ainf_run (starts : list V) (limit : option Z) (n : nat) : list (@inf_report V DM PM) * outcome nstate exn :=
  run ainf_step n (inf_init DM PM DMi PMi LMi build_paths store_distances starts limit).
End InfAware.
