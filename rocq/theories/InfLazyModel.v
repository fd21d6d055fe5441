(** Model of [TraversalShortestPathsInfBranchingSortedFlex] with a neighbor function whose iterators look at the traversal each time when an edge is read from them, or keep a state
    (src/nographs/_strategies/traversals/with_weights/extra_infinite_branching.py:193-225).

    [g s v k] is what the iterator for [v] delivers, in the state [s] of the traversal, when its element number [k] is read ([None]: StopIteration).
    Simplification: the iterators raise no other exceptions. *)
From Coq Require Import List ZArith Bool Arith.
From Verif Require Import Machine GearSpec Common Weight DijkstraModel InfModel.
Import ListNotations.

Section InfLazy.
Context {V : Type}.
Variable V_dec : forall a b : V, {a = b} + {a <> b}.
Variable DM : DMap V (option Z) None.
Variable PM : PMap V V.
Variable DMi : DMap (V * nat) (option Z) None.
Variable PMi : PMap (V * nat) (V * nat).
Variable LMi : PMap (V * nat) unit.
Notation nstate := (@inf_state V DM PM DMi PMi LMi).
Variable g : nstate -> V -> nat -> option (V * option Z).
Variables build_paths store_distances : bool.

(** One pass: the answers of iterators come from the current state. *)
Definition linf_step (s : nstate) : step_result nstate (@inf_report V DM PM) exn :=
  inf_step V_dec (g s) DM PM DMi PMi LMi build_paths store_distances s.

Definition linf_run (starts : list V) (limit : option Z) (n : nat) : list (@inf_report V DM PM) * outcome nstate exn :=
  run linf_step n (inf_init DM PM DMi PMi LMi build_paths store_distances starts limit).

(** The answer that is read in a pass, if any: the vertex, the number of the element, and the element *)
Definition linf_answer (s : nstate) : list ((V * nat) * option (V * option Z)) :=
  match linf_step s with
  | Go _ s' =>
      if length (n_reads s) <? length (n_reads s')
      then match n_reads s' with (v, k) :: _ => [((v, k), g s v k)] | [] => [] end
      else []
  | _ => []
  end.

(** The answers of [n] passes that begin in state [s] *)
Fixpoint linf_answers (n : nat) (s : nstate) : list ((V * nat) * option (V * option Z)) :=
  match n with
  | 0 => []
  | S m => linf_answer s ++ match linf_step s with Go _ s' => linf_answers m s' | _ => [] end
  end.

(** The answers of [n] passes of a started traversal *)
Definition linf_answers_of (starts : list V) (limit : option Z) (n : nat) : list ((V * nat) * option (V * option Z)) :=
  linf_answers n (inf_init DM PM DMi PMi LMi build_paths store_distances starts limit).
End InfLazy.

(** What is demanded from the answers: no weight is negative, and the edges of a vertex come with ascending weights. *)
Definition answers_ok {V : Type} (A : list ((V * nat) * option (V * option Z))) : Prop :=
  (forall v k u w, In ((v, k), Some (u, w)) A -> w_leb ZInfWeights (Some 0%Z) w = true) /\
  (forall v k u a u' b, In ((v, k), Some (u, a)) A -> In ((v, S k), Some (u', b)) A -> w_leb ZInfWeights a b = true).
