(** Model of [TraversalShortestPathsInfBranchingSortedFlex] (src/nographs/_strategies/traversals/with_weights/extra_infinite_branching.py) for numbers of any kind,
    e.g., floats, whose difference and sum are given and may be rounded.  InfModel is about exact numbers.
    Simplification: without build_paths and store_distances (they do not influence distances and order). *)
From Coq Require Import List ZArith Bool Arith.
From Verif Require Import Machine GearSpec Common Weight DijkstraModel InfModel.
Import ListNotations.

Section InfNum.
Context {V : Type}.
Variable V_dec : forall a b : V, {a = b} + {a <> b}.
Variable WT : Weights.
Notation W := (w_t WT).
Variable sub : W -> W -> W.                              (* [-] *)
Notation state := (V * nat)%type.                        (* [State], line 25 *)
(** [iter(next_edges(vertex, self))]: element number [k] of the iterator; [None]: exhausted. *)
Variable edge : V -> nat -> option (V * W).
(** The internal gear *)
Variable DM : DMap state W (w_inf WT).
Variable PM : PMap state state.
Variable LM : PMap state unit.
Notation dstate := (@dij_state state state unit WT DM PM LM).
Notation dreport := (@dij_report state state unit WT DM PM LM).

(** The internal traversal, and state_iterators (lines 233-236), where an iterator is given by the number of elements already taken *)
Record num_state := { m_in : dstate; m_iters : V -> option nat }.

(** Lines 193-225 ([next_state_edges]): the edges from a state, and the changed iterators.  [None]: KeyError of [state_iterators[vertex]]. *)
Definition num_edges (iters : V -> option nat) (distances : dm_t DM) (st : state) : option (list (state * W * unit) * (V -> option nat)) :=
  let '(vertex, edge_no) := st in
  let base_state_distance := dm_get DM (vertex, 0) distances in
  match (if Nat.eqb edge_no 0 then Some 0 else iters vertex) with
  | None => None
  | Some taken =>
      match edge vertex taken with                                                       (* next(iterator) *)
      | Some (next_vertex, length_from_base) =>
          let next_distance := w_add WT length_from_base base_state_distance in
          let state_distance := dm_get DM st distances in
          let state_edge_length := sub next_distance state_distance in
          Some ([((next_vertex, 0), state_edge_length, tt); ((vertex, S edge_no), state_edge_length, tt)], put V_dec iters vertex (Some (S taken)))
      | None => Some ([], put V_dec iters vertex None)                                   (* StopIteration *)
      end
  end.

(** Lines 250-266: the reported vertices with the value of attribute distance *)
Definition num_out (os : list dreport) : list (V * W) := flat_map (fun rep => if Nat.eqb (snd (dr_vertex rep)) 0 then [(fst (dr_vertex rep), dr_distance rep)] else []) os.

(** The state for which the internal traversal has called its neighbor function in a pass *)
Definition num_expanded (i i' : dstate) : option state :=
  match d_pc i, d_pc i' with DLoop _, DEdges _ st _ _ _ => Some st | _, _ => None end.

(** One pass: a pass of the internal traversal (lines 239-250), whose neighbor function is [num_edges] with the current iterators and distances. *)
Definition num_step (s : num_state) : step_result num_state (V * W) exn :=
  let edges st := match num_edges (m_iters s) (d_distances (m_in s)) st with Some (l, _) => l | None => [] end in
  match dij_step (fun s => s) WT DM PM LM edges (inf_inner_cfg false) (m_in s) with
  | Halt os i => Halt (num_out os) {| m_in := i; m_iters := m_iters s |}
  | Raise os x i => Raise (num_out os) x {| m_in := i; m_iters := m_iters s |}
  | Go os i =>
      match num_expanded (m_in s) i with
      | None => Go (num_out os) {| m_in := i; m_iters := m_iters s |}
      | Some st =>
          match num_edges (m_iters s) (d_distances (m_in s)) st with
          | None => Raise (num_out os) KeyErrorNotFound {| m_in := i; m_iters := m_iters s |}
          | Some (_, iters) => Go (num_out os) {| m_in := i; m_iters := iters |}
          end
      end
  end.

(** Lines 159-190, 227-247 *)
Definition num_init (starts : list V) (limit : option Z) : num_state :=
  {| m_in := dij_init (fun s => s) WT DM PM LM (inf_inner_cfg false) (map (fun v => (v, 0)) starts) None limit; m_iters := fun _ => None |}.

(** [n] passes of a started traversal *)
Definition num_run (starts : list V) (limit : option Z) (n : nat) : list (V * W) * outcome num_state exn := run num_step n (num_init starts limit).
End InfNum.
