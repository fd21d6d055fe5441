(** Model of the documented function traversal_shortest_paths_inf_branching_sorted (docs/source/reduction_of_other_problems.rst:312-356): shortest paths in graphs with infinitely many edges per vertex, by reduction to
    TraversalShortestPaths, and of the program that generates primes with it (lines 365, 366). *)
From Coq Require Import List ZArith Bool Arith.
From Verif Require Import Machine GearSpec Common Weight DijkstraModel InfModel SieveModel PrimesModel.
Import ListNotations.
Open Scope nat_scope.

Section Reduce.
Context {V : Type}.
Variable V_dec : forall a b : V, {a = b} + {a <> b}.
Notation state := (V * nat)%type.
Notation ZI := ZInfWeights.
Notation W := (option Z).
(** [next_edges_inf(vertex, distance)]: element number [k] of the iterator; [None]: exhausted. *)
Variable next_edges_inf : V -> W -> nat -> option (V * W).
Variable DM : DMap state W None.
Variable PM : PMap state state.
Variable LM : PMap state unit.
Notation dstate := (@dij_state state state unit ZI DM PM LM).
Notation dreport := (@dij_report state state unit ZI DM PM LM).

(** Line 354: start_from((start, 0), keep_distances=True) *)
Definition red_cfg : dij_cfg := {| dc_is_tree := false; dc_build_paths := false; dc_labeled := false; dc_keep_distances := true |}.

(** The traversal, and the dictionary state_iterators (line 351). An iterator is given by the distance it has been made for and the number of elements already taken. *)
Record red_state := { rd_in : dstate; rd_iters : V -> option (W * nat) }.
Definition red_put (f : V -> option (W * nat)) (v : V) (x : option (W * nat)) : V -> option (W * nat) := fun u => if V_dec u v then x else f u.

(** Lines 324-348 ([next_edges]): the edges from a state, and the changed iterators.  [None]: KeyError of [state_iterators[vertex]].
    The traversal reads the two edges one after the other; what they are has been computed before the first one is yielded. *)
Definition red_edges (iters : V -> option (W * nat)) (distances : dm_t DM) (st : state) : option (list (state * W * unit) * (V -> option (W * nat))) :=
  let '(vertex, edge_no) := st in
  let base_state_distance := dm_get DM (vertex, 0) distances in
  match (if Nat.eqb edge_no 0 then Some (base_state_distance, 0) else iters vertex) with
  | None => None
  | Some (d, taken) =>
      match next_edges_inf vertex d taken with
      | Some (next_vertex, length_from_base) =>
          let next_distance := w_add ZI length_from_base base_state_distance in
          let state_distance := dm_get DM st distances in
          let state_edge_length := w_sub next_distance state_distance in
          Some ([((next_vertex, 0), state_edge_length, tt); ((vertex, S edge_no), state_edge_length, tt)], red_put iters vertex (Some (d, S taken)))
      | None => Some ([], red_put iters vertex None)
      end
  end.

(** Line 356: (v, traversal.distance) for the reported states (v, 0) *)
Definition red_out (os : list dreport) : list (V * W) := flat_map (fun rep => if Nat.eqb (snd (dr_vertex rep)) 0 then [(fst (dr_vertex rep), dr_distance rep)] else []) os.

(** One pass of the traversal *)
Definition red_step (s : red_state) : step_result red_state (V * W) exn :=
  let edges st := match red_edges (rd_iters s) (d_distances (rd_in s)) st with Some (l, _) => l | None => [] end in
  match dij_step (fun s => s) ZI DM PM LM edges red_cfg (rd_in s) with
  | Halt os i => Halt (red_out os) {| rd_in := i; rd_iters := rd_iters s |}
  | Raise os x i => Raise (red_out os) x {| rd_in := i; rd_iters := rd_iters s |}
  | Go os i =>
      match inf_expanded DM PM LM (rd_in s) i with
      | None => Go (red_out os) {| rd_in := i; rd_iters := rd_iters s |}
      | Some st =>
          match red_edges (rd_iters s) (d_distances (rd_in s)) st with
          | None => Raise (red_out os) KeyErrorNotFound {| rd_in := i; rd_iters := rd_iters s |}
          | Some (_, iters) => Go (red_out os) {| rd_in := i; rd_iters := iters |}
          end
      end
  end.

(** Lines 351-354 *)
Definition red_init (start : V) : red_state :=
  {| rd_in := dij_init (fun s => s) ZI DM PM LM red_cfg [(start, 0)] None None; rd_iters := fun _ => None |}.

(** The first values of the generator, from [n] passes of the traversal *)
Definition red_run (start : V) (n : nat) : list (V * W) * outcome red_state exn := run red_step n (red_init start).
End Reduce.

(** Lines 365, 366 with [next_edges_prime_search] (lines 265-269): (i for i, distance in t if i == distance). All lengths and distances are doubled, see PrimesModel. *)
Definition red_primes (DM : DMap (Z * nat) (option Z) None) (PM : PMap (Z * nat) (Z * nat)) (LM : PMap (Z * nat) unit) (n : nat) : list Z :=
  map fst (filter (fun p => equals_distance (2 * fst p)%Z (snd p)) (fst (red_run Z.eq_dec prime_search_edges DM PM LM 1%Z n))).
