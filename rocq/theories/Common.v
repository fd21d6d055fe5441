(** Model of code shared by the traversals: exceptions, calculation limit,
    start configuration. *)
From Coq Require Import List ZArith Bool.
From Verif Require Import GearSpec.
Import ListNotations.

(** The exceptions raised explicitly by the modelled code. *)
Inductive exn :=
| RuntimeErrorLimit          (* "Number of visited vertices reached limit" *)
| RuntimeErrorConfig         (* both or neither of two alternatives given *)
| RuntimeErrorCycle          (* "Graph contains cycle" *)
| RuntimeErrorNoPath         (* "Paths: No path for given vertex." *)
| RuntimeErrorProblem        (* problem is not well-defined (TSP) *)
| KeyErrorNotFound           (* KeyError *)
| IndexErrorModel            (* IndexError from a Python sequence *)
| OverflowErrorDistance      (* _gears.py:274-284 *)
| AssertionModel.            (* a state the code asserts to be impossible *)

(** [calculation_limit += 1] before the loop, e.g. breadth_first.py:224-226. *)
Definition limit_init (l : option Z) : option Z := option_map (fun z => (z + 1)%Z) l.

(** [if calculation_limit and not (calculation_limit := calculation_limit - 1): raise],
    e.g. breadth_first.py:302-305. [None]: RuntimeError. A zero counter is falsy and
    switches the check off. *)
Definition limit_check (l : option Z) : option (option Z) :=
  match l with
  | None => Some None
  | Some z => if (z =? 0)%Z then Some l
              else if (z - 1 =? 0)%Z then None else Some (Some (z - 1)%Z)
  end.

(** Start configuration, traversal.py:116-134 ([_start_from]). [None] of Python is [None]. *)
Definition start_vertices_of {V} (start_vertex : option V) (start_vertices : option (list V))
  : list V + exn :=
  match start_vertex with
  | Some v => match start_vertices with
              | Some _ => inr RuntimeErrorConfig
              | None => inl [v]
              end
  | None => match start_vertices with
            | None => inr RuntimeErrorConfig
            | Some l => inl l
            end
  end.

(** Choice of the neighbor function, traversal_without_weights.py:31-64
    ([_create_unified_next]): result is (function, edges_with_data, labeled_edges). *)
Definition create_unified_next {F} (next_vertices next_edges next_labeled_edges : option F)
  : (F * bool * bool) + exn :=
  match next_vertices with
  | Some f => match next_edges with
              | Some _ => inr RuntimeErrorConfig
              | None => match next_labeled_edges with
                        | Some _ => inr RuntimeErrorConfig
                        | None => inl (f, false, false)
                        end
              end
  | None => match next_edges with
            | Some f => match next_labeled_edges with
                        | Some _ => inr RuntimeErrorConfig
                        | None => inl (f, true, false)
                        end
            | None => match next_labeled_edges with
                      | None => inr RuntimeErrorConfig
                      | Some f => inl (f, true, true)
                      end
            end
  end.

(** traversal_with_weights.py:27-50 ([_create_unified_next_weighted]). *)
Definition create_unified_next_weighted {F} (next_edges next_labeled_edges : option F)
  : (F * bool) + exn :=
  match next_edges with
  | Some f => match next_labeled_edges with
              | Some _ => inr RuntimeErrorConfig
              | None => inl (f, false)
              end
  | None => match next_labeled_edges with
            | None => inr RuntimeErrorConfig
            | Some f => inl (f, true)
            end
  end.

(** utils.py:111-129 ([define_visited]): the set used for visited vertices.
    With [is_tree], start vertices are not marked. *)
Definition define_visited {I} (VS : VSet I) (already_visited : option (vs_t VS))
    (start_ids : list I) (is_tree : bool) : vs_t VS :=
  match already_visited with
  | None => vs_of_list VS (vs_empty VS) (if is_tree then [] else start_ids)
  | Some s => if is_tree then s else vs_of_list VS s start_ids
  end.

(** utils.py:155-199 ([create_paths]): initial predecessors: a self loop for each
    start vertex denotes its empty path. *)
Definition create_predecessors {V I} (vid : V -> I) (PM : PMap I V)
    (build_paths : bool) (starts : list V) : pm_t PM :=
  pm_of_list PM (pm_empty PM) (if build_paths then map (fun v => (vid v, v)) starts else []).
