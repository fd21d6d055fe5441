(** Model of [BSearchBreadthFirstFlex] (src/nographs/_strategies/bidirectional_search/breadth_first.py). *)
From Coq Require Import List ZArith Bool.
From Verif Require Import Machine GearSpec Common PathsModel PathModel BFSModel.
Import ListNotations.

Section BiBFS.
Context {V I L : Type}.
Variable V_dec : forall a b : V, {a = b} + {a <> b}.     (* == *)
Variable I_dec : forall a b : I, {a = b} + {a <> b}.     (* == on ids *)
Variable vid : V -> I.
Variable VS : VSet I.
Variable PM : PMap I V.
Variable LM : PMap I L.
(** The pair of neighbor functions. *)
Variable next_f : V -> list (V * L).
Variable next_b : V -> list (V * L).
Variable labeled : bool.
Variable build_path : bool.
Variable fail_silently : bool.

(** breadth_first.py:115-126, 192-198: the two traversals, and how they are started *)
Definition bb_cfg : bfs_cfg := {| bc_is_tree := false; bc_build_paths := build_path; bc_labeled := labeled; bc_report_depth_increase := true |}.

(** A traversal, and the value of its attribute depth: 0 after start_from, later the depth at the last report. *)
Record bb_side := { bs_state : @bfs_state V I L VS PM LM; bs_depth : Z }.

(** [bb_current]: the traversal the inner for loop iterates; [bb_other]: the other one. [bb_forwards]: the current one is the traversal from the start vertices. *)
Record bb_state := {
  bb_forwards : bool;
  bb_current : bb_side;
  bb_other : bb_side;
  bb_prev : option V
}.

(** The returned pair of length and path. *)
Record bb_result := { br_length : Z; br_path : path_obj V L }.

(** breadth_first.py:327-334 *)
Definition bb_found (s : bb_state) (v : V) (depth : Z) : bb_result :=
  let f := bs_state (if bb_forwards s then bb_current s else bb_other s) in
  let b := bs_state (if bb_forwards s then bb_other s else bb_current s) in
  {| br_length := depth + bs_depth (bb_other s);
     br_path := if build_path then from_bidirectional_search V_dec vid PM LM labeled (b_pred f) (b_labels f) (b_pred b) (b_labels b) v
                else of_nothing labeled |}.

(** breadth_first.py:340-343 *)
Definition bb_fail (s : bb_state) : step_result bb_state bb_result exn :=
  if fail_silently then Halt [{| br_length := -1; br_path := of_nothing labeled |}] s else Raise [] KeyErrorNotFound s.

Definition bb_set_current (s : bb_state) (c : bb_side) (prev : option V) : bb_state :=
  {| bb_forwards := bb_forwards s; bb_current := c; bb_other := bb_other s; bb_prev := prev |}.

(** breadth_first.py:287-334: the body of the for loop for the vertices reported by the current traversal in one of its passes (at most one);
    leaving the for loop means to go on with the other traversal (lines 259-286, 291-292) *)
Fixpoint bb_consume (s : bb_state) (reports : list (@bfs_report V I L VS PM LM)) : step_result bb_state bb_result exn :=
  match reports with
  | [] => Go [] s
  | r :: rest =>
      let v := br_vertex r in
      let s1 := bb_set_current s {| bs_state := bs_state (bb_current s); bs_depth := br_depth r |} (Some v) in
      if match bb_prev s with Some u => if V_dec u v then true else false | None => false end
      then Go [] {| bb_forwards := negb (bb_forwards s); bb_current := bb_other s; bb_other := bb_current s1; bb_prev := None |}
      else if vs_mem VS (vid v) (b_visited (bs_state (bb_other s)))
           then Halt [bb_found s1 v (br_depth r)] s1
           else bb_consume s1 rest
  end.

(** One pass of the current traversal, and what the for loop does with the vertex it reports. *)
Definition bb_step (s : bb_state) : step_result bb_state bb_result exn :=
  match bfs_step vid VS PM LM (if bb_forwards s then next_f else next_b) bb_cfg (bs_state (bb_current s)) with
  | Go o b => bb_consume (bb_set_current s {| bs_state := b; bs_depth := bs_depth (bb_current s) |} (bb_prev s)) o
  | Halt _ b => bb_fail (bb_set_current s {| bs_state := b; bs_depth := bs_depth (bb_current s) |} (bb_prev s))   (* lines 335-343 *)
  | Raise _ x b => Raise [] x (bb_set_current s {| bs_state := b; bs_depth := bs_depth (bb_current s) |} (bb_prev s))
  end.

Definition bb_start (starts : list V) (lim : option Z) : bb_side := {| bs_state := bfs_init vid VS PM LM bb_cfg starts None lim; bs_depth := 0 |}.

Definition bb_init (starts goals : list V) (lim : option Z) : bb_state :=
  {| bb_forwards := true; bb_current := bb_start starts lim; bb_other := bb_start goals lim; bb_prev := None |}.

(** breadth_first.py:238-255: the first start vertex whose id is the id of a goal vertex *)
Definition bb_common (starts goals : list V) : option V :=
  find (fun v => if in_dec I_dec (vid v) (map vid goals) then true else false) starts.

(** breadth_first.py:128-343 ([start_from]); [starts] and [goals]: the values of the options start_and_goal_vertices resp. start_and_goal_vertex.
    Simplification: they are collections that can be iterated more than once. *)
Definition bb_run (starts goals : list V) (lim : option Z) (n : nat) : list bb_result * outcome bb_state exn :=
  match bb_common starts goals with
  | Some v => ([{| br_length := 0; br_path := from_vertex labeled v |}], Ended (bb_init starts goals lim))
  | None => run bb_step n (bb_init starts goals lim)
  end.

(** breadth_first.py:174-190: from the options to the lists of start and goal vertices *)
Definition start_and_goal_vertices_of (one : option (V * V)) (many : option (list V * list V)) : (list V * list V) + exn :=
  match one with
  | Some (s, g) => match many with Some _ => inr RuntimeErrorConfig | None => inl ([s], [g]) end
  | None => match many with None => inr RuntimeErrorConfig | Some p => inl p end
  end.
End BiBFS.
Arguments bs_state {V I L VS PM LM}. Arguments bs_depth {V I L VS PM LM}.
Arguments bb_forwards {V I L VS PM LM}. Arguments bb_current {V I L VS PM LM}. Arguments bb_other {V I L VS PM LM}. Arguments bb_prev {V I L VS PM LM}.
Arguments br_length {V L}. Arguments br_path {V L}.

(** base.py:32-67 ([_create_unified_next_bidirectional]): the pair of functions to be used, whether edges carry data, whether they are labeled *)
Definition create_unified_next_bidirectional {F : Type} (next_vertices next_edges next_labeled_edges : option (F * F)) : (F * F * bool * bool) + exn :=
  match next_vertices with
  | Some f => match next_edges, next_labeled_edges with
              | Some _, _ => inr RuntimeErrorConfig
              | None, Some _ => inr RuntimeErrorConfig
              | None, None => inl (f, false, false)
              end
  | None => match next_edges with
            | Some f => match next_labeled_edges with Some _ => inr RuntimeErrorConfig | None => inl (f, true, false) end
            | None => match next_labeled_edges with None => inr RuntimeErrorConfig | Some f => inl (f, true, true) end
            end
  end.

(** base.py:70-98 ([_create_unified_next_weighted_bidirectional]) *)
Definition create_unified_next_weighted_bidirectional {F : Type} (next_edges next_labeled_edges : option (F * F)) : (F * F * bool) + exn :=
  match next_edges with
  | Some f => match next_labeled_edges with Some _ => inr RuntimeErrorConfig | None => inl (f, false) end
  | None => match next_labeled_edges with None => inr RuntimeErrorConfig | Some f => inl (f, true) end
  end.
