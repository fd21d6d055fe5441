(** Model of [BSearchShortestPathFlex] (src/nographs/_strategies/bidirectional_search/shortest_path.py). *)
From Coq Require Import List ZArith Bool.
From Verif Require Import Machine GearSpec Common PathsModel PathModel Weight HeapModel DijkstraModel.
Import ListNotations.
Local Open Scope Z_scope.

Section BiSP.
Context {V I L : Type}.
Variable V_dec : forall a b : V, {a = b} + {a <> b}.     (* == *)
Variable I_dec : forall a b : I, {a = b} + {a <> b}.     (* == on ids *)
Variable vid : V -> I.
Variable WT : Weights.
Notation W := (w_t WT).
Variable DM : DMap I W (w_inf WT).
Variable PM : PMap I V.
Variable LM : PMap I L.
(** The pair of neighbor functions. *)
Variable next_f : V -> list (V * W * L).
Variable next_b : V -> list (V * W * L).
Variable labeled : bool.
Variable build_path : bool.
Variable fail_silently : bool.

(** What the search stores for one direction, shortest_path.py:185-215, 295-343: heap, source of numbers (lines 330-332), distances, predecessors, labels, calculation
    limit.  [b2_calls] (ghost): the calls of the neighbor function, with the path weight of the vertex. *)
Record b2_side := {
  b2_heap : list (@entry V WT);
  b2_no : Z;
  b2_dist : dm_t DM;
  b2_pred : pm_t PM;
  b2_labels : pm_t LM;
  b2_limit : option Z;
  b2_calls : list (V * W)
}.

(** [SLoop]: before line 395 (the next direction has been chosen). [SEdges v w rest]: in the loop of line 445, vertex [v] with path weight [w] is expanded, edges [rest] are left. *)
Inductive b2_pc := SLoop | SEdges (v : V) (w : W) (rest : list (V * W * L)).

(** Simplification: instead of the variables of the loop that are set alternately to the objects for one direction and the other (lines 352-393), the state has the data
    of the current direction and those of the other one. *)
Record b2_state := {
  b2_pc_of : b2_pc;
  b2_forwards : bool;
  b2_current : b2_side;
  b2_other : b2_side;
  b2_best : W;               (* best_path_length *)
  b2_node : V;               (* best_connecting_node *)
  b2_others : W;             (* others_path_weight *)
  b2_outdated : bool         (* ghost: line 423 has been executed *)
}.

(** The returned pair of length and path. *)
Record b2_result := { b2_length : W; b2_path : path_obj V L }.

(** shortest_path.py:508-515.  Simplification: the path object is created at the return statement and not after each expansion of a vertex.  It makes no
    difference: the object refers to the two paths containers, and these do not change any more after the last expansion. *)
Definition b2_found (s : b2_state) : b2_result :=
  let f := if b2_forwards s then b2_current s else b2_other s in
  let b := if b2_forwards s then b2_other s else b2_current s in
  {| b2_length := b2_best s;
     b2_path := if build_path then from_bidirectional_search V_dec vid PM LM labeled (b2_pred f) (b2_labels f) (b2_pred b) (b2_labels b) (b2_node s)
                else of_nothing labeled |}.

(** shortest_path.py:517-530 ([_search_failed]) *)
Definition b2_failed : b2_result + exn :=
  if fail_silently then inl {| b2_length := w_inf WT; b2_path := of_nothing labeled |} else inr KeyErrorNotFound.

(** shortest_path.py:411: the heap without its minimum *)
Definition b2_popped (b : b2_side) (h : list (@entry V WT)) : b2_side :=
  {| b2_heap := h; b2_no := b2_no b; b2_dist := b2_dist b; b2_pred := b2_pred b; b2_labels := b2_labels b; b2_limit := b2_limit b; b2_calls := b2_calls b |}.

(** shortest_path.py:435-445: the limit has been checked, the neighbor function is called *)
Definition b2_expanded (b : b2_side) (lim : option Z) (v : V) (w : W) : b2_side :=
  {| b2_heap := b2_heap b; b2_no := b2_no b; b2_dist := b2_dist b; b2_pred := b2_pred b; b2_labels := b2_labels b; b2_limit := lim; b2_calls := (v, w) :: b2_calls b |}.

(** shortest_path.py:463-487: a better path to neighbor [n] *)
Definition b2_improved (b : b2_side) (v n : V) (nw : W) (l : L) : b2_side :=
  {| b2_heap := heappush WT (nw, b2_no b, n) (b2_heap b);
     b2_no := b2_no b - 1;
     b2_dist := dm_set DM (vid n) nw (b2_dist b);
     b2_pred := if build_path then pm_set PM (vid n) v (b2_pred b) else b2_pred b;
     b2_labels := if build_path && labeled then pm_set LM (vid n) l (b2_labels b) else b2_labels b;
     b2_limit := b2_limit b; b2_calls := b2_calls b |}.

(** One pass, shortest_path.py:352-515. *)
Definition b2_step (s : b2_state) : step_result b2_state b2_result exn :=
  match b2_pc_of s with
  | SLoop =>
      match b2_heap (b2_current s) with
      | [] => match b2_failed with inl r => Halt [r] s | inr x => Raise [] x s end                           (* lines 395-396 *)
      | (w, _, v) :: h =>
          let c := b2_popped (b2_current s) h in
          if w_ltb WT (dm_get DM (vid v) (b2_dist c)) w                                                      (* lines 422-423 *)
          then Go [] {| b2_pc_of := SLoop; b2_forwards := negb (b2_forwards s); b2_current := b2_other s; b2_other := c;
                        b2_best := b2_best s; b2_node := b2_node s; b2_others := b2_others s; b2_outdated := true |}
          else
            let s1 := {| b2_pc_of := SLoop; b2_forwards := b2_forwards s; b2_current := c; b2_other := b2_other s;
                         b2_best := b2_best s; b2_node := b2_node s; b2_others := b2_others s; b2_outdated := b2_outdated s |} in
            if negb (w_eqb WT (w_inf WT) (b2_best s)) && w_leb WT (b2_best s) (w_add WT w (b2_others s))   (* lines 425-430 *)
            then Halt [b2_found s1] s1
            else match limit_check (b2_limit c) with                                                         (* lines 433-440 *)
                 | None => Raise [] RuntimeErrorLimit s1
                 | Some lim =>
                     Go [] {| b2_pc_of := SEdges v w ((if b2_forwards s then next_f else next_b) v); b2_forwards := b2_forwards s;
                              b2_current := b2_expanded c lim v w; b2_other := b2_other s;
                              b2_best := b2_best s; b2_node := b2_node s; b2_others := w; b2_outdated := b2_outdated s |}
                 end
      end
  | SEdges v w [] =>
      Go [] {| b2_pc_of := SLoop; b2_forwards := negb (b2_forwards s); b2_current := b2_other s; b2_other := b2_current s;
               b2_best := b2_best s; b2_node := b2_node s; b2_others := b2_others s; b2_outdated := b2_outdated s |}
  | SEdges v w ((n, ew, l) :: rest) =>
      let nw := w_add WT ew w in
      if w_leb WT (w_inf WT) nw then Raise [] OverflowErrorDistance s                                        (* lines 451-452 *)
      else if w_leb WT (dm_get DM (vid n) (b2_dist (b2_current s))) nw                                       (* lines 465-466 *)
           then Go [] {| b2_pc_of := SEdges v w rest; b2_forwards := b2_forwards s; b2_current := b2_current s; b2_other := b2_other s;
                         b2_best := b2_best s; b2_node := b2_node s; b2_others := b2_others s; b2_outdated := b2_outdated s |}
           else
             let total := w_add WT nw (dm_get DM (vid n) (b2_dist (b2_other s))) in
             let better := negb (w_leb WT (b2_best s) total) in                                              (* lines 493-506 *)
             Go [] {| b2_pc_of := SEdges v w rest; b2_forwards := b2_forwards s; b2_current := b2_improved (b2_current s) v n nw l; b2_other := b2_other s;
                      b2_best := if better then total else b2_best s; b2_node := if better then n else b2_node s;
                      b2_others := b2_others s; b2_outdated := b2_outdated s |}
  end.

(** shortest_path.py:334-343: numbers count down from 256 *)
Fixpoint b2_entries (no : Z) (dist : dm_t DM) (starts : list V) : list (@entry V WT) :=
  match starts with
  | [] => []
  | v :: r => (dm_get DM (vid v) dist, no, v) :: b2_entries (no - 1) dist r
  end.

(** shortest_path.py:185-215, 251-260, 299-343: the begin of the search of one direction *)
Definition b2_start (starts : list V) (lim : option Z) : b2_side :=
  let dist := define_distances WT DM None (map (fun v => (vid v, w_zero WT)) starts) false in
  {| b2_heap := heapify WT (b2_entries 256 dist starts);
     b2_no := 256 - Z.of_nat (length starts);
     b2_dist := dist;
     b2_pred := create_predecessors vid PM build_path starts;
     b2_labels := pm_empty LM;
     b2_limit := limit_init lim;
     b2_calls := [] |}.

Definition b2_init (first : V) (starts goals : list V) (lim : option Z) : b2_state :=
  {| b2_pc_of := SLoop; b2_forwards := true; b2_current := b2_start starts lim; b2_other := b2_start goals lim;
     b2_best := w_inf WT; b2_node := first; b2_others := w_zero WT; b2_outdated := false |}.

(** shortest_path.py:281-293: the first start vertex whose id is the id of a goal vertex *)
Definition b2_common (starts goals : list V) : option V :=
  find (fun v => if in_dec I_dec (vid v) (map vid goals) then true else false) starts.

(** shortest_path.py:113-530 ([start_from]), executed up to [n] passes of the loop; [None]: the search ends before the loop.
    Simplification: start and goal vertices are given as collections that can be iterated more than once. *)
Definition b2_run (starts goals : list V) (lim : option Z) (n : nat) : list b2_result * outcome (option b2_state) exn :=
  match starts, goals with
  | first :: _, _ :: _ =>
      match b2_common starts goals with
      | Some v => ([{| b2_length := w_zero WT; b2_path := from_vertex labeled v |}], Ended None)
      | None =>
          let '(os, r) := run b2_step n (b2_init first starts goals lim) in
          (os, match r with Running s => Running (Some s) | Ended s => Ended (Some s) | Raised x s => Raised x (Some s) end)
      end
  | _, _ =>                                                                                                   (* lines 275-279 *)
      match b2_failed with inl r => ([r], Ended None) | inr x => ([], Raised x None) end
  end.
End BiSP.
Arguments b2_heap {V I L WT DM PM LM}. Arguments b2_no {V I L WT DM PM LM}. Arguments b2_dist {V I L WT DM PM LM}. Arguments b2_pred {V I L WT DM PM LM}.
Arguments b2_labels {V I L WT DM PM LM}. Arguments b2_limit {V I L WT DM PM LM}. Arguments b2_calls {V I L WT DM PM LM}.
Arguments SLoop {V L WT}. Arguments SEdges {V L WT}.
Arguments b2_pc_of {V I L WT DM PM LM}. Arguments b2_forwards {V I L WT DM PM LM}. Arguments b2_current {V I L WT DM PM LM}. Arguments b2_other {V I L WT DM PM LM}.
Arguments b2_best {V I L WT DM PM LM}. Arguments b2_node {V I L WT DM PM LM}. Arguments b2_others {V I L WT DM PM LM}. Arguments b2_outdated {V I L WT DM PM LM}.
Arguments b2_length {V L WT}. Arguments b2_path {V L WT}.
