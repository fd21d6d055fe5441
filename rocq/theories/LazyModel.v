(** Model of traversals whose neighbor function returns an iterator that is read while the traversal goes on.

    Typical neighbor functions of NoGraphs are generators. The loops
    [for edge_or_vertex in next_edge_or_vertex(vertex, prev_traversal)] (breadth_first.py:307, neighbors_then_depth.py:324) and
    [for edge in next_edges(vertex, self)] (shortest_paths.py:315) read one edge in each pass, and between two reads, the traversal changes
    its attributes, it can report a vertex, and the program that gets the report can do anything: the iterator may look at the traversal, the program
    may change the graph, and the iterator may raise an exception.
    In depth_first.py:922, 1170 and topological_sort.py:545, an answer is read in a single pass without a visible change: see AwareModel. *)
From Coq Require Import List Bool ZArith.
From Verif Require Import Machine Common GearSpec Weight BFSModel NTDModel DijkstraModel.
Import ListNotations.

Section Lazy.
Context {S O X V Ed : Type}.
Variable step : (V -> list Ed) -> S -> step_result S O X.   (* one pass of a traversal, for a neighbor function *)
Variable reading : S -> option V.                           (* in the next pass, the iterator for this vertex is read *)
Variable set_unread : list Ed -> S -> S.                    (* replace the edges that are known but not processed *)

(** What the iterator does when it is read, in pass [i], while the objects are in state [s] (the attributes are a part of it): it raises an exception,
    it is exhausted, or it gives an edge. *)
Variable read : nat -> S -> V -> X + option Ed.

(** One pass, and the edge that has been read with the vertex it belongs to *)
Definition lazy_step (i : nat) (s : S) : step_result S O X * list (V * Ed) :=
  match reading s with
  | None => (step (fun _ => []) s, [])                      (* the neighbor function may be called: nothing is read yet *)
  | Some v => match read i s v with
              | inl x => (Raise [] x s, [])
              | inr None => (step (fun _ => []) (set_unread [] s), [])
              | inr (Some e) => (step (fun _ => []) (set_unread [e] s), [(v, e)])
              end
  end.

(** At most [n] passes, the first one has number [i]: reports, outcome, and the edges that have been read *)
Fixpoint lazy_run (i n : nat) (s : S) : list O * outcome S X * list (V * Ed) :=
  match n with
  | 0 => ([], Running s, [])
  | Datatypes.S n' =>
      match lazy_step i s with
      | (Go o s', l) => let '(os, r, l') := lazy_run (Datatypes.S i) n' s' in (o ++ os, r, l ++ l')
      | (Halt o s', l) => (o, Ended s', l)
      | (Raise o x s', l) => (o, Raised x s', l)
      end
  end.
End Lazy.

(** breadth_first.py:307 *)
Definition bfs_reading {V I L} {VS : VSet I} {PM : PMap I V} {LM : PMap I L} (s : @bfs_state V I L VS PM LM) : option V :=
  match b_pc s with BEdges v _ => Some v | _ => None end.
Definition bfs_set_unread {V I L} {VS : VSet I} {PM : PMap I V} {LM : PMap I L} (es : list (V * L)) (s : @bfs_state V I L VS PM LM) : @bfs_state V I L VS PM LM :=
  {| b_pc := match b_pc s with BEdges v _ => BEdges v es | pc => pc end; b_to_expand := b_to_expand s; b_next := b_next s; b_depth := b_depth s; b_visited := b_visited s;
     b_pred := b_pred s; b_labels := b_labels s; b_limit := b_limit s; b_calls := b_calls s |}.

(** neighbors_then_depth.py:324 *)
Definition ntd_reading {V I L} {VS : VSet I} {PM : PMap I V} {LM : PMap I L} (s : @ntd_state V I L VS PM LM) : option V :=
  match n_pc s with NEdges v _ => Some v | _ => None end.
Definition ntd_set_unread {V I L} {VS : VSet I} {PM : PMap I V} {LM : PMap I L} (es : list (V * L)) (s : @ntd_state V I L VS PM LM) : @ntd_state V I L VS PM LM :=
  {| n_pc := match n_pc s with NEdges v _ => NEdges v es | pc => pc end; n_to_expand := n_to_expand s; n_markers := n_markers s; n_loop_depth := n_loop_depth s; n_depth := n_depth s;
     n_visited := n_visited s; n_pred := n_pred s; n_labels := n_labels s; n_limit := n_limit s; n_calls := n_calls s |}.

(** shortest_paths.py:315 *)
Definition dij_reading {V I L} {WT : Weights} {DM : DMap I (w_t WT) (w_inf WT)} {PM : PMap I V} {LM : PMap I L} (s : @dij_state V I L WT DM PM LM) : option V :=
  match d_pc s with DEdges _ v _ _ _ => Some v | _ => None end.
Definition dij_set_unread {V I L} {WT : Weights} {DM : DMap I (w_t WT) (w_inf WT)} {PM : PMap I V} {LM : PMap I L} (es : list (V * w_t WT * L)) (s : @dij_state V I L WT DM PM LM)
  : @dij_state V I L WT DM PM LM :=
  d_set_pc WT DM PM LM s match d_pc s with DEdges _ v w k _ => DEdges WT v w k es | pc => pc end.
