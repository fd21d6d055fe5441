(** Model of traversals with a neighbor function that looks at the traversal ("search-aware graphs", documented for [NextVertices], [NextEdges] etc. in
    src/nographs/_types.py and type_aliases.py: the function gets the traversal object as second argument), that gives answers from a source of its own (a random generator,
    a file, what it has been asked before), or that raises an exception.

    The traversals call the function as [next_edges(vertex, self)], e.g. in breadth_first.py:307, neighbors_then_depth.py:324, depth_first.py:922, 1170,
    topological_sort.py:545, shortest_paths.py:315, minimum_spanning_tree.py:221, 318.

    Simplification: an answer is given completely at the time of the call, i.e., the function does not return an iterator that looks at the traversal while it is read. *)
From Coq Require Import List Bool ZArith.
From Verif Require Import Machine Common GearSpec Weight BFSModel NTDModel DFSModel TopoModel DijkstraModel MSTModel.
Import ListNotations.

Section Aware.
Context {S O X V A : Type}.
Variable step : (V -> A) -> S -> step_result S O X.     (* one pass of a traversal, for a neighbor function *)
Variable asks : S -> list V.                            (* the vertices the neighbor function is called for in the next pass *)
Variable nothing : A.                                   (* the answer without edges *)

(** What the function answers: in the pass with number [i], the objects are in state [s] (the attributes are a part of it), and it is called for a vertex: an exception or the edges. *)
Variable answer : nat -> S -> V -> X + A.

Fixpoint first_exception (l : list (X + A)) : option X :=
  match l with
  | [] => None
  | inl x :: _ => Some x
  | inr _ :: r => first_exception r
  end.

Definition edges_of (a : X + A) : A := match a with inl _ => nothing | inr es => es end.

(** One pass. An exception of the function ends the generator, in the state that the pass has reached before it processes edges. *)
Definition aware_step (i : nat) (s : S) : step_result S O X :=
  match first_exception (map (answer i s) (asks s)) with
  | None => step (fun v => edges_of (answer i s v)) s
  | Some x => match step (fun _ => nothing) s with
              | Go o s' | Halt o s' | Raise o _ s' => Raise o x s'
              end
  end.

(** At most [n] passes, the first one has number [i]. *)
Fixpoint aware_run (i n : nat) (s : S) : list O * outcome S X :=
  match n with
  | 0 => ([], Running s)
  | Datatypes.S n' =>
      match aware_step i s with
      | Go o s' => let r := aware_run (Datatypes.S i) n' s' in (o ++ fst r, snd r)
      | Halt o s' => (o, Ended s')
      | Raise o x s' => (o, Raised x s')
      end
  end.
End Aware.

(** The vertices the neighbor function is called for in the next pass. *)
(** breadth_first.py:301-307 *)
Definition bfs_asks {V I L} {VS : VSet I} {PM : PMap I V} {LM : PMap I L} (s : @bfs_state V I L VS PM LM) : list V :=
  match b_pc s, b_to_expand s, limit_check (b_limit s) with
  | BFor, v :: _, Some _ => [v]
  | _, _, _ => []
  end.

(** neighbors_then_depth.py:307-324 *)
Definition ntd_asks {V I L} {VS : VSet I} {PM : PMap I V} {LM : PMap I L} (cfg : ntd_cfg) (s : @ntd_state V I L VS PM LM) : list V :=
  match n_pc s, n_to_expand s with
  | NWhile, v :: r => match ntd_enter VS PM LM cfg s r with
                      | Some s1 => match limit_check (n_limit s1) with Some _ => [v] | None => [] end
                      | None => []
                      end
  | _, _ => []
  end.

(** topological_sort.py:452-545 *)
Definition topo_asks {V I L} (vid : V -> I) {VS : VSet I} {PM : PMap I V} {LM : PMap I L} (s : @topo_state V I L VS PM LM) : list V :=
  match t_pc s, t_stack s, limit_check (t_limit s) with
  | TWhile, v :: _, Some _ =>
      if vs_mem VS (vid v) (t_trace_set s) then []
      else if (0 <? t_depth s)%Z && vs_mem VS (vid v) (t_visited s) then []
      else [v]
  | _, _, _ => []
  end.

(** shortest_paths.py:276-315 *)
Definition dij_asks {V I L} (vid : V -> I) (WT : Weights) {DM : DMap I (w_t WT) (w_inf WT)} {PM : PMap I V} {LM : PMap I L} (cfg : dij_cfg)
    (s : @dij_state V I L WT DM PM LM) : list V :=
  match d_pc s, d_heap s, limit_check (d_limit s) with
  | DLoop _, ((w, _), (v, _)) :: _, Some _ =>
      if negb (DijkstraModel.dc_is_tree cfg) && w_ltb WT (dm_get DM (vid v) (d_distances s)) w then [] else [v]
  | _, _, _ => []
  end.

(** minimum_spanning_tree.py:208-221, 246-318 *)
Definition mst_asks {V I L} (vid : V -> I) (WT : Weights) {VS : VSet I} {PM : PMap I V} {LM : PMap I L} (s : @mst_state V I L WT VS PM LM) : list V :=
  match m_pc s with
  | MStart _ starts => match mst_limit_start (m_limit s) (length starts) with Some _ => starts | None => [] end
  | MLoop _ => match m_heap s, limit_check (m_limit s) with
             | (_, (_, e)) :: _, Some _ => if vs_mem VS (vid (fst (fst e))) (m_visited s) then [] else [fst (fst e)]
             | _, _ => []
             end
  | MEdges _ _ _ => []
  end.

(** depth_first.py:569-922 *)
Definition dfs_asks {V I L} (V_dec : forall a b : V, {a = b} + {a <> b}) (vid : V -> I) {VS : VSet I} {PM : PMap I V} {LM : PMap I L} {XM : DMap I Z 0%Z} (cfg : dfs_cfg) (skip : nat -> bool)
    (s : @dfs_state V I L VS PM LM XM) : list V :=
  match f_pc s, f_markers s with
  | FLoop _, false :: m =>
      match dfs_pop VS PM LM XM cfg s m with
      | None => []
      | Some (v, s1) =>
          let refused := negb (DFSModel.dc_is_tree cfg) && negb (is_all_walks (dc_mode cfg)) &&
                         (if is_dfs_tree (dc_mode cfg) then vs_mem VS (vid v) (f_visited s1) else vs_mem VS (vid v) (f_on_trace s1)) in
          let no_label := match f_trace s1, DFSModel.dc_labeled cfg, f_var_labels s1 with _ :: _, true, None => true | _, _, _ => false end in
          let skipped := dc_report cfg (if is_current_start V_dec VS PM LM XM s1 v then ENTERING_START else ENTERING_SUCCESSOR) && skip (f_count s1) in
          if refused || no_label || skipped then []
          else match limit_check (f_limit s1) with Some _ => [v] | None => [] end
      end
  | _, _ => []
  end.

(** depth_first.py:1070-1170 *)
Definition dfw_asks {V I L} (V_dec : forall a b : V, {a = b} + {a <> b}) (vid : V -> I) {VS : VSet I} {PM : PMap I V} {LM : PMap I L} (cfg : dfs_cfg) (skip : nat -> bool)
    (s : @dfw_state V I L VS PM LM) : list V :=
  match w_pc s, w_to_visit s with
  | WLoop, v :: _ =>
      let refused := negb (DFSModel.dc_is_tree cfg) && vs_mem VS (vid v) (w_visited s) in
      let skipped := dc_report cfg (if dfw_is_start V_dec VS PM LM s v then ENTERING_START else ENTERING_SUCCESSOR) && skip (w_count s) in
      if refused || skipped then []
      else match limit_check (w_limit s) with Some _ => [v] | None => [] end
  | _, _ => []
  end.
