(** Model of A* and of the bidirectional searches with neighbor functions that look at the search, that give answers from a source of their own, or that raise an exception:
    the vertices the functions are called for in the next pass.  See AwareModel.v for what happens with the answers.

    In bidirectional searches, a pair of functions is given, [next_edges_fwd(vertex, self)] and [next_edges_bwd(vertex, self)].  We model the pair as one function of a direction
    ([true]: forwards) and a vertex. *)
From Coq Require Import List Bool ZArith.
From Verif Require Import Machine Common GearSpec Weight BFSModel DijkstraModel AStarModel BiBFSModel BiSPModel AwareModel.
Import ListNotations.

(** a_star.py:335-371 *)
Definition ast_asks {V I L} (vid : V -> I) (WT : Weights) {DM : DMap I (w_t WT) (w_inf WT)} {PM : PMap I V} {LM : PMap I L} (cfg : ast_cfg)
    (s : @ast_state V I L WT DM PM LM) : list V :=
  match a_pc s, a_heap s, limit_check (a_limit s) with
  | ALoop _, ((g, _), (v, _)) :: _, Some _ =>
      if negb (ac_is_tree cfg) && w_ltb WT (dm_get DM (vid v) (a_guesses s)) g then [] else [v]
  | _, _, _ => []
  end.

(** bidirectional_search/breadth_first.py:259-286: the current traversal calls its function *)
Definition bb_asks {V I L} {VS : VSet I} {PM : PMap I V} {LM : PMap I L} (s : @bb_state V I L VS PM LM) : list (bool * V) :=
  map (pair (bb_forwards s)) (bfs_asks (bs_state (bb_current s))).

(** bidirectional_search/shortest_path.py:411-445 *)
Definition b2_asks {V I L} (vid : V -> I) (WT : Weights) {DM : DMap I (w_t WT) (w_inf WT)} {PM : PMap I V} {LM : PMap I L}
    (s : @b2_state V I L WT DM PM LM) : list (bool * V) :=
  match b2_pc_of s, b2_heap (b2_current s), limit_check (b2_limit (b2_current s)) with
  | SLoop, (w, _, v) :: _, Some _ =>
      if w_ltb WT (dm_get DM (vid v) (b2_dist (b2_current s))) w then []
      else if negb (w_eqb WT (w_inf WT) (b2_best s)) && w_leb WT (b2_best s) (w_add WT w (b2_others s)) then []
      else [(b2_forwards s, v)]
  | _, _, _ => []
  end.

(** One pass, for a pair of functions. *)
Definition bb_pass {V I L} V_dec (vid : V -> I) (VS : VSet I) (PM : PMap I V) (LM : PMap I L) labeled build silent (f : bool * V -> list (V * L)) :=
  bb_step V_dec vid VS PM LM (fun v => f (true, v)) (fun v => f (false, v)) labeled build silent.
Definition b2_pass {V I L} V_dec (vid : V -> I) (WT : Weights) (DM : DMap I (w_t WT) (w_inf WT)) (PM : PMap I V) (LM : PMap I L) labeled build silent (f : bool * V -> list (V * w_t WT * L)) :=
  b2_step V_dec vid WT DM PM LM (fun v => f (true, v)) (fun v => f (false, v)) labeled build silent.

(** The id of a call: the direction and the id of the vertex. *)
Definition did {V I} (vid : V -> I) (d : bool * V) : bool * I := (fst d, vid (snd d)).
