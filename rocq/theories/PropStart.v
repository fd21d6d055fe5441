(** Properties of the start of traversals: C83, C84.

    [given]: the start vertices the caller has given, by start_vertex, or by start_vertices as a collection or as an iterator; or RuntimeError, if not exactly one of the
    options is used.  C83: the state in which a traversal begins is the state for the list of these vertices, thus all further properties hold for iterators, too.
    [..._init]: the state at the begin of the traversal for a list of start vertices. *)
From Coq Require Import List ZArith Bool Arith.
From Verif Require Import Machine GearSpec GearProofs Common PathsModel PathModel Weight HeapModel BFSModel NTDModel TopoModel DFSModel DijkstraModel AStarModel
  MSTModel BiBFSModel BiSPModel InfModel PropInf StartModel StartSpec StartProofs Examples.
Import ListNotations.

(** C83. Traversals. *)
Theorem C83_start_vertices :
  forall {V I L : Type} (vid : V -> I) (WT : Weights) (VS : VSet I) (PM : PMap I V) (LM : PMap I L) (DM : DMap I (w_t WT) (w_inf WT)) (XM : DMap I Z 0%Z)
    (start_vertex : option V) (start_vertices : option (iterable V)) lim,
  let starts := given start_vertex start_vertices in
  (forall cfg visited, with_given (bfs_start vid VS PM LM cfg start_vertex start_vertices visited lim) fst = with_given starts (fun l => bfs_init vid VS PM LM cfg l visited lim)) /\
  (forall cfg visited, ntd_start vid VS PM LM cfg start_vertex start_vertices visited lim = with_given starts (fun l => ntd_init vid VS PM LM cfg l visited lim)) /\
  (forall cfg visited, dfs_start vid VS PM LM XM cfg start_vertex start_vertices visited lim = with_given starts (fun l => dfs_init vid VS PM LM XM cfg l visited lim)) /\
  (forall cfg visited, topo_start vid VS PM LM cfg start_vertex start_vertices visited lim = with_given starts (fun l => topo_init vid VS PM LM cfg l visited lim)) /\
  (forall cfg known, dij_start vid WT PM LM DM cfg start_vertex start_vertices known lim = with_given starts (fun l => dij_init vid WT DM PM LM cfg l known lim)) /\
  (forall cfg heuristic known guesses, ast_start vid WT PM LM DM cfg heuristic start_vertex start_vertices known guesses lim
     = with_given starts (fun l => ast_init vid WT DM PM LM cfg heuristic l known guesses lim)) /\
  (forall cfg, mst_start vid WT VS PM LM cfg start_vertex start_vertices lim = with_given starts (fun l => mst_init vid WT VS PM LM cfg l lim)).
Proof.
  exact (fun V I L vid WT VS PM LM DM XM one many lim =>
    conj (fun cfg av => bfs_start_spec vid VS PM LM cfg one many av lim) (conj (fun cfg av => ntd_start_spec vid VS PM LM cfg one many av lim)
    (conj (fun cfg av => dfs_start_spec vid VS PM LM XM cfg one many av lim) (conj (fun cfg av => topo_start_spec vid VS PM LM cfg one many av lim)
    (conj (fun cfg known => dij_start_spec vid WT PM LM DM cfg one many known lim) (conj (fun cfg h k g => ast_start_spec vid WT PM LM DM cfg h one many k g lim)
    (fun cfg => mst_start_spec vid WT VS PM LM cfg one many lim))))))).
Qed.
Print Assumptions C83_start_vertices.

Example C83_example :
  match bfs_start (fun v : nat => v) hVS (hPM (A := nat)) (hPM (A := unit)) {| bc_is_tree := false; bc_build_paths := true; bc_labeled := false; bc_report_depth_increase := false |}
          None (Some (Iterator [4; 7])) None None with
  | inl (s, v) => b_to_expand s = [4; 7] /\ pm_get hPM 7 (b_pred s) = Some 7 /\ vs_mem hVS 4 (b_visited s) = true /\ sv_argument v = Iterator []
  | inr _ => False
  end.
Proof. vm_compute. auto. Qed.

(** C83, continued.  Infinite branching: the same, except for one-shot iterators with store_distances and without build_paths, see C84. *)
Theorem C83_infinite_branching :
  forall {V : Type} (DM : DMap V (option Z) None) (PM : PMap V V) (DMi : DMap (V * nat) (option Z) None) (PMi : PMap (V * nat) (V * nat)) (LMi : PMap (V * nat) unit)
    (build_paths store_distances : bool) (start_vertex : option V) (start_vertices : option (iterable V)) lim,
  match start_vertices with Some (Iterator _) => build_paths || negb store_distances = true | _ => True end ->
  inf_start DM PM DMi PMi LMi build_paths store_distances start_vertex start_vertices lim
  = with_given (given start_vertex start_vertices) (fun l => inf_init DM PM DMi PMi LMi build_paths store_distances l lim).
Proof. exact @inf_start_spec. Qed.
Print Assumptions C83_infinite_branching.

(** C83, continued.  BSearchShortestPath, with one or two iterators. *)
Theorem C83_bsearch_shortest_path :
  forall {V I L : Type} (V_dec : forall a b : V, {a = b} + {a <> b}) (I_dec : forall a b : I, {a = b} + {a <> b}) (vid : V -> I) (WT : Weights)
    (PM : PMap I V) (LM : PMap I L) (DM : DMap I (w_t WT) (w_inf WT)) (labeled build_path fail_silently : bool) next_f next_b
    (start_and_goal_vertex : option (V * V)) (start_and_goal_vertices : option (iterable V * iterable V)) lim n,
  b2_start_from V_dec I_dec vid WT PM LM DM labeled build_path fail_silently next_f next_b start_and_goal_vertex start_and_goal_vertices lim n
  = with_given (given_pair start_and_goal_vertex start_and_goal_vertices)
      (fun p => b2_run V_dec I_dec vid WT DM PM LM next_f next_b labeled build_path fail_silently (fst p) (snd p) lim n).
Proof. exact @b2_start_from_spec. Qed.
Print Assumptions C83_bsearch_shortest_path.

(** C83, continued.  BSearchBreadthFirst: the same, if no start vertex has the id of a goal vertex, or both are collections, see C84. *)
Theorem C83_bsearch_breadth_first :
  forall {V I L : Type} (V_dec : forall a b : V, {a = b} + {a <> b}) (I_dec : forall a b : I, {a = b} + {a <> b}) (vid : V -> I)
    (VS : VSet I) (PM : PMap I V) (LM : PMap I L) (labeled build_path fail_silently : bool) next_f next_b
    (start_and_goal_vertex : option (V * V)) (start_and_goal_vertices : option (iterable V * iterable V)) lim n,
  match start_and_goal_vertices with
  | Some (Iterator l, y) => forall v, In v l -> ~ In (vid v) (map vid (elements y))
  | Some (x, Iterator l) => forall v, In v l -> ~ In (vid v) (map vid (elements x))
  | _ => True
  end ->
  bb_start_from V_dec I_dec vid VS PM LM labeled build_path fail_silently next_f next_b start_and_goal_vertex start_and_goal_vertices lim n
  = with_given (given_pair start_and_goal_vertex start_and_goal_vertices)
      (fun p => bb_run V_dec I_dec vid VS PM LM next_f next_b labeled build_path fail_silently (fst p) (snd p) lim n).
Proof. exact @bb_start_from_spec. Qed.
Print Assumptions C83_bsearch_breadth_first.

Definition path_next (v : nat) : list (nat * unit) := if v =? 0 then [(1, tt)] else if v =? 1 then [(2, tt)] else [].
Definition path_back (v : nat) : list (nat * unit) := if v =? 2 then [(1, tt)] else if v =? 1 then [(0, tt)] else [].

Example C83_bsearch_example :
  match bb_start_from Nat.eq_dec Nat.eq_dec (fun v => v) hVS hPM hPM false true false path_next path_back None (Some (Iterator [0], Iterator [2])) None 50 with
  | inl ([r], Ended _) => br_length r = 2%Z
  | _ => False
  end.
Proof. vm_compute. reflexivity. Qed.

(** C84.  Infinite branching does not work with iterators in general: with store_distances and without build_paths, the given start vertices get lost, and the
    traversal ends without having reported the vertices it reports for the same start vertices given as a list. *)
Theorem C84_infinite_branching_iterator_refuted :
  exists (edge : nat -> nat -> option (nat * option Z)) (l : list nat),
  match inf_run Nat.eq_dec edge hDMZ hPM sDM sPM sLM false true l None 40, inf_start hDMZ hPM sDM sPM sLM false true None (Some (Iterator l)) None with
  | (os, Ended _), inl s =>
      match run (inf_step Nat.eq_dec edge hDMZ hPM sDM sPM sLM false true) 40 s with
      | (os', Ended _) => map nr_vertex os = [1; 2] /\ os' = []
      | _ => False
      end
  | _, _ => False
  end.
Proof. exists fedge, [0]. vm_compute. split; reflexivity. Qed.
Print Assumptions C84_infinite_branching_iterator_refuted.

(** C84, continued.  BSearchBreadthFirst overlooks that a start vertex is a goal vertex if the vertices are given as iterators: instead of a path of length 0, it reports
    that there is no path. *)
Theorem C84_bsearch_breadth_first_iterator_refuted :
  exists (next_f next_b : nat -> list (nat * unit)) (starts goals : list nat) n,
  match bb_start_from Nat.eq_dec Nat.eq_dec (fun v => v) hVS hPM hPM false true false next_f next_b None (Some (Collection starts, Collection goals)) None n,
        bb_start_from Nat.eq_dec Nat.eq_dec (fun v => v) hVS hPM hPM false true false next_f next_b None (Some (Iterator starts, Iterator goals)) None n with
  | inl ([r], Ended _), inl ([], Raised e _) => br_length r = 0%Z /\ e = KeyErrorNotFound
  | _, _ => False
  end.
Proof. exists path_next, path_back, [2], [2], 50. vm_compute. split; reflexivity. Qed.
Print Assumptions C84_bsearch_breadth_first_iterator_refuted.
