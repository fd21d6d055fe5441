(** Properties of A* and of the bidirectional searches with neighbor functions that look at the search, that keep a state of their own, or that raise exceptions: C110.

    [answer i s v] is what the function does when it is called for [v] in pass [i], while the search is in state [s]: any exception, or any list of edges.  In bidirectional
    searches, [v] is a pair of the direction ([true]: the function for forward edges is called) and the vertex. *)
From Coq Require Import List ZArith Bool Arith Lia.
From Verif Require Import Machine Common GearSpec Spec TraversalSpec Weight WeightSpec BFSModel DijkstraModel AStarModel AStarSpec BiSpec BiBFSModel BiSPModel BiSPSpec
  AwareModel AwareSpec AwareBiModel AwareBi AwareBiSame Examples BiExamples BiSPExamples AStarExamples.
Import ListNotations.

(** TraversalAStar, when the estimations are consistent with the edges that the function gives (whenever it gives them): each vertex is asked for at most once; the run is the
    one for the graph that the answers form; each vertex is reported at most once, with its distance in this graph. *)
Theorem C110_astar_search_aware :
  forall {V I L : Type} (V_dec : forall a b : V, {a = b} + {a <> b}) (I_dec : forall a b : I, {a = b} + {a <> b}) (vid : V -> I) (WT : Weights)
    (DM : DMap I (w_t WT) (w_inf WT)) (PM : PMap I V) (LM : PMap I L) (cfg : ast_cfg) (heuristic : V -> w_t WT) (h : I -> w_t WT) (starts : list V) (lim : option Z)
    (answer : nat -> @ast_state V I L WT DM PM LM -> V -> exn + list (V * w_t WT * L)) (n : nat),
  ac_is_tree cfg = false -> exact WT -> (forall v, heuristic v = h (vid v)) -> finite_estimates WT h -> NoDup (map vid starts) ->
  (forall i s v es e, answer i s v = inr es -> In e es ->
     w_leb WT (w_zero WT) (snd (fst e)) = true /\ w_leb WT (h (vid v)) (w_add WT (snd (fst e)) (h (vid (fst (fst e))))) = true) ->
  let step f := ast_step vid WT DM PM LM f cfg heuristic in
  let init := ast_init vid WT DM PM LM cfg heuristic starts None None lim in
  let E := weighted_edge_of_answers step (ast_asks vid WT cfg) answer vid n init in
  (exists T, runs_like step (ast_asks vid WT cfg) [] answer (fun v => T (vid v)) n init /\ table_of_answers step (ast_asks vid WT cfg) [] answer vid n init T) /\
  (forall os r, aware_run step (ast_asks vid WT cfg) [] answer 0 n init = (os, r) ->
     NoDup (ast_ids vid os) /\
     forall rep, In rep os -> is_distance WT E (is_start vid starts) (vid (ar_vertex rep)) (ar_path_length rep)).
Proof.
  exact (fun V I L V_dec I_dec vid WT DM PM LM cfg heuristic h starts lim answer n Ht Hex Hh Hfin HN Hans =>
    conj (let (T, H) := ast_aware V_dec I_dec vid WT DM PM LM cfg heuristic Ht Hex h Hh Hfin starts lim answer n HN Hans in ex_intro _ T (proj2 H))
         (fun os r HR => ast_aware_reports V_dec I_dec vid WT DM PM LM cfg heuristic Ht Hex h Hh Hfin starts lim answer n os r HN Hans HR)).
Qed.
Print Assumptions C110_astar_search_aware.

(** BSearchBreadthFirst: each vertex is asked for at most once in each direction, and the search runs like that for the ordinary functions that give the same answers. *)
Theorem C110_bidirectional_bfs_search_aware :
  forall {V I L : Type} (V_dec : forall a b : V, {a = b} + {a <> b}) (I_dec : forall a b : I, {a = b} + {a <> b}) (vid : V -> I)
    (VS : VSet I) (PM : PMap I V) (LM : PMap I L) (labeled build silent : bool) (starts goals : list V) (lim : option Z)
    (answer : nat -> @bb_state V I L VS PM LM -> bool * V -> exn + list (V * L)) (n : nat),
  NoDup (map vid starts) -> NoDup (map vid goals) ->
  let pass := bb_pass V_dec vid VS PM LM labeled build silent in
  let init := bb_init vid VS PM LM labeled build starts goals lim in
  exists T, runs_like pass bb_asks [] answer (fun v => T (did vid v)) n init /\ table_of_answers pass bb_asks [] answer (did vid) n init T.
Proof.
  exact (fun V I L V_dec I_dec vid VS PM LM labeled build silent starts goals lim answer n Hs Hg =>
    bb_aware V_dec vid VS PM LM labeled build silent I_dec starts goals lim answer n Hs Hg).
Qed.
Print Assumptions C110_bidirectional_bfs_search_aware.

(** If all answers consist of the edges of one graph [E] (in any order, that may depend on the search, and with any labels), the search gives the results of C31, and raises
    an exception of a function if and when a function raises it. *)
Theorem C110_bidirectional_bfs_same_graph :
  forall {V I L : Type} (V_dec : forall a b : V, {a = b} + {a <> b}) (I_dec : forall a b : I, {a = b} + {a <> b}) (vid : V -> I)
    (VS : VSet I) (PM : PMap I V) (LM : PMap I L) (labeled build silent : bool) (starts goals : list V) (lim : option Z)
    (E : I -> I -> Prop) (f b : V -> list (V * L))
    (answer : nat -> @bb_state V I L VS PM LM -> bool * V -> exn + list (V * L)) (n : nat) os r,
  NoDup (map vid starts) -> NoDup (map vid goals) -> bb_common I_dec vid starts goals = None ->
  presents vid f E -> presents vid b (fun i j => E j i) ->
  (forall i s d v es, answer i s (d, v) = inr es -> forall j, In j (map (fun e => vid (fst e)) es) <-> if d : bool then E (vid v) j else E j (vid v)) ->
  let pass := bb_pass V_dec vid VS PM LM labeled build silent in
  let init := bb_init vid VS PM LM labeled build starts goals lim in
  aware_run pass bb_asks [] answer 0 n init = (os, r) ->
  match r with
  | Running _ => os = []
  | Ended _ => exists x, os = [x] /\
      ((exists k, br_length x = Z.of_nat k /\ shortest_connection vid E starts goals k) \/
       (silent = true /\ br_length x = (-1)%Z /\ forall k, ~ connection vid E starts goals k))
  | Raised e _ =>
      (os = [] /\ ((e = RuntimeErrorLimit /\ lim <> None) \/ (e = KeyErrorNotFound /\ silent = false /\ forall k, ~ connection vid E starts goals k))) \/
      exists i vs, failed pass bb_asks [] answer init n i vs e
  end.
Proof.
  exact (fun V I L V_dec I_dec vid VS PM LM labeled build silent starts goals lim E f b answer n os r Hs Hg Hc Hf Hb Hans HR =>
    bb_aware_exact V_dec I_dec vid PM LM labeled build silent starts goals Hs Hg lim VS E f b answer n os r Hf Hb Hc Hans HR).
Qed.
Print Assumptions C110_bidirectional_bfs_same_graph.

(** BSearchShortestPath, when the weights of all edges that are given are not negative *)
Theorem C110_bidirectional_shortest_path_search_aware :
  forall {V I L : Type} (V_dec : forall a b : V, {a = b} + {a <> b}) (I_dec : forall a b : I, {a = b} + {a <> b}) (vid : V -> I) (WT : Weights)
    (DM : DMap I (w_t WT) (w_inf WT)) (PM : PMap I V) (LM : PMap I L) (labeled build silent : bool) (first : V) (starts goals : list V) (lim : option Z)
    (answer : nat -> @b2_state V I L WT DM PM LM -> bool * V -> exn + list (V * w_t WT * L)) (n : nat),
  exact_addition WT -> NoDup (map vid starts) -> NoDup (map vid goals) -> (forall i, is_start vid starts i -> is_start vid goals i -> False) ->
  (forall i s v es e, answer i s v = inr es -> In e es -> w_leb WT (w_zero WT) (snd (fst e)) = true) ->
  let pass := b2_pass V_dec vid WT DM PM LM labeled build silent in
  let init := b2_init vid WT DM PM LM build first starts goals lim in
  exists T, runs_like pass (b2_asks vid WT) [] answer (fun v => T (did vid v)) n init /\ table_of_answers pass (b2_asks vid WT) [] answer (did vid) n init T.
Proof.
  exact (fun V I L V_dec I_dec vid WT DM PM LM labeled build silent first starts goals lim answer n Hex Hs Hg Hd Hans =>
    let (T, H) := b2_aware V_dec I_dec vid WT Hex DM PM LM labeled build silent starts goals first lim answer n Hs Hg Hd Hans in ex_intro _ T (proj2 H)).
Qed.
Print Assumptions C110_bidirectional_shortest_path_search_aware.

(** If all answers consist of the edges of one graph [E], the search does what it does for some ordinary functions that present this graph (see C32, C33, C70), or a function
    raises an exception, and the search raises it. *)
Theorem C110_bidirectional_shortest_path_same_graph :
  forall {V I L : Type} (V_dec : forall a b : V, {a = b} + {a <> b}) (I_dec : forall a b : I, {a = b} + {a <> b}) (vid : V -> I) (WT : Weights)
    (DM : DMap I (w_t WT) (w_inf WT)) (PM : PMap I V) (LM : PMap I L) (labeled build silent : bool) (first : V) (starts goals : list V) (lim : option Z)
    (E : I -> w_t WT -> I -> Prop) (f b : V -> list (V * w_t WT * L))
    (answer : nat -> @b2_state V I L WT DM PM LM -> bool * V -> exn + list (V * w_t WT * L)) (n : nat),
  exact_addition WT -> NoDup (map vid starts) -> NoDup (map vid goals) -> (forall i, is_start vid starts i -> is_start vid goals i -> False) ->
  presents_weighted WT vid f E -> presents_weighted WT vid b (fun i w j => E j w i) -> nonnegative WT E ->
  (forall i s d v es, answer i s (d, v) = inr es ->
     forall w j, In (w, j) (map (fun e => (snd (fst e), vid (fst (fst e)))) es) <-> if d : bool then E (vid v) w j else E j w (vid v)) ->
  let pass := b2_pass V_dec vid WT DM PM LM labeled build silent in
  let init := b2_init vid WT DM PM LM build first starts goals lim in
  exists next_f next_b, presents_weighted WT vid next_f E /\ presents_weighted WT vid next_b (fun i w j => E j w i) /\
    (aware_run pass (b2_asks vid WT) [] answer 0 n init = run (b2_step V_dec vid WT DM PM LM next_f next_b labeled build silent) n init \/
     exists i vs x os s, failed pass (b2_asks vid WT) [] answer init n i vs x /\ aware_run pass (b2_asks vid WT) [] answer 0 n init = (os, Raised x s)).
Proof.
  exact (fun V I L V_dec I_dec vid WT DM PM LM labeled build silent first starts goals lim E f b answer n Hex Hs Hg Hd Hf Hb Hnn Hans =>
    b2_aware_same V_dec I_dec vid PM LM labeled build silent starts goals Hs Hg lim WT Hex DM E f b answer first n Hf Hb Hnn Hd Hans).
Qed.
Print Assumptions C110_bidirectional_shortest_path_same_graph.

(** Functions that answer in an order that depends on the pass, and one that raises an exception for vertex 3. *)
Definition astar_answers (i : nat) (s : @ast_state nat nat nat ZI hDMZ bPM bPM) (v : nat) : exn + list (nat * w_t ZI * nat) :=
  inr (if Nat.even i then as_next v else rev (as_next v)).
Definition astar_answers_or_fails (i : nat) (s : @ast_state nat nat nat ZI hDMZ bPM bPM) (v : nat) : exn + list (nat * w_t ZI * nat) :=
  if v =? 3 then inl RuntimeErrorProblem else inr (as_next v).
Example C110_astar_example :
  let step f := ast_step id_nat ZI hDMZ bPM bPM f ast_default as_hc in
  let init := ast_init id_nat ZI hDMZ bPM bPM ast_default as_hc [0] None None None in
  (forall i s v es e, astar_answers i s v = inr es -> In e es ->
     w_leb ZI (w_zero ZI) (snd (fst e)) = true /\ w_leb ZI (as_hc v) (w_add ZI (snd (fst e)) (as_hc (fst (fst e)))) = true) /\
  (let p := aware_run step (ast_asks id_nat ZI ast_default) [] astar_answers 0 60 init in
   map (fun rep => (ar_vertex rep, ar_path_length rep)) (fst p) = [(1, Some 1%Z); (2, Some 2%Z); (3, Some 4%Z); (4, Some 6%Z)] /\ exists s, snd p = Ended s) /\
  (let p := aware_run step (ast_asks id_nat ZI ast_default) [] astar_answers_or_fails 0 60 init in
   map (fun rep => ar_vertex rep) (fst p) = [1; 2; 3] /\ exists s, snd p = Raised RuntimeErrorProblem s).
Proof.
  split; [|vm_compute; repeat split; eexists; reflexivity].
  intros i s v es [[u w] l] He Hin. unfold astar_answers in He. injection He as <-.
  assert (Hin' : In (u, w, l) (as_next v)) by (destruct (Nat.even i); [exact Hin|now apply in_rev]). cbn [fst snd]. split.
  - apply (as_next_nonneg v w u). apply in_map_iff. exists (u, w, l). auto.
  - apply (as_hc_consistent v w u). apply in_map_iff. exists (u, w, l). auto.
Qed.

Definition two_way_answers (i : nat) (s : @bb_state nat nat nat hVS hPM hPM) (v : bool * nat) : exn + list (nat * nat) :=
  let es := if fst v then g_next (snd v) else g_back (snd v) in
  inr (if Nat.even i then es else rev es).
Definition two_way_answers_or_fails (i : nat) (s : @bb_state nat nat nat hVS hPM hPM) (v : bool * nat) : exn + list (nat * nat) :=
  match v with (false, 3) => inl RuntimeErrorProblem | _ => two_way_answers i s v end.
Example C110_bidirectional_bfs_example :
  presents (fun v => v) g_next (graph_of g_next) /\ presents (fun v => v) g_back (fun i j => graph_of g_next j i) /\ bb_common Nat.eq_dec (fun v => v) [5] [4] = None /\
  (forall i s d v es, two_way_answers i s (d, v) = inr es ->
     forall j, In j (map (fun e => fst e) es) <-> if d : bool then graph_of g_next v j else graph_of g_next j v) /\
  let pass := bb_pass Nat.eq_dec (fun v => v) hVS hPM hPM true true false in
  let init := bb_init (fun v => v) hVS hPM hPM true true [5] [4] None in
  (let p := aware_run pass bb_asks [] two_way_answers 0 60 init in map br_length (fst p) = [4%Z] /\ exists s, snd p = Ended s) /\
  (let p := aware_run pass bb_asks [] two_way_answers_or_fails 0 60 init in fst p = [] /\ exists s, snd p = Raised RuntimeErrorProblem s).
Proof.
  split; [apply presents_graph_of|]. split; [exact g_back_presents|]. split; [reflexivity|]. split; [|vm_compute; repeat split; eexists; reflexivity].
  intros i s d v es He j. unfold two_way_answers in He. cbn [fst snd] in He. injection He as <-.
  destruct d, (Nat.even i); rewrite ?map_rev, <- ?in_rev; first [reflexivity|exact (g_back_presents v j)].
Qed.

Definition weighted_answers (i : nat) (s : @b2_state nat nat nat ZI hDMZ hPM hPM) (v : bool * nat) : exn + list (nat * w_t ZI * nat) :=
  let es := if fst v then el_forth steps_edges (snd v) else el_back steps_edges (snd v) in
  inr (if Nat.even i then es else rev es).
Example C110_bidirectional_shortest_path_example :
  presents_weighted ZI (fun v => v) (el_forth steps_edges) (el_graph steps_edges) /\
  presents_weighted ZI (fun v => v) (el_back steps_edges) (fun i w j => el_graph steps_edges j w i) /\ nonnegative ZI (el_graph steps_edges) /\
  (forall i s d v es, weighted_answers i s (d, v) = inr es ->
     forall w j, In (w, j) (map (fun e => (snd (fst e), fst (fst e))) es) <-> if d : bool then el_graph steps_edges v w j else el_graph steps_edges j w v) /\
  let pass := b2_pass Nat.eq_dec (fun v => v) ZI hDMZ hPM hPM true true false in
  let init := b2_init (fun v => v) ZI hDMZ hPM hPM true 0 [0] [1] None in
  let p := aware_run pass (b2_asks (fun v => v) ZI) [] weighted_answers 0 60 init in map b2_length (fst p) = [Some 12%Z] /\ exists s, snd p = Ended s.
Proof.
  split; [apply el_forth_presents|]. split; [apply el_back_presents|]. split; [apply el_nonnegative; reflexivity|]. split; [|vm_compute; split; [reflexivity|eexists; reflexivity]].
  intros i s d v es He w j. unfold weighted_answers in He. cbn [fst snd] in He. injection He as <-.
  destruct d, (Nat.even i); rewrite ?map_rev, <- ?in_rev; first [apply (el_forth_presents steps_edges v w j)|apply (el_back_presents steps_edges v w j)].
Qed.
