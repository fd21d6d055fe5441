(** Property "traversals are lazy": C94. Which vertices has the neighbor function been called for, when a given number of passes of a traversal has been executed, i.e., at any time?

    [os] are the reports so far, [r] is the outcome of the passes, and [b_calls (outcome_state r)] (resp. n_calls, d_calls, a_calls, m_calls) are the calls of the neighbor function, the most recent one first.
    All theorems hold for each number [n] of passes, so also for each traversal that the program leaves before its end. *)
From Coq Require Import List ZArith Bool Arith Lia Permutation.
From Verif Require Import Machine Common GearSpec Weight BFSModel NTDModel DFSModel DijkstraModel AStarModel MSTModel
  ReadSpec ReadProofs ReadDFS Examples NTDExamples DFSExamples AStarExamples MSTExamples.
Import ListNotations.

(** TraversalBreadthFirst reads the start vertices and then the reported vertices, in the order of the reports, each once, and nothing else; at its end, it has read all of them. *)
Theorem C94_breadth_first_reads :
  forall {V I L : Type} (vid : V -> I) (VS : VSet I) (PM : PMap I V) (LM : PMap I L) (next : V -> list (V * L)) (cfg : bfs_cfg)
    (starts : list V) (av : option (vs_t VS)) (lim : option Z) (n : nat) os r,
  bc_report_depth_increase cfg = false ->
  bfs_run vid VS PM LM next cfg starts av lim n = (os, r) ->
  asked_in_order (rev (b_calls (outcome_state r))) (starts ++ map br_vertex os) /\
  (forall s, r = Ended s -> rev (b_calls s) = starts ++ map br_vertex os).
Proof.
  exact (fun V I L vid VS PM LM next cfg starts av lim n os r Hrdi HR => bfs_asked vid VS PM LM next cfg Hrdi starts av lim n os r HR).
Qed.
Print Assumptions C94_breadth_first_reads.

(** ... and when it reports a vertex ([rep], in pass [S n]), it has only read start vertices and vertices with a smaller depth. *)
Theorem C94_breadth_first_reads_smaller_depths :
  forall {V I L : Type} (vid : V -> I) (VS : VSet I) (PM : PMap I V) (LM : PMap I L) (next : V -> list (V * L)) (cfg : bfs_cfg)
    (starts : list V) (av : option (vs_t VS)) (lim : option Z) (n : nat) os s rep r,
  bc_report_depth_increase cfg = false ->
  bfs_run vid VS PM LM next cfg starts av lim n = (os, Running s) ->
  bfs_run vid VS PM LM next cfg starts av lim (S n) = (os ++ [rep], r) ->
  forall v, In v (b_calls (outcome_state r)) ->
  In v starts \/ exists rep', In rep' os /\ br_vertex rep' = v /\ (br_depth rep' < br_depth rep)%Z.
Proof.
  exact (fun V I L vid VS PM LM next cfg starts av lim n os s rep r Hrdi H1 H2 => bfs_asked_before vid VS PM LM next cfg Hrdi starts av lim n os s rep r H1 H2).
Qed.
Print Assumptions C94_breadth_first_reads_smaller_depths.

(** TraversalNeighborsThenDepth reads start vertices and reported vertices, none of them more often than it occurs there, and nothing else; at its end, it has read all of them. *)
Theorem C94_neighbors_then_depth_reads :
  forall {V I L : Type} (vid : V -> I) (VS : VSet I) (PM : PMap I V) (LM : PMap I L) (next : V -> list (V * L)) (cfg : ntd_cfg)
    (starts : list V) (av : option (vs_t VS)) (lim : option Z) (n : nat) os r,
  ntd_run vid VS PM LM next cfg starts av lim n = (os, r) ->
  asked_at_most_once (rev (map fst (n_calls (outcome_state r)))) (starts ++ map nr_vertex os) /\
  (forall s, r = Ended s -> Permutation (rev (map fst (n_calls s))) (starts ++ map nr_vertex os)).
Proof.
  exact (fun V I L vid VS PM LM next cfg starts av lim n os r HR => ntd_asked vid VS PM LM next cfg starts av lim n os r HR).
Qed.
Print Assumptions C94_neighbors_then_depth_reads.

(** TraversalDepthFirst, in all modes, with and without trace, with both kinds of entering events reported: it reads exactly the vertices whose entering it has reported, in this order, each with the depth
    of the report, and except for those where skip_expanding_entered_vertex has been called. If calculation_limit stops the traversal, the last one has not been read. *)
Theorem C94_depth_first_reads :
  forall {V I L : Type} (V_dec : forall a b : V, {a = b} + {a <> b}) (vid : V -> I) (VS : VSet I) (PM : PMap I V) (LM : PMap I L) (XM : DMap I Z 0%Z)
    (next : V -> list (V * L)) (cfg : dfs_cfg) (skip : nat -> bool) (starts : list V) (av : option (vs_t VS)) (lim : option Z) (n : nat) os r,
  dc_report cfg ENTERING_START = true -> dc_report cfg ENTERING_SUCCESSOR = true ->
  dfs_traverse V_dec vid VS PM LM XM next cfg skip starts av lim n = (os, r) ->
  all_but_last_at_limit (rev (outcome_state r)) (entered skip 0 os) r.
Proof.
  exact (fun V I L V_dec vid VS PM LM XM next cfg skip starts av lim n os r Hes Hen HR => traverse_asked V_dec vid VS PM LM XM next cfg Hes Hen skip starts av lim n os r HR).
Qed.
Print Assumptions C94_depth_first_reads.

(** TraversalShortestPaths reads exactly the vertices it has reported, in this order, when it has the distance and the depth of the report (if calculation_limit stops it, the last one has not been read),
    and, at depth 0, start vertices, none of them more often than it has been given. *)
Theorem C94_shortest_paths_reads :
  forall {V I L : Type} (vid : V -> I) (WT : Weights) (DM : DMap I (w_t WT) (w_inf WT)) (PM : PMap I V) (LM : PMap I L)
    (next : V -> list (V * w_t WT * L)) (cfg : dij_cfg) (starts : list V) (known : option (dm_t DM)) (lim : option Z) (n : nat) os r,
  dij_run vid WT DM PM LM next cfg starts known lim n = (os, r) ->
  all_but_last_at_limit (filter (fun c => 0 <? snd c) (rev (d_calls (outcome_state r)))) (map (fun rep => (dr_vertex rep, dr_distance rep, dr_depth rep)) os) r /\
  asked_at_most_once (map (fun c => fst (fst c)) (filter (fun c => snd c =? 0) (d_calls (outcome_state r)))) starts.
Proof.
  exact (fun V I L vid WT DM PM LM next cfg starts known lim n os r HR => dij_asked vid WT DM PM LM next cfg starts known lim n os r HR).
Qed.
Print Assumptions C94_shortest_paths_reads.

(** The same for TraversalAStar *)
Theorem C94_a_star_reads :
  forall {V I L : Type} (vid : V -> I) (WT : Weights) (DM : DMap I (w_t WT) (w_inf WT)) (PM : PMap I V) (LM : PMap I L)
    (next : V -> list (V * w_t WT * L)) (cfg : ast_cfg) (heuristic : V -> w_t WT) (starts : list V) (known guesses : option (dm_t DM)) (lim : option Z) (n : nat) os r,
  ast_run vid WT DM PM LM next cfg heuristic starts known guesses lim n = (os, r) ->
  all_but_last_at_limit (filter (fun c => 0 <? snd c) (rev (a_calls (outcome_state r)))) (map (fun rep => (ar_vertex rep, ar_path_length rep, ar_depth rep)) os) r /\
  asked_at_most_once (map (fun c => fst (fst c)) (filter (fun c => snd c =? 0) (a_calls (outcome_state r)))) starts.
Proof.
  exact (fun V I L vid WT DM PM LM next cfg heuristic starts known guesses lim n os r HR => ast_asked vid WT DM PM LM next cfg heuristic starts known guesses lim n os r HR).
Qed.
Print Assumptions C94_a_star_reads.

(** TraversalMinimumSpanningTree reads the start vertices and then exactly the reported vertices, in the order of the reports. *)
Theorem C94_minimum_spanning_tree_reads :
  forall {V I L : Type} (vid : V -> I) (WT : Weights) (VS : VSet I) (PM : PMap I V) (LM : PMap I L)
    (next : V -> list (V * w_t WT * L)) (cfg : mst_cfg) (starts : list V) (lim : option Z) (n : nat) os r,
  mst_run vid WT VS PM LM next cfg starts lim n = (os, r) ->
  (forall s, r = Running s -> 0 < n -> rev (m_calls s) = starts ++ map mr_vertex os) /\
  (forall s, r = Ended s -> rev (m_calls s) = starts ++ map mr_vertex os) /\
  asked_in_order (rev (m_calls (outcome_state r))) (starts ++ map mr_vertex os).
Proof.
  exact (fun V I L vid WT VS PM LM next cfg starts lim n os r HR => mst_asked vid WT VS PM LM next cfg starts lim n os r HR).
Qed.
Print Assumptions C94_minimum_spanning_tree_reads.

(** Infinite graphs, left after some passes *)
Definition skip_second (m : nat) : bool := m =? 1.
Example C94_nonvacuous_bfs : let p := bfs_run id_nat hVS hPM hPM inf_next bfs_default [0] None None 12 in
  (map br_vertex (fst p), rev (b_calls (outcome_state (snd p)))) = ([1; 2; 3; 4], [0; 1; 2]).
Proof. vm_compute. reflexivity. Qed.
Example C94_nonvacuous_bfs_before :
  let run := bfs_run id_nat hVS hPM hPM inf_next bfs_default [0] None None in
  map br_vertex (fst (run 8)) = [1; 2] /\ map (fun rep => (br_vertex rep, br_depth rep)) (fst (run 9)) = [(1, 1%Z); (2, 1%Z); (3, 2%Z)].
Proof. vm_compute. split; reflexivity. Qed.
Example C94_nonvacuous_ntd : let p := ntd_run id_nat hVS hPM hPM inf_next ntd_default [0] None None 10 in
  (map nr_vertex (fst p), rev (map fst (n_calls (outcome_state (snd p))))) = ([1; 2; 5; 6; 13], [0; 2; 6]).
Proof. vm_compute. reflexivity. Qed.
Example C94_nonvacuous_dfs :
  let cfg := dfs_checked (dfs_ask DFS_TREE all_tree_events true true) in
  let p := dfs_traverse Nat.eq_dec id_nat hVS hPM hPM hXM inf_next cfg skip_second [0] None (Some 3%Z) 12 in
  dc_report cfg ENTERING_START = true /\ dc_report cfg ENTERING_SUCCESSOR = true /\
  (map (fun rep => (fr_vertex rep, fr_event rep, fr_depth rep)) (fst p), snd p) =
    ([(0, Some ENTERING_START, 0%Z); (2, Some ENTERING_SUCCESSOR, 1%Z); (2, Some LEAVING_SUCCESSOR, 1%Z); (1, Some ENTERING_SUCCESSOR, 1%Z); (4, Some ENTERING_SUCCESSOR, 2%Z);
      (10, Some ENTERING_SUCCESSOR, 3%Z)],
     Raised RuntimeErrorLimit [(4, 2%Z); (1, 1%Z); (0, 0%Z)]) /\
  entered skip_second 0 (fst p) = [(0, 0%Z); (1, 1%Z); (4, 2%Z); (10, 3%Z)].
Proof. vm_compute. repeat split; reflexivity. Qed.
Example C94_nonvacuous_shortest_paths : let p := dij_run id_nat ZI hDMZ hPM hPM winf_next dij_default [1; 5] None None 14 in
  (map (fun rep => (dr_vertex rep, dr_distance rep, dr_depth rep)) (fst p), rev (d_calls (outcome_state (snd p)))) =
  ([(2, Some 1%Z, 1); (6, Some 1%Z, 1)], [(5, Some 0%Z, 0); (1, Some 0%Z, 0); (2, Some 1%Z, 1); (6, Some 1%Z, 1)]).
Proof. vm_compute. reflexivity. Qed.
Example C94_nonvacuous_a_star : let p := ast_run id_nat ZI hDMZ hPM hPM winf_next ast_default (fun _ => Some 0%Z) [1; 5] None None None 14 in
  (map (fun rep => (ar_vertex rep, ar_path_length rep, ar_depth rep)) (fst p), rev (a_calls (outcome_state (snd p)))) =
  ([(2, Some 1%Z, 1); (6, Some 1%Z, 1)], [(5, Some 0%Z, 0); (1, Some 0%Z, 0); (2, Some 1%Z, 1); (6, Some 1%Z, 1)]).
Proof. vm_compute. reflexivity. Qed.
Example C94_nonvacuous_mst : let p := mst_run id_nat ZI hVS hPM hPM mst_next mst_default [0] None 8 in
  (map mr_vertex (fst p), rev (m_calls (outcome_state (snd p)))) = ([1; 2], [0; 1; 2]).
Proof. vm_compute. reflexivity. Qed.
