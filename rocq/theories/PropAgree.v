(** Properties of different strategies on the same graph: C104. *)
From Coq Require Import List ZArith Bool Arith Permutation.
From Verif Require Import Machine Spec TraversalSpec GearSpec Common PathsModel Weight WeightSpec AStarSpec BFSModel NTDModel DFSModel DijkstraModel AStarModel MSTModel BiSpec BiBFSModel
  AgreeSpec AgreeProofs Examples NTDExamples DFSExamples AStarExamples MSTExamples BiExamples.
Import ListNotations.

(** C104, the vertices.  When they have ended, breadth first search, neighbors-then-depth, Dijkstra and minimum spanning tree have reported the same vertices, each one once;
    A* (with any heuristic) has reported the same set; and depth first search has entered the same vertices and, additionally, the start vertices. *)
Theorem C104_same_vertices :
  forall {V I L : Type} (V_dec : forall a b : V, {a = b} + {a <> b}) (I_dec : forall a b : I, {a = b} + {a <> b}) (vid : V -> I) (WT : Weights)
    (VS : VSet I) (DM : DMap I (w_t WT) (w_inf WT)) (PM : PMap I V) (LM : PMap I L) (XM : DMap I Z 0%Z)
    (next : V -> list (V * w_t WT * L)) (E : I -> w_t WT -> I -> Prop) (starts : list V) bcfg blim bn bos bs,
  presents_weighted WT vid next E ->
  bc_is_tree bcfg = false -> bc_report_depth_increase bcfg = false ->
  bfs_run vid VS PM LM (no_weights next) bcfg starts None blim bn = (bos, Ended bs) ->
  (forall cfg lim n os s, nc_is_tree cfg = false -> ntd_run vid VS PM LM (no_weights next) cfg starts None lim n = (os, Ended s) ->
     Permutation (ntd_ids vid os) (bfs_ids vid bos)) /\
  (forall o cfg lim n os c, dfs_options o false = inl cfg -> dc_mode cfg = DFS_TREE -> DFSModel.dc_is_tree cfg = false ->
     (forall ev, dc_report cfg ev = true <-> ev = ENTERING_START \/ ev = ENTERING_SUCCESSOR) ->
     dfs_traverse V_dec vid VS PM LM XM (no_weights next) cfg (fun _ => false) starts None lim n = (os, Ended c) ->
     NoDup (map (fun rep => vid (fr_vertex rep)) os) /\
     forall i, In i (map (fun rep => vid (fr_vertex rep)) os) <-> is_start vid starts i \/ In i (bfs_ids vid bos)) /\
  (forall cfg lim n os s, DijkstraModel.dc_is_tree cfg = false -> nonnegative WT E -> dij_run vid WT DM PM LM next cfg starts None lim n = (os, Ended s) ->
     Permutation (dij_ids vid os) (bfs_ids vid bos)) /\
  (forall cfg lim n os s, mst_run vid WT VS PM LM next cfg starts lim n = (os, Ended s) -> Permutation (mst_ids vid os) (bfs_ids vid bos)) /\
  (forall cfg heuristic h lim n os s, ac_is_tree cfg = false -> nonnegative WT E -> exact WT -> (forall v, heuristic v = h (vid v)) ->
     ast_run vid WT DM PM LM next cfg heuristic starts None None lim n = (os, Ended s) ->
     forall i, In i (ast_ids vid os) <-> In i (bfs_ids vid bos)).
Proof.
  intros V I L V_dec I_dec vid WT VS DM PM LM XM next E starts bcfg blim bn bos bs HE Ht Hr HB.
  exact (all_agree V_dec I_dec vid WT VS DM PM LM XM next E starts HE bcfg blim bn bos bs Ht Hr HB).
Qed.
Print Assumptions C104_same_vertices.

(** C104, the lengths.  If all edges have weight one, Dijkstra reports, as distance of a vertex, the depth that breadth first search reports for it. *)
Theorem C104_depth_is_distance :
  forall {V I L : Type} (I_dec : forall a b : I, {a = b} + {a <> b}) (vid : V -> I) (VS : VSet I) (PM : PMap I V) (LM : PMap I L)
    (DM : DMap I (option Z) None) (next : V -> list (V * option Z * L)) (E : I -> option Z -> I -> Prop) bcfg dcfg starts blim bn bos br dlim dn dos dr,
  presents_weighted ZInfWeights vid next E -> unit_weights E ->
  bc_is_tree bcfg = false -> bc_report_depth_increase bcfg = false -> DijkstraModel.dc_is_tree dcfg = false ->
  bfs_run vid VS PM LM (no_weights next) bcfg starts None blim bn = (bos, br) ->
  dij_run vid ZInfWeights DM PM LM next dcfg starts None dlim dn = (dos, dr) ->
  forall b d, In b bos -> In d dos -> vid (br_vertex b) = vid (dr_vertex d) -> dr_distance d = Some (br_depth b).
Proof.
  intros V I L I_dec vid VS PM LM DM next E bcfg dcfg starts blim bn bos br dlim dn dos dr.
  exact (bfs_dijkstra_depth I_dec vid VS PM LM DM next E bcfg dcfg starts blim bn bos br dlim dn dos dr).
Qed.
Print Assumptions C104_depth_is_distance.

(** C104, A* with a consistent heuristic reports for a vertex the length that Dijkstra reports. *)
Theorem C104_astar_is_dijkstra :
  forall {V I L : Type} (V_dec : forall a b : V, {a = b} + {a <> b}) (I_dec : forall a b : I, {a = b} + {a <> b}) (vid : V -> I) (PM : PMap I V) (LM : PMap I L)
    (WT : Weights) (DM : DMap I (w_t WT) (w_inf WT)) (next : V -> list (V * w_t WT * L)) (E : I -> w_t WT -> I -> Prop) acfg dcfg heuristic h starts alim an aos ar dlim dn dos dr,
  presents_weighted WT vid next E -> nonnegative WT E -> exact WT -> ac_is_tree acfg = false -> DijkstraModel.dc_is_tree dcfg = false ->
  (forall v, heuristic v = h (vid v)) -> consistent WT E h -> finite_estimates WT h ->
  ast_run vid WT DM PM LM next acfg heuristic starts None None alim an = (aos, ar) ->
  dij_run vid WT DM PM LM next dcfg starts None dlim dn = (dos, dr) ->
  forall a d, In a aos -> In d dos -> vid (ar_vertex a) = vid (dr_vertex d) -> ar_path_length a = dr_distance d.
Proof.
  intros V I L V_dec I_dec vid PM LM WT DM next E acfg dcfg heuristic h starts alim an aos ar dlim dn dos dr.
  exact (astar_dijkstra V_dec I_dec vid PM LM WT DM next E acfg dcfg heuristic h starts alim an aos ar dlim dn dos dr).
Qed.
Print Assumptions C104_astar_is_dijkstra.

(** C104, one direction and two.  A length returned by the bidirectional breadth first search is zero if some start vertex is a goal; otherwise it is the smallest depth that a
    (complete) breadth first search from the start vertices reports for a goal.  If the bidirectional search returns a negative length or raises KeyError, the
    breadth first search reports no goal, and no start vertex is a goal. *)
Theorem C104_bidirectional_is_bfs :
  forall {V I L : Type} (V_dec : forall a b : V, {a = b} + {a <> b}) (I_dec : forall a b : I, {a = b} + {a <> b}) (vid : V -> I) (VS : VSet I) (PM : PMap I V) (LM : PMap I L)
    (next_f next_b : V -> list (V * L)) (E : I -> I -> Prop) bcfg labeled build_path fail_silently starts goals blim bn bos bs lim n os r,
  presents vid next_f E -> presents vid next_b (fun i j => E j i) -> bc_is_tree bcfg = false -> bc_report_depth_increase bcfg = false ->
  bfs_run vid VS PM LM next_f bcfg starts None blim bn = (bos, Ended bs) ->
  bb_run V_dec I_dec vid VS PM LM next_f next_b labeled build_path fail_silently starts goals lim n = (os, r) ->
  (forall x, In x os -> (0 <= br_length x)%Z ->
     ((exists s g, In s starts /\ In g goals /\ vid s = vid g) /\ br_length x = 0%Z) \/
     ((forall s g, In s starts -> In g goals -> vid s <> vid g) /\
      (exists b g, In b bos /\ In g goals /\ vid (br_vertex b) = vid g /\ br_depth b = br_length x) /\
      (forall b g, In b bos -> In g goals -> vid (br_vertex b) = vid g -> (br_length x <= br_depth b)%Z))) /\
  ((exists x, In x os /\ (br_length x < 0)%Z) \/ (exists s, r = Raised KeyErrorNotFound s) ->
     forall g, In g goals -> ~ In (vid g) (bfs_ids vid bos) /\ ~ In (vid g) (map vid starts)).
Proof.
  intros V I L V_dec I_dec vid VS PM LM next_f next_b E bcfg labeled build_path fail_silently starts goals blim bn bos bs lim n os r.
  exact (bidirectional_bfs_agrees V_dec I_dec vid VS PM LM next_f next_b E bcfg labeled build_path fail_silently starts goals blim bn bos bs lim n os r).
Qed.
Print Assumptions C104_bidirectional_is_bfs.

(** A graph with a cycle and an edge from 5; all weights are one. *)
Definition unit_next (v : nat) : list (nat * option Z * nat) := map (fun e => (fst e, Some 1%Z, snd e)) (g_next v).
Lemma unit_next_unit : unit_weights (@wgraph_of nat ZI unit_next).
Proof.
  intros i w j H. unfold wgraph_of, unit_next in H. rewrite map_map in H. apply in_map_iff in H. destruct H as (e & He & _). cbn in He. now injection He as <- _.
Qed.

Example C104_nonvacuous :
  presents_weighted ZI id_nat w_next (wgraph_of (WT := ZI) w_next) /\ nonnegative ZI (@wgraph_of nat ZI w_next) /\
  (exists s, snd (bfs_run id_nat hVS bPM bPM (no_weights w_next) bfs_default [0] None None 60) = Ended s) /\
  bfs_ids id_nat (fst (bfs_run id_nat hVS bPM bPM (no_weights w_next) bfs_default [0] None None 60)) = [1; 2; 3; 4] /\
  (exists s, snd (ntd_run id_nat hVS bPM bPM (no_weights w_next) ntd_default [0] None None 60) = Ended s) /\
  ntd_ids id_nat (fst (ntd_run id_nat hVS bPM bPM (no_weights w_next) ntd_default [0] None None 60)) = [1; 2; 3; 4] /\
  (exists s, snd (dij_run id_nat ZI hDMZ bPM bPM w_next dij_plain [0] None None 60) = Ended s) /\
  dij_ids id_nat (fst (dij_run id_nat ZI hDMZ bPM bPM w_next dij_plain [0] None None 60)) = [2; 1; 3; 4] /\
  (exists s, snd (mst_run id_nat ZI hVS bPM bPM w_next mst_default [0] None 60) = Ended s) /\
  mst_ids id_nat (fst (mst_run id_nat ZI hVS bPM bPM w_next mst_default [0] None 60)) = [2; 1; 3; 4].
Proof.
  split; [apply presents_wgraph_of|]. split; [exact w_next_nonneg|].
  split; [eexists; vm_compute; reflexivity|]. split; [vm_compute; reflexivity|]. split; [eexists; vm_compute; reflexivity|]. split; [vm_compute; reflexivity|].
  split; [eexists; vm_compute; reflexivity|]. split; [vm_compute; reflexivity|]. split; [eexists; vm_compute; reflexivity|]. vm_compute; reflexivity.
Qed.

Example C104_nonvacuous_dfs :
  let o := dfs_ask DFS_TREE [ENTERING_START; ENTERING_SUCCESSOR] false true in
  dfs_options o false = inl (dfs_checked o) /\
  (forall ev, dc_report (dfs_checked o) ev = true <-> ev = ENTERING_START \/ ev = ENTERING_SUCCESSOR) /\
  (exists c, snd (dfs_try o (no_weights w_next) [0] 60) = Ended c) /\ map fr_vertex (fst (dfs_try o (no_weights w_next) [0] 60)) = [0; 2; 3; 4; 1].
Proof.
  split; [reflexivity|]. split; [intros ev; destruct ev; cbn; intuition discriminate|]. split; [eexists; vm_compute; reflexivity|]. vm_compute; reflexivity.
Qed.

Example C104_nonvacuous_unit :
  presents_weighted ZI id_nat unit_next (wgraph_of (WT := ZI) unit_next) /\ unit_weights (@wgraph_of nat ZI unit_next) /\
  map (fun rep => (br_vertex rep, br_depth rep)) (fst (bfs_run id_nat hVS bPM bPM (no_weights unit_next) bfs_default [5] None None 60)) = [(0, 1%Z); (1, 2%Z); (2, 2%Z); (3, 3%Z); (4, 4%Z)] /\
  map (fun rep => (dr_vertex rep, dr_distance rep)) (fst (dij_run id_nat ZI hDMZ bPM bPM unit_next dij_plain [5] None None 60)) =
    [(0, Some 1%Z); (2, Some 2%Z); (1, Some 2%Z); (3, Some 3%Z); (4, Some 4%Z)].
Proof. split; [apply presents_wgraph_of|]. split; [exact unit_next_unit|]. split; vm_compute; reflexivity. Qed.

Example C104_nonvacuous_astar :
  consistent ZI (@wgraph_of nat ZI as_next) as_hc /\ finite_estimates ZI as_hc /\
  map (fun rep => (ar_vertex rep, ar_path_length rep)) (fst (ast_run id_nat ZI hDMZ bPM bPM as_next ast_default as_hc [0] None None None 60)) =
    [(1, Some 1%Z); (2, Some 2%Z); (3, Some 4%Z); (4, Some 6%Z)] /\
  map (fun rep => (dr_vertex rep, dr_distance rep)) (fst (dij_run id_nat ZI hDMZ bPM bPM as_next dij_plain [0] None None 60)) =
    [(1, Some 1%Z); (2, Some 2%Z); (3, Some 4%Z); (4, Some 6%Z)].
Proof. split; [exact as_hc_consistent|]. split; [exact as_hc_finite|]. split; vm_compute; reflexivity. Qed.

Example C104_nonvacuous_bidirectional :
  presents (fun v => v) g_next (graph_of g_next) /\ presents (fun v => v) g_back (fun i j => graph_of g_next j i) /\
  map br_length (fst (bb_run Nat.eq_dec Nat.eq_dec (fun v => v) hVS hPM hPM g_next g_back true true false [5] [4; 3] None 60)) = [3%Z] /\
  map (fun rep => (br_vertex rep, br_depth rep)) (fst (bfs_run (fun v => v) hVS hPM hPM g_next bfs_default [5] None None 60)) = [(0, 1%Z); (1, 2%Z); (2, 2%Z); (3, 3%Z); (4, 4%Z)] /\
  (exists s, snd (bb_run Nat.eq_dec Nat.eq_dec (fun v => v) hVS hPM hPM g_next g_back true true false [4] [0] None 60) = Raised KeyErrorNotFound s).
Proof.
  split; [apply presents_graph_of|]. split; [apply g_back_presents|]. split; [vm_compute; reflexivity|]. split; [vm_compute; reflexivity|]. eexists; vm_compute; reflexivity.
Qed.
