(** C43 (the gear does not matter) and C44 (vertex_to_id). *)
From Coq Require Import List ZArith Bool Arith Lia.
From Verif Require Import GearProofs Spec TraversalSpec
  Machine MachineSim GearSpec Common BFSModel BFSSim
  Weight DijkstraModel DijkstraSim AStarModel AStarSim MSTModel MSTSim NTDModel NTDSim Examples AStarExamples MSTExamples
  NTDExamples DFSModel DFSSim DFSIds DFSExamples TopoModel TopoSim TopoExamples
  PathModel PathSim BiBFSModel BiBFSSim BiExamples BiSPModel BiSPSim BiSPExamples.
Import ListNotations.

(** C43 for breadth first search: two gears, given by two implementations of each kind of
    collection. All runs of the same number of passes give the same reports
    ([bfs_same_report]: same vertex, depth, visited vertices, predecessors, labels), and
    end in the same way and with the same content of all attributes. *)
Theorem C43_bfs_gear_independent :
  forall {V I L : Type} (I_dec : forall a b : I, {a = b} + {a <> b}) (vid : V -> I)
    (VS1 VS2 : VSet I) (PM1 PM2 : PMap I V) (LM1 LM2 : PMap I L)
    (next : V -> list (V * L)) (cfg : bfs_cfg) (starts : list V) av1 av2 lim n,
  match av1, av2 with
  | None, None => True
  | Some a, Some b => same_set VS1 VS2 a b
  | _, _ => False
  end ->
  let p1 := bfs_run vid VS1 PM1 LM1 next cfg starts av1 lim n in
  let p2 := bfs_run vid VS2 PM2 LM2 next cfg starts av2 lim n in
  Forall2 (bfs_same_report (fun v => v) VS1 VS2 PM1 PM2 LM1 LM2) (fst p1) (fst p2) /\
  outcome_rel (bfs_same_state (fun v => v) VS1 VS2 PM1 PM2 LM1 LM2) (snd p1) (snd p2).
Proof.
  intros V I L I_dec vid VS1 VS2 PM1 PM2 LM1 LM2 next cfg starts av1 av2 lim n Hav.
  exact (bfs_gear I_dec vid VS1 VS2 PM1 PM2 LM1 LM2 next cfg starts av1 av2 lim n Hav).
Qed.
Print Assumptions C43_bfs_gear_independent.

Example C43_bfs_example :
  let p1 := bfs_run (fun v => v) hVS hPM hPM g_next bfs_default [0] None None 40 in
  let p2 := bfs_run (fun v => v) bVS bPM bPM g_next bfs_default [0] None None 40 in
  bfs_ids (fun v => v) (fst p1) = [1; 2; 3; 4] /\ bfs_ids (fun v => v) (fst p2) = [1; 2; 3; 4].
Proof. vm_compute. auto. Qed.

(** C44 for breadth first search: the traversal of a graph of vertices [V] with the id function
    [vid] does the same as the traversal of the graph of the ids, whose neighbor function
    [next_id] gives the ids of the neighbors: reports have the same ids, depths and so on. *)
Theorem C44_bfs_vertex_to_id :
  forall {V I L : Type} (I_dec : forall a b : I, {a = b} + {a <> b}) (vid : V -> I)
    (VS : VSet I) (PM : PMap I V) (PMI : PMap I I) (LM : PMap I L)
    (next : V -> list (V * L)) (next_id : I -> list (I * L)) (cfg : bfs_cfg) (starts : list V) av lim n,
  (forall v, next_id (vid v) = map (fun e => (vid (fst e), snd e)) (next v)) ->
  let p1 := bfs_run vid VS PM LM next cfg starts av lim n in
  let p2 := bfs_run (fun i => i) VS PMI LM next_id cfg (map vid starts) av lim n in
  Forall2 (bfs_same_report vid VS VS PM PMI LM LM) (fst p1) (fst p2) /\
  outcome_rel (bfs_same_state vid VS VS PM PMI LM LM) (snd p1) (snd p2).
Proof.
  intros V I L I_dec vid VS PM PMI LM next next_id cfg starts av lim n H.
  exact (bfs_ids_only I_dec vid VS PM PMI LM next next_id cfg starts av lim n H).
Qed.
Print Assumptions C44_bfs_vertex_to_id.

(** Vertices are pairs, the second component does not matter for the identity. *)
Example C44_bfs_example :
  let vid := fun v : nat * nat => fst v in
  let next := fun v : nat * nat => map (fun e => ((fst e, snd v + 1), snd e)) (g_next (fst v)) in
  (forall v, g_next (vid v) = map (fun e => (vid (fst e), snd e)) (next v)) /\
  bfs_ids vid (fst (bfs_run vid hVS hPM hPM next bfs_default [(0, 0)] None None 40)) = [1; 2; 3; 4].
Proof.
  split; [|vm_compute; reflexivity]. intros [i k]. simpl. rewrite map_map. simpl.
  symmetry. rewrite <- (map_id (g_next i)) at 2. apply map_ext. now intros [a b].
Qed.

(** C43 for Dijkstra's algorithm; [same_option]: both without known distances, or the same ones. *)
Theorem C43_dijkstra_gear_independent :
  forall {V I L : Type} (I_dec : forall a b : I, {a = b} + {a <> b}) (vid : V -> I) (WT : Weights)
    (DM1 DM2 : DMap I (w_t WT) (w_inf WT)) (PM1 PM2 : PMap I V) (LM1 LM2 : PMap I L)
    (next : V -> list (V * w_t WT * L)) (cfg : dij_cfg) (starts : list V) k1 k2 lim n,
  same_option (same_dmap DM1 DM2) k1 k2 ->
  let p1 := dij_run vid WT DM1 PM1 LM1 next cfg starts k1 lim n in
  let p2 := dij_run vid WT DM2 PM2 LM2 next cfg starts k2 lim n in
  Forall2 (dij_same_report (fun v => v) WT DM1 DM2 PM1 PM2 LM1 LM2) (fst p1) (fst p2) /\
  outcome_rel (dij_same_state (fun v => v) WT DM1 DM2 PM1 PM2 LM1 LM2) (snd p1) (snd p2).
Proof.
  intros V I L I_dec vid WT DM1 DM2 PM1 PM2 LM1 LM2 next cfg starts k1 k2 lim n H.
  exact (dij_gear I_dec vid WT DM1 DM2 PM1 PM2 LM1 LM2 next cfg starts k1 k2 lim n H).
Qed.
Print Assumptions C43_dijkstra_gear_independent.

Example C43_dijkstra_example :
  dij_ids (fun v => v) (fst (dij_run (fun v => v) ZI hDMZ hPM hPM w_next dij_plain [0] None None 40)) = [2; 1; 3; 4] /\
  dij_ids (fun v => v) (fst (dij_run (fun v => v) ZI hDMZ bPM bPM w_next dij_plain [0] None None 40)) = [2; 1; 3; 4].
Proof. vm_compute. auto. Qed.

(** C44 for Dijkstra's algorithm. *)
Theorem C44_dijkstra_vertex_to_id :
  forall {V I L : Type} (I_dec : forall a b : I, {a = b} + {a <> b}) (vid : V -> I) (WT : Weights)
    (DM : DMap I (w_t WT) (w_inf WT)) (PM : PMap I V) (PMI : PMap I I) (LM : PMap I L)
    (next : V -> list (V * w_t WT * L)) (next_id : I -> list (I * w_t WT * L)) (cfg : dij_cfg)
    (starts : list V) known lim n,
  (forall v, next_id (vid v) = map (fun e => (vid (fst (fst e)), snd (fst e), snd e)) (next v)) ->
  let p1 := dij_run vid WT DM PM LM next cfg starts known lim n in
  let p2 := dij_run (fun i => i) WT DM PMI LM next_id cfg (map vid starts) known lim n in
  Forall2 (dij_same_report vid WT DM DM PM PMI LM LM) (fst p1) (fst p2) /\
  outcome_rel (dij_same_state vid WT DM DM PM PMI LM LM) (snd p1) (snd p2).
Proof.
  intros V I L I_dec vid WT DM PM PMI LM next next_id cfg starts known lim n H.
  exact (dij_ids_only I_dec vid WT DM PM PMI LM next next_id cfg starts known lim n H).
Qed.
Print Assumptions C44_dijkstra_vertex_to_id.

Example C44_dijkstra_example :
  let vid := fun v : nat * nat => fst v in
  let next := fun v : nat * nat => map (fun e => ((fst (fst e), snd v + 1), snd (fst e), snd e)) (w_next (fst v)) in
  (forall v, w_next (vid v) = map (fun e => (vid (fst (fst e)), snd (fst e), snd e)) (next v)) /\
  dij_ids vid (fst (dij_run vid ZI hDMZ hPM hPM next dij_plain [(0, 0)] None None 40)) = [2; 1; 3; 4].
Proof.
  split; [|vm_compute; reflexivity]. intros [i k]. simpl. rewrite map_map. simpl.
  symmetry. rewrite <- (map_id (w_next i)) at 2. apply map_ext. now intros [[a b] c].
Qed.

(** C43 for A*. *)
Theorem C43_astar_gear_independent :
  forall {V I L : Type} (I_dec : forall a b : I, {a = b} + {a <> b}) (vid : V -> I) (WT : Weights)
    (DM1 DM2 : DMap I (w_t WT) (w_inf WT)) (PM1 PM2 : PMap I V) (LM1 LM2 : PMap I L)
    (next : V -> list (V * w_t WT * L)) (cfg : ast_cfg) (heuristic : V -> w_t WT) (starts : list V) k1 k2 g1 g2 lim n,
  same_option (same_dmap DM1 DM2) k1 k2 -> same_option (same_dmap DM1 DM2) g1 g2 ->
  let p1 := ast_run vid WT DM1 PM1 LM1 next cfg heuristic starts k1 g1 lim n in
  let p2 := ast_run vid WT DM2 PM2 LM2 next cfg heuristic starts k2 g2 lim n in
  Forall2 (ast_same_report (fun v => v) WT DM1 DM2 PM1 PM2 LM1 LM2) (fst p1) (fst p2) /\
  outcome_rel (ast_same_state (fun v => v) WT DM1 DM2 PM1 PM2 LM1 LM2) (snd p1) (snd p2).
Proof.
  intros V I L I_dec vid WT DM1 DM2 PM1 PM2 LM1 LM2 next cfg heuristic starts k1 k2 g1 g2 lim n Hk Hg.
  exact (ast_gear I_dec vid WT DM1 DM2 PM1 PM2 LM1 LM2 next cfg heuristic starts k1 k2 g1 g2 lim n Hk Hg).
Qed.
Print Assumptions C43_astar_gear_independent.

Example C43_astar_example :
  ast_ids (fun v => v) (fst (ast_run (fun v => v) ZI hDMZ hPM hPM as_next ast_default as_hc [0] None None None 40)) = [1; 2; 3; 4] /\
  ast_ids (fun v => v) (fst (ast_run (fun v => v) ZI hDMZ bPM bPM as_next ast_default as_hc [0] None None None 40)) = [1; 2; 3; 4].
Proof. vm_compute. auto. Qed.

(** C44 for A*; the heuristic has to give the same values for vertices and their ids. *)
Theorem C44_astar_vertex_to_id :
  forall {V I L : Type} (I_dec : forall a b : I, {a = b} + {a <> b}) (vid : V -> I) (WT : Weights)
    (DM : DMap I (w_t WT) (w_inf WT)) (PM : PMap I V) (PMI : PMap I I) (LM : PMap I L)
    (next : V -> list (V * w_t WT * L)) (next_id : I -> list (I * w_t WT * L)) (cfg : ast_cfg)
    (heuristic : V -> w_t WT) (heuristic_id : I -> w_t WT) (starts : list V) known kg lim n,
  (forall v, next_id (vid v) = map (fun e => (vid (fst (fst e)), snd (fst e), snd e)) (next v)) ->
  (forall v, heuristic_id (vid v) = heuristic v) ->
  let p1 := ast_run vid WT DM PM LM next cfg heuristic starts known kg lim n in
  let p2 := ast_run (fun i => i) WT DM PMI LM next_id cfg heuristic_id (map vid starts) known kg lim n in
  Forall2 (ast_same_report vid WT DM DM PM PMI LM LM) (fst p1) (fst p2) /\
  outcome_rel (ast_same_state vid WT DM DM PM PMI LM LM) (snd p1) (snd p2).
Proof.
  intros V I L I_dec vid WT DM PM PMI LM next next_id cfg heuristic heuristic_id starts known kg lim n H Hh.
  exact (ast_ids_only I_dec vid WT DM PM PMI LM next next_id cfg heuristic heuristic_id starts known kg lim n H Hh).
Qed.
Print Assumptions C44_astar_vertex_to_id.

Example C44_astar_example :
  let vid := fun v : nat * nat => fst v in
  let next := fun v : nat * nat => map (fun e => ((fst (fst e), snd v + 1), snd (fst e), snd e)) (as_next (fst v)) in
  (forall v, as_next (vid v) = map (fun e => (vid (fst (fst e)), snd (fst e), snd e)) (next v)) /\
  (forall v, as_hc (vid v) = as_hc (fst v)) /\
  ast_ids vid (fst (ast_run vid ZI hDMZ hPM hPM next ast_default (fun v => as_hc (fst v)) [(0, 0)] None None None 40)) = [1; 2; 3; 4].
Proof.
  split; [|split; [reflexivity|vm_compute; reflexivity]]. intros [i k]. simpl. rewrite map_map. simpl.
  symmetry. rewrite <- (map_id (as_next i)) at 2. apply map_ext. now intros [[a b] c].
Qed.

(** C43 for minimum spanning trees; reads as above. *)
Theorem C43_mst_gear_independent :
  forall {V I L : Type} (I_dec : forall a b : I, {a = b} + {a <> b}) (vid : V -> I) (WT : Weights)
    (VS1 VS2 : VSet I) (PM1 PM2 : PMap I V) (LM1 LM2 : PMap I L)
    (next : V -> list (V * w_t WT * L)) (cfg : mst_cfg) (starts : list V) lim n,
  let p1 := mst_run vid WT VS1 PM1 LM1 next cfg starts lim n in
  let p2 := mst_run vid WT VS2 PM2 LM2 next cfg starts lim n in
  Forall2 (mst_same_report (fun v => v) WT PM1 PM2 LM1 LM2) (fst p1) (fst p2) /\
  outcome_rel (mst_same_state (fun v => v) WT VS1 VS2 PM1 PM2 LM1 LM2) (snd p1) (snd p2).
Proof.
  intros V I L I_dec vid WT VS1 VS2 PM1 PM2 LM1 LM2 next cfg starts lim n.
  exact (mst_gear I_dec vid WT VS1 VS2 PM1 PM2 LM1 LM2 next cfg starts lim n).
Qed.
Print Assumptions C43_mst_gear_independent.

Example C43_mst_example :
  mst_ids (fun v => v) (fst (mst_run (fun v => v) ZI hVS hPM hPM mst_next mst_default [0] None 100)) = [1; 2; 3] /\
  mst_ids (fun v => v) (fst (mst_run (fun v => v) ZI bVS bPM bPM mst_next mst_default [0] None 100)) = [1; 2; 3].
Proof. vm_compute. auto. Qed.

(** C44 for minimum spanning trees; reads as above. *)
Theorem C44_mst_vertex_to_id :
  forall {V I L : Type} (I_dec : forall a b : I, {a = b} + {a <> b}) (vid : V -> I) (WT : Weights)
    (VS : VSet I) (PM : PMap I V) (PMI : PMap I I) (LM : PMap I L)
    (next : V -> list (V * w_t WT * L)) (next_id : I -> list (I * w_t WT * L)) (cfg : mst_cfg) (starts : list V) lim n,
  (forall v, next_id (vid v) = map (fun e => (vid (fst (fst e)), snd (fst e), snd e)) (next v)) ->
  let p1 := mst_run vid WT VS PM LM next cfg starts lim n in
  let p2 := mst_run (fun i => i) WT VS PMI LM next_id cfg (map vid starts) lim n in
  Forall2 (mst_same_report vid WT PM PMI LM LM) (fst p1) (fst p2) /\
  outcome_rel (mst_same_state vid WT VS VS PM PMI LM LM) (snd p1) (snd p2).
Proof.
  intros V I L I_dec vid WT VS PM PMI LM next next_id cfg starts lim n H.
  exact (mst_ids_only I_dec vid WT VS PM PMI LM next next_id cfg starts lim n H).
Qed.
Print Assumptions C44_mst_vertex_to_id.

Example C44_mst_example :
  let vid := fun v : nat * nat => fst v in
  let next := fun v : nat * nat => map (fun e => ((fst (fst e), snd v + 1), snd (fst e), snd e)) (mst_next (fst v)) in
  (forall v, mst_next (vid v) = map (fun e => (vid (fst (fst e)), snd (fst e), snd e)) (next v)) /\
  mst_ids vid (fst (mst_run vid ZI hVS hPM hPM next mst_default [(0, 0)] None 100)) = [1; 2; 3].
Proof.
  split; [|vm_compute; reflexivity]. intros [i k]. simpl. rewrite map_map. simpl.
  symmetry. rewrite <- (map_id (mst_next i)) at 2. apply map_ext. now intros [[a b] c].
Qed.

(** C43 for neighbors-then-depth; reads as above. *)
Theorem C43_ntd_gear_independent :
  forall {V I L : Type} (I_dec : forall a b : I, {a = b} + {a <> b}) (vid : V -> I)
    (VS1 VS2 : VSet I) (PM1 PM2 : PMap I V) (LM1 LM2 : PMap I L)
    (next : V -> list (V * L)) (cfg : ntd_cfg) (starts : list V) av1 av2 lim n,
  match av1, av2 with
  | None, None => True
  | Some a, Some b => same_set VS1 VS2 a b
  | _, _ => False
  end ->
  let p1 := ntd_run vid VS1 PM1 LM1 next cfg starts av1 lim n in
  let p2 := ntd_run vid VS2 PM2 LM2 next cfg starts av2 lim n in
  Forall2 (ntd_same_report (fun v => v) VS1 VS2 PM1 PM2 LM1 LM2) (fst p1) (fst p2) /\
  outcome_rel (ntd_same_state (fun v => v) VS1 VS2 PM1 PM2 LM1 LM2) (snd p1) (snd p2).
Proof.
  intros V I L I_dec vid VS1 VS2 PM1 PM2 LM1 LM2 next cfg starts av1 av2 lim n Hav.
  exact (ntd_gear I_dec vid VS1 VS2 PM1 PM2 LM1 LM2 next cfg starts av1 av2 lim n Hav).
Qed.
Print Assumptions C43_ntd_gear_independent.

Example C43_ntd_example :
  let p1 := ntd_run (fun v => v) hVS hPM hPM g_next ntd_default [0] None None 40 in
  let p2 := ntd_run (fun v => v) bVS bPM bPM g_next ntd_default [0] None None 40 in
  ntd_ids (fun v => v) (fst p1) = [1; 2; 3; 4] /\ ntd_ids (fun v => v) (fst p2) = [1; 2; 3; 4].
Proof. vm_compute. auto. Qed.

(** C44 for neighbors-then-depth; reads as above. *)
Theorem C44_ntd_vertex_to_id :
  forall {V I L : Type} (I_dec : forall a b : I, {a = b} + {a <> b}) (vid : V -> I)
    (VS : VSet I) (PM : PMap I V) (PMI : PMap I I) (LM : PMap I L)
    (next : V -> list (V * L)) (next_id : I -> list (I * L)) (cfg : ntd_cfg) (starts : list V) av lim n,
  (forall v, next_id (vid v) = map (fun e => (vid (fst e), snd e)) (next v)) ->
  let p1 := ntd_run vid VS PM LM next cfg starts av lim n in
  let p2 := ntd_run (fun i => i) VS PMI LM next_id cfg (map vid starts) av lim n in
  Forall2 (ntd_same_report vid VS VS PM PMI LM LM) (fst p1) (fst p2) /\
  outcome_rel (ntd_same_state vid VS VS PM PMI LM LM) (snd p1) (snd p2).
Proof.
  intros V I L I_dec vid VS PM PMI LM next next_id cfg starts av lim n H.
  exact (ntd_ids_only I_dec vid VS PM PMI LM next next_id cfg starts av lim n H).
Qed.
Print Assumptions C44_ntd_vertex_to_id.

(** Vertices are pairs, the second component does not matter for the identity. *)
Example C44_ntd_example :
  let vid := fun v : nat * nat => fst v in
  let next := fun v : nat * nat => map (fun e => ((fst e, snd v + 1), snd e)) (g_next (fst v)) in
  (forall v, g_next (vid v) = map (fun e => (vid (fst e), snd e)) (next v)) /\
  ntd_ids vid (fst (ntd_run vid hVS hPM hPM next ntd_default [(0, 0)] None None 40)) = [1; 2; 3; 4].
Proof.
  split; [|vm_compute; reflexivity]. intros [i k]. simpl. rewrite map_map. simpl.
  symmetry. rewrite <- (map_id (g_next i)) at 2. apply map_ext. now intros [a b].
Qed.

(** C43 for depth first search, all modes; reads as above. If paths are built, the collections for vertices have to show gaps ([marks_gaps]): the strategy tests for None in their sequence
    (false for arrays with a number as gap marker, see C79). *)
Theorem C43_dfs_gear_independent :
  forall {V I L : Type} (V_dec : forall a b : V, {a = b} + {a <> b}) (vid : V -> I)
    (VS1 VS2 : VSet I) (PM1 PM2 : PMap I V) (LM1 LM2 : PMap I L) (XM1 XM2 : DMap I Z 0%Z)
    (next : V -> list (V * L)) (cfg : dfs_cfg) (skip : nat -> bool) (starts : list V) av1 av2 lim n,
  (dc_build_paths cfg = true -> marks_gaps PM1 /\ marks_gaps PM2) ->
  match av1, av2 with None, None => True | Some a, Some b => same_set VS1 VS2 a b | _, _ => False end ->
  let p1 := dfs_traverse V_dec vid VS1 PM1 LM1 XM1 next cfg skip starts av1 lim n in
  let p2 := dfs_traverse V_dec vid VS2 PM2 LM2 XM2 next cfg skip starts av2 lim n in
  Forall2 (dfs_same_report (fun v => v) VS1 VS2 PM1 PM2 LM1 LM2 XM1 XM2) (fst p1) (fst p2) /\ snd p2 = snd p1.
Proof.
  intros V I L V_dec vid VS1 VS2 PM1 PM2 LM1 LM2 XM1 XM2 next cfg skip starts av1 av2 lim n Hg H.
  exact (dfs_gear V_dec vid VS1 VS2 PM1 PM2 LM1 LM2 XM1 XM2 next cfg skip starts av1 av2 lim n Hg H).
Qed.
Print Assumptions C43_dfs_gear_independent.

Example C43_dfs_example :
  let o := dfs_ask DFS_TREE both_entering true true in
  let p1 := dfs_traverse Nat.eq_dec (fun v => v) hVS hPM hPM hXM g_next (dfs_checked o) never [0] None None 60 in
  let p2 := dfs_traverse Nat.eq_dec (fun v => v) bVS bPM bPM hXM g_next (dfs_checked o) never [0] None None 60 in
  marks_gaps (@hPM nat) /\ marks_gaps (@bPM nat) /\
  map fr_vertex (fst p1) = [0; 2; 3; 4; 1] /\ map fr_vertex (fst p2) = [0; 2; 3; 4; 1].
Proof. split; [apply GearProofs.HashPMap_gaps|split; [apply GearProofs.SeqPMapNone_gaps|split; vm_compute; reflexivity]]. Qed.

(** C44 for depth first search, all modes; reads as above. The strategy compares a vertex that it enters with the start vertex itself, instead of
    comparing their ids.  So, one of the following is assumed: vertices with the same id are equal; or the search is not a tree search and in one of the modes DFS_TREE and
    ALL_PATHS; or there is no way, in the graph on ids, from a start vertex back to itself. *)
Theorem C44_dfs_vertex_to_id :
  forall {V I L : Type} (V_dec : forall a b : V, {a = b} + {a <> b}) (I_dec : forall a b : I, {a = b} + {a <> b}) (vid : V -> I)
    (VS : VSet I) (PM : PMap I V) (PMI : PMap I I) (LM : PMap I L) (XM : DMap I Z 0%Z)
    (next : V -> list (V * L)) (next_id : I -> list (I * L)) (options cfg : dfs_cfg) (skip : nat -> bool) (starts : list V) (av : option (vs_t VS)) lim n,
  dfs_options options (match av with Some _ => true | None => false end) = inl cfg ->
  (dc_build_paths cfg = true -> marks_gaps PM /\ marks_gaps PMI) ->
  (forall u v, vid u = vid v -> u = v) \/
  (dc_is_tree options = false /\ dc_mode options <> ALL_WALKS) \/
  (forall u p, In u starts -> walk (next_edge next_id) (vid u) p (vid u) -> p = []) ->
  (forall v, next_id (vid v) = map (fun e => (vid (fst e), snd e)) (next v)) ->
  let p1 := dfs_traverse V_dec vid VS PM LM XM next cfg skip starts av lim n in
  let p2 := dfs_traverse I_dec (fun i => i) VS PMI LM XM next_id cfg skip (map vid starts) av lim n in
  Forall2 (dfs_same_report vid VS VS PM PMI LM LM XM XM) (fst p1) (fst p2) /\
  snd p2 = DFSModel.outcome_map (map (fun x => (vid (fst x), snd x))) (snd p1).
Proof.
  intros V I L V_dec I_dec vid VS PM PMI LM XM next next_id options cfg skip starts av lim n Ho Hg Hi H.
  exact (dfs_ids_options V_dec I_dec vid VS PM PMI LM XM next next_id options cfg skip starts av lim n Ho Hg Hi H).
Qed.
Print Assumptions C44_dfs_vertex_to_id.

(** Vertices are numbers, the id is the remainder modulo three: several vertices with the same id are met, also with that of the start vertex. *)
Example C44_dfs_same_ids_example :
  let vid := fun v : nat => v mod 3 in
  let next := fun v : nat => [(v + 1, tt); (v + 2, tt)] in
  let next_id := fun i : nat => [((i + 1) mod 3, tt); ((i + 2) mod 3, tt)] in
  (forall v, next_id (vid v) = map (fun e => (vid (fst e), snd e)) (next v)) /\
  let o := dfs_ask DFS_TREE both_entering true true in
  dfs_options o false = inl (dfs_checked o) /\
  map (fun rep => (fr_vertex rep, fr_event rep)) (fst (dfs_traverse Nat.eq_dec vid hVS hPM hPM hXM next (dfs_checked o) never [0] None None 60)) =
    [(0, Some ENTERING_START); (2, Some ENTERING_SUCCESSOR); (4, Some ENTERING_SUCCESSOR)] /\
  map (fun rep => (fr_vertex rep, fr_event rep)) (fst (dfs_traverse Nat.eq_dec (fun i => i) hVS hPM hPM hXM next_id (dfs_checked o) never [0] None None 60)) =
    [(0, Some ENTERING_START); (2, Some ENTERING_SUCCESSOR); (1, Some ENTERING_SUCCESSOR)].
Proof.
  cbv zeta. split; [|vm_compute; auto]. intros v. cbn [map fst snd]. rewrite !Nat.add_mod_idemp_l by discriminate. reflexivity.
Qed.

(** C87 (refuted): in mode ALL_WALKS, the events are not those of the graph on ids, since the start vertex is recognized by comparing vertices, not ids. *)
Theorem C87_dfs_all_walks_vertex_to_id_refuted :
  exists (vid : nat -> nat) (next next_id : nat -> list (nat * unit)),
  let o := dfs_ask ALL_WALKS both_entering false false in
  (forall v, next_id (vid v) = map (fun e => (vid (fst e), snd e)) (next v)) /\
  dfs_options o false = inl (dfs_checked o) /\
  map fr_event (fst (dfs_traverse Nat.eq_dec vid hVS hPM hPM hXM next (dfs_checked o) never [0] None None 4)) =
    [Some ENTERING_START; Some ENTERING_SUCCESSOR; Some ENTERING_SUCCESSOR] /\
  map fr_event (fst (dfs_traverse Nat.eq_dec (fun i => i) hVS hPM hPM hXM next_id (dfs_checked o) never [0] None None 4)) =
    [Some ENTERING_START; Some ENTERING_SUCCESSOR; Some ENTERING_START].
Proof. exact dfs_walks_ids. Qed.
Print Assumptions C87_dfs_all_walks_vertex_to_id_refuted.

(** Vertices are lists; a vertex with the number [k] is a list with [k] elements. *)
Example C44_dfs_example :
  let vid := @length unit in
  let next := fun v : list unit => map (fun e => (repeat tt (fst e), snd e)) (g_next (length v)) in
  (forall u v, vid u = vid v -> u = v) /\
  (forall v, g_next (vid v) = map (fun e => (vid (fst e), snd e)) (next v)) /\
  map (fun rep => vid (fr_vertex rep)) (fst (dfs_traverse (list_eq_dec (fun a b : unit => match a, b with tt, tt => left eq_refl end)) vid hVS hPM hPM hXM next
    (dfs_checked (dfs_ask DFS_TREE both_entering true true)) never [[]] None None 60)) = [0; 2; 3; 4; 1].
Proof.
  split; [|split; [|vm_compute; reflexivity]].
  - intros u v. revert v. induction u as [|[] u IH]; intros [|[] v]; cbn; intros E; try discriminate; auto. f_equal. apply IH. cbn. congruence.
  - intros v. cbn. rewrite map_map. cbn. symmetry. rewrite <- (map_id (g_next (length v))) at 2. apply map_ext. intros [a b]. cbn. now rewrite repeat_length.
Qed.

(** C43 for topological sort; reads as above. *)
Theorem C43_topo_gear_independent :
  forall {V I L : Type} (I_dec : forall a b : I, {a = b} + {a <> b}) (vid : V -> I)
    (VS1 VS2 : VSet I) (PM1 PM2 : PMap I V) (LM1 LM2 : PMap I L)
    (next : V -> list (V * L)) (cfg : topo_cfg) (starts : list V) av1 av2 lim n,
  match av1, av2 with
  | None, None => True
  | Some a, Some b => same_set VS1 VS2 a b
  | _, _ => False
  end ->
  let p1 := topo_run vid VS1 PM1 LM1 next cfg starts av1 lim n in
  let p2 := topo_run vid VS2 PM2 LM2 next cfg starts av2 lim n in
  Forall2 (topo_same_report (fun v => v) VS1 VS2 PM1 PM2 LM1 LM2) (fst p1) (fst p2) /\
  outcome_rel (topo_same_state (fun v => v) VS1 VS2 PM1 PM2 LM1 LM2) (snd p1) (snd p2).
Proof.
  intros V I L I_dec vid VS1 VS2 PM1 PM2 LM1 LM2 next cfg starts av1 av2 lim n Hav.
  exact (topo_gear I_dec vid VS1 VS2 PM1 PM2 LM1 LM2 next cfg starts av1 av2 lim n Hav).
Qed.
Print Assumptions C43_topo_gear_independent.

Example C43_topo_example :
  let p1 := topo_run (fun v => v) hVS hPM hPM dag_next topo_default [0] None None 60 in
  let p2 := topo_run (fun v => v) bVS bPM bPM dag_next topo_default [0] None None 60 in
  map tr_vertex (fst p1) = [4; 3; 2; 1; 0] /\ map tr_vertex (fst p2) = [4; 3; 2; 1; 0].
Proof. split; vm_compute; reflexivity. Qed.

(** C44 for topological sort; reads as above. *)
Theorem C44_topo_vertex_to_id :
  forall {V I L : Type} (I_dec : forall a b : I, {a = b} + {a <> b}) (vid : V -> I)
    (VS : VSet I) (PM : PMap I V) (PMI : PMap I I) (LM : PMap I L)
    (next : V -> list (V * L)) (next_id : I -> list (I * L)) (cfg : topo_cfg) (starts : list V) av lim n,
  (forall v, next_id (vid v) = map (fun e => (vid (fst e), snd e)) (next v)) ->
  let p1 := topo_run vid VS PM LM next cfg starts av lim n in
  let p2 := topo_run (fun i => i) VS PMI LM next_id cfg (map vid starts) av lim n in
  Forall2 (topo_same_report vid VS VS PM PMI LM LM) (fst p1) (fst p2) /\
  outcome_rel (topo_same_state vid VS VS PM PMI LM LM) (snd p1) (snd p2).
Proof.
  intros V I L I_dec vid VS PM PMI LM next next_id cfg starts av lim n H.
  exact (topo_ids_only I_dec vid VS PM PMI LM next next_id cfg starts av lim n H).
Qed.
Print Assumptions C44_topo_vertex_to_id.

(** Vertices are pairs, the second component does not matter for the identity. *)
Example C44_topo_example :
  let vid := fun v : nat * nat => fst v in
  let next := fun v : nat * nat => map (fun e => ((fst e, snd v + 1), snd e)) (dag_next (fst v)) in
  (forall v, dag_next (vid v) = map (fun e => (vid (fst e), snd e)) (next v)) /\
  map (fun rep => vid (tr_vertex rep)) (fst (topo_run vid hVS hPM hPM next topo_default [(0, 0)] None None 60)) = [4; 3; 2; 1; 0].
Proof.
  split; [|vm_compute; reflexivity]. intros [i k]. simpl. rewrite map_map. simpl.
  rewrite <- (map_id (dag_next i)) at 1. apply map_ext. now intros [a b].
Qed.

(** C43 for bidirectional breadth first search: same length, same path ([same_path], PathSim.v), same exception. *)
Theorem C43_bidirectional_bfs_gear_independent :
  forall {V I L : Type} (V_dec : forall a b : V, {a = b} + {a <> b}) (I_dec : forall a b : I, {a = b} + {a <> b}) (vid : V -> I)
    (VS1 VS2 : VSet I) (PM1 PM2 : PMap I V) (LM1 LM2 : PMap I L) (next_f next_b : V -> list (V * L)) labeled build_path fail_silently starts goals lim n,
  let p1 := bb_run V_dec I_dec vid VS1 PM1 LM1 next_f next_b labeled build_path fail_silently starts goals lim n in
  let p2 := bb_run V_dec I_dec vid VS2 PM2 LM2 next_f next_b labeled build_path fail_silently starts goals lim n in
  Forall2 (bb_same_result (fun v => v)) (fst p1) (fst p2) /\ outcome_rel (bb_same_state (fun v => v) VS1 VS2 PM1 PM2 LM1 LM2) (snd p1) (snd p2).
Proof.
  intros V I L V_dec I_dec vid VS1 VS2 PM1 PM2 LM1 LM2 next_f next_b labeled build_path fail_silently starts goals lim n.
  exact (bb_gear V_dec I_dec vid VS1 VS2 PM1 PM2 LM1 LM2 next_f next_b labeled build_path fail_silently starts goals lim n).
Qed.
Print Assumptions C43_bidirectional_bfs_gear_independent.

Example C43_bidirectional_bfs_example :
  map br_length (fst (bb_run Nat.eq_dec Nat.eq_dec (fun v => v) hVS hPM hPM g_next g_back true true false [5] [4] None 60)) = [4%Z] /\
  map br_length (fst (bb_run Nat.eq_dec Nat.eq_dec (fun v => v) bVS bPM bPM g_next g_back true true false [5] [4] None 60)) = [4%Z].
Proof. split; vm_compute; reflexivity. Qed.

(** C44 for bidirectional breadth first search, for a function vertex_to_id that gives different ids to different vertices (see C69 for other functions). *)
Theorem C44_bidirectional_bfs_vertex_to_id :
  forall {V I L : Type} (V_dec : forall a b : V, {a = b} + {a <> b}) (I_dec : forall a b : I, {a = b} + {a <> b}) (vid : V -> I)
    (VS : VSet I) (PM : PMap I V) (PMI : PMap I I) (LM : PMap I L) (next_f next_b : V -> list (V * L)) (nid_f nid_b : I -> list (I * L))
    labeled build_path fail_silently starts goals lim n,
  (forall a b, vid a = vid b -> a = b) ->
  (forall v, nid_f (vid v) = map (fun e => (vid (fst e), snd e)) (next_f v)) ->
  (forall v, nid_b (vid v) = map (fun e => (vid (fst e), snd e)) (next_b v)) ->
  let p1 := bb_run V_dec I_dec vid VS PM LM next_f next_b labeled build_path fail_silently starts goals lim n in
  let p2 := bb_run I_dec I_dec (fun i => i) VS PMI LM nid_f nid_b labeled build_path fail_silently (map vid starts) (map vid goals) lim n in
  Forall2 (bb_same_result vid) (fst p1) (fst p2) /\ outcome_rel (bb_same_state vid VS VS PM PMI LM LM) (snd p1) (snd p2).
Proof.
  intros V I L V_dec I_dec vid VS PM PMI LM next_f next_b nid_f nid_b labeled build_path fail_silently starts goals lim n.
  exact (bb_ids_only V_dec I_dec vid VS PM PMI LM next_f next_b nid_f nid_b labeled build_path fail_silently starts goals lim n).
Qed.
Print Assumptions C44_bidirectional_bfs_vertex_to_id.

(** Vertices are numbers, ids are twice as large. *)
Example C44_bidirectional_bfs_example :
  let vid := fun v : nat => v + v in
  let up := fun next : nat -> list (nat * nat) => fun i => map (fun e => (fst e + fst e, snd e)) (next (Nat.div2 i)) in
  (forall a b, vid a = vid b -> a = b) /\ (forall v, up g_next (vid v) = map (fun e => (vid (fst e), snd e)) (g_next v)) /\
  map br_length (fst (bb_run Nat.eq_dec Nat.eq_dec vid hVS hPM hPM g_next g_back true true false [5] [4] None 60)) = [4%Z].
Proof.
  split; [intros a b H; simpl in H; lia|]. split; [|vm_compute; reflexivity].
  intros v. simpl. replace (Nat.div2 (v + v)) with v; [reflexivity|]. replace (v + v) with (2 * v) by lia. now rewrite Nat.div2_double.
Qed.

(** C43 for the bidirectional search of shortest paths: same length, same path, same exception. *)
Theorem C43_bidirectional_shortest_path_gear_independent :
  forall {V I L : Type} (V_dec : forall a b : V, {a = b} + {a <> b}) (I_dec : forall a b : I, {a = b} + {a <> b}) (vid : V -> I) (WT : Weights)
    (DM1 DM2 : DMap I (w_t WT) (w_inf WT)) (PM1 PM2 : PMap I V) (LM1 LM2 : PMap I L) (next_f next_b : V -> list (V * w_t WT * L))
    labeled build_path fail_silently starts goals lim n,
  let p1 := b2_run V_dec I_dec vid WT DM1 PM1 LM1 next_f next_b labeled build_path fail_silently starts goals lim n in
  let p2 := b2_run V_dec I_dec vid WT DM2 PM2 LM2 next_f next_b labeled build_path fail_silently starts goals lim n in
  Forall2 (fun r1 r2 => b2_length r2 = b2_length r1 /\ same_path (fun v => v) (b2_path r1) (b2_path r2)) (fst p1) (fst p2) /\
  outcome_rel (b2_same_option (fun v => v) WT DM1 DM2 PM1 PM2 LM1 LM2) (snd p1) (snd p2).
Proof.
  intros V I L V_dec I_dec vid WT DM1 DM2 PM1 PM2 LM1 LM2 next_f next_b labeled build_path fail_silently starts goals lim n.
  exact (b2_gear V_dec I_dec vid WT DM1 DM2 PM1 PM2 LM1 LM2 next_f next_b labeled build_path fail_silently starts goals lim n).
Qed.
Print Assumptions C43_bidirectional_shortest_path_gear_independent.

Example C43_bidirectional_shortest_path_example :
  map b2_length (fst (b2_run Nat.eq_dec Nat.eq_dec (fun v => v) ZI hDMZ hPM hPM (el_forth plain_edges) (el_back plain_edges) true true false [0] [1] None 60)) = [Some 9%Z] /\
  map b2_length (fst (b2_run Nat.eq_dec Nat.eq_dec (fun v => v) ZI hDMZ bPM bPM (el_forth plain_edges) (el_back plain_edges) true true false [0] [1] None 60)) = [Some 9%Z].
Proof. split; vm_compute; reflexivity. Qed.

(** C44 for the bidirectional search of shortest paths: the length depends on the ids only; and the path (with the ids of its vertices) also, if vertex_to_id gives
    different ids to different vertices ([b2_same_result], BiSPSim.v). *)
Theorem C44_bidirectional_shortest_path_vertex_to_id :
  forall {V I L : Type} (V_dec : forall a b : V, {a = b} + {a <> b}) (I_dec : forall a b : I, {a = b} + {a <> b}) (vid : V -> I) (WT : Weights)
    (DM : DMap I (w_t WT) (w_inf WT)) (PM : PMap I V) (PMI : PMap I I) (LM : PMap I L) (next_f next_b : V -> list (V * w_t WT * L)) (nid_f nid_b : I -> list (I * w_t WT * L))
    labeled build_path fail_silently starts goals lim n,
  (forall v, nid_f (vid v) = map (fun e => (vid (fst (fst e)), snd (fst e), snd e)) (next_f v)) ->
  (forall v, nid_b (vid v) = map (fun e => (vid (fst (fst e)), snd (fst e), snd e)) (next_b v)) ->
  let p1 := b2_run V_dec I_dec vid WT DM PM LM next_f next_b labeled build_path fail_silently starts goals lim n in
  let p2 := b2_run I_dec I_dec (fun i => i) WT DM PMI LM nid_f nid_b labeled build_path fail_silently (map vid starts) (map vid goals) lim n in
  Forall2 (b2_same_result vid) (fst p1) (fst p2) /\ outcome_rel (b2_same_option vid WT DM DM PM PMI LM LM) (snd p1) (snd p2).
Proof.
  intros V I L V_dec I_dec vid WT DM PM PMI LM next_f next_b nid_f nid_b labeled build_path fail_silently starts goals lim n.
  exact (b2_ids_only V_dec I_dec vid WT DM PM PMI LM next_f next_b nid_f nid_b labeled build_path fail_silently starts goals lim n).
Qed.
Print Assumptions C44_bidirectional_shortest_path_vertex_to_id.

(** Vertices are pairs, the second component does not matter. *)
Example C44_bidirectional_shortest_path_example :
  let vid := fun v : nat * bool => fst v in
  let down := fun next : nat -> list (nat * option Z * nat) => fun v : nat * bool => map (fun e => ((fst (fst e), negb (snd v)), snd (fst e), snd e)) (next (fst v)) in
  let dec : forall a b : nat * bool, {a = b} + {a <> b} := fun a b => ltac:(decide equality; [apply bool_dec|apply Nat.eq_dec]) in
  (forall v, el_forth plain_edges (vid v) = map (fun e => (vid (fst (fst e)), snd (fst e), snd e)) (down (el_forth plain_edges) v)) /\
  map b2_length (fst (b2_run dec Nat.eq_dec vid ZI hDMZ hPM hPM (down (el_forth plain_edges)) (down (el_back plain_edges)) true true false [(0, true)] [(1, true)] None 60)) = [Some 9%Z].
Proof.
  split; [|vm_compute; reflexivity]. intros [i k]. simpl. rewrite map_map. simpl. rewrite <- (map_id (el_forth plain_edges i)) at 1. apply map_ext. now intros [[a b] c].
Qed.
