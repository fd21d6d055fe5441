(** C05: the option calculation_limit. *)
From Coq Require Import List ZArith Bool Arith.
From Verif Require Import Machine GearSpec Common LimitSim BFSModel BFSLimit BFSMore
  Weight DijkstraModel DijkstraLimit Examples AStarModel AStarSpec AStarExamples AStarLimit MSTModel MSTLimit MSTExamples
  NTDModel NTDLimit NTDExamples DFSModel DFSLimit DFSExamples TopoModel TopoLimit TopoExamples
  BiBFSModel BiBFSLimit BiExamples BiSPModel BiSPLimit BiSPExamples.
Import ListNotations.

(** C05 for breadth first search. A run with limit [c] is compared with the run of the same number of
    passes without limit; [b_calls] are the vertices the neighbor function has been asked about. At
    most [c] vertices are asked about; if the run without limit needs no more, nothing
    changes (except the internal counter, which [bfs_forget_limit] hides); if it needs more,
    RuntimeError is raised, after exactly [c] vertices, and the reports up to then are the same. *)
Theorem C05_bfs_calculation_limit :
  forall {V I L : Type} (vid : V -> I) (VS : VSet I) (PM : PMap I V) (LM : PMap I L)
    (next : V -> list (V * L)) (cfg : bfs_cfg) (starts : list V) av (c : Z) n os r os' r',
  (0 <= c)%Z ->
  bfs_run vid VS PM LM next cfg starts av None n = (os, r) ->
  bfs_run vid VS PM LM next cfg starts av (Some c) n = (os', r') ->
  (Z.of_nat (length (b_calls (outcome_state r'))) <= c)%Z /\
  ((Z.of_nat (length (b_calls (outcome_state r))) <= c)%Z ->
     os' = os /\ outcome_map (bfs_forget_limit VS PM LM) r' = r) /\
  ((c < Z.of_nat (length (b_calls (outcome_state r))))%Z ->
     (exists s', r' = Raised RuntimeErrorLimit s') /\
     Z.of_nat (length (b_calls (outcome_state r'))) = c /\ exists ext, os = os' ++ ext).
Proof.
  intros V I L vid VS PM LM next cfg starts av c n os r os' r'.
  exact (bfs_limit_all vid VS PM LM next cfg starts av c n os r os' r').
Qed.
Print Assumptions C05_bfs_calculation_limit.

Example C05_bfs_example :
  let p := bfs_run (fun v => v) hVS hPM hPM inf_next bfs_default [0] None (Some 3%Z) 100 in
  bfs_ids (fun v => v) (fst p) = [1; 2; 3; 4; 5; 6] /\
  match snd p with Raised RuntimeErrorLimit s => rev (b_calls s) = [0; 1; 2] | _ => False end.
Proof. vm_compute. auto. Qed.

(** C05 for Dijkstra's algorithm; reads as above. *)
Theorem C05_dijkstra_calculation_limit :
  forall {V I L : Type} (vid : V -> I) (WT : Weights) (DM : DMap I (w_t WT) (w_inf WT)) (PM : PMap I V) (LM : PMap I L)
    (next : V -> list (V * w_t WT * L)) (cfg : dij_cfg) (starts : list V) known (c : Z) n os r os' r',
  (0 <= c)%Z ->
  dij_run vid WT DM PM LM next cfg starts known None n = (os, r) ->
  dij_run vid WT DM PM LM next cfg starts known (Some c) n = (os', r') ->
  (Z.of_nat (length (d_calls (outcome_state r'))) <= c)%Z /\
  ((Z.of_nat (length (d_calls (outcome_state r))) <= c)%Z ->
     os' = os /\ outcome_map (dij_forget_limit WT DM PM LM) r' = r) /\
  ((c < Z.of_nat (length (d_calls (outcome_state r))))%Z ->
     (exists s', r' = Raised RuntimeErrorLimit s') /\
     Z.of_nat (length (d_calls (outcome_state r'))) = c /\ exists ext, os = os' ++ ext).
Proof.
  intros V I L vid WT DM PM LM next cfg starts known c n os r os' r'.
  exact (dij_limit_all vid WT DM PM LM next cfg starts known c n os r os' r').
Qed.
Print Assumptions C05_dijkstra_calculation_limit.

Example C05_dijkstra_example :
  let p := dij_run (fun v => v) ZI hDMZ hPM hPM winf_next dij_plain [3] None (Some 3%Z) 100 in
  dij_ids (fun v => v) (fst p) = [4; 5; 6] /\
  match snd p with Raised RuntimeErrorLimit s => map (fun x => fst (fst x)) (rev (d_calls s)) = [3; 4; 5] | _ => False end.
Proof. vm_compute. auto. Qed.

(** C05 for A*; reads as above. *)
Theorem C05_astar_calculation_limit :
  forall {V I L : Type} (vid : V -> I) (WT : Weights) (DM : DMap I (w_t WT) (w_inf WT)) (PM : PMap I V) (LM : PMap I L)
    (next : V -> list (V * w_t WT * L)) (cfg : ast_cfg) (heuristic : V -> w_t WT) (starts : list V) known kg
    (c : Z) n os r os' r',
  (0 <= c)%Z ->
  ast_run vid WT DM PM LM next cfg heuristic starts known kg None n = (os, r) ->
  ast_run vid WT DM PM LM next cfg heuristic starts known kg (Some c) n = (os', r') ->
  (Z.of_nat (length (a_calls (outcome_state r'))) <= c)%Z /\
  ((Z.of_nat (length (a_calls (outcome_state r))) <= c)%Z ->
     os' = os /\ outcome_map (ast_forget_limit WT DM PM LM) r' = r) /\
  ((c < Z.of_nat (length (a_calls (outcome_state r))))%Z ->
     (exists s', r' = Raised RuntimeErrorLimit s') /\
     Z.of_nat (length (a_calls (outcome_state r'))) = c /\ exists ext, os = os' ++ ext).
Proof.
  intros V I L vid WT DM PM LM next cfg heuristic starts known kg c n os r os' r'.
  exact (ast_limit_all vid WT DM PM LM next cfg heuristic starts known kg c n os r os' r').
Qed.
Print Assumptions C05_astar_calculation_limit.

Example C05_astar_example :
  let p := ast_run (fun v => v) ZI hDMZ hPM hPM winf_next ast_default (fun v => Some (100 - Z.of_nat v)%Z) [3] None None (Some 3%Z) 100 in
  ast_ids (fun v => v) (fst p) = [6; 12; 24] /\
  match snd p with Raised RuntimeErrorLimit s => map (fun x => fst (fst x)) (rev (a_calls s)) = [3; 6; 12] | _ => False end.
Proof. vm_compute. auto. Qed.

(** C05 for minimum spanning trees; reads as above. All start vertices are expanded together, so if there are more of them than the limit allows,
    none is expanded. *)
Theorem C05_mst_calculation_limit :
  forall {V I L : Type} (vid : V -> I) (WT : Weights) (VS : VSet I) (PM : PMap I V) (LM : PMap I L)
    (next : V -> list (V * w_t WT * L)) (cfg : mst_cfg) (starts : list V) (c : Z) n os r os' r',
  (0 <= c)%Z ->
  mst_run vid WT VS PM LM next cfg starts None n = (os, r) ->
  mst_run vid WT VS PM LM next cfg starts (Some c) n = (os', r') ->
  (Z.of_nat (length (m_calls (outcome_state r'))) <= c)%Z /\
  ((Z.of_nat (length (m_calls (outcome_state r))) <= c)%Z ->
     os' = os /\ outcome_map (mst_forget_limit WT VS PM LM) r' = r) /\
  ((c < Z.of_nat (length (m_calls (outcome_state r))))%Z ->
     (exists s', r' = Raised RuntimeErrorLimit s') /\
     (Z.of_nat (length (m_calls (outcome_state r'))) = c \/
      (c < Z.of_nat (length starts))%Z /\ m_calls (outcome_state r') = []) /\ exists ext, os = os' ++ ext).
Proof.
  intros V I L vid WT VS PM LM next cfg starts c n os r os' r'.
  exact (mst_limit_all vid WT VS PM LM next cfg starts c n os r os' r').
Qed.
Print Assumptions C05_mst_calculation_limit.

Example C05_mst_example :
  let p := mst_run (fun v => v) ZI hVS hPM hPM mst_next mst_default [0] (Some 2%Z) 100 in
  mst_ids (fun v => v) (fst p) = [1; 2] /\
  match snd p with Raised RuntimeErrorLimit s => rev (m_calls s) = [0; 1] | _ => False end.
Proof. vm_compute. auto. Qed.

(** C05 for neighbors-then-depth; reads as above. *)
Theorem C05_ntd_calculation_limit :
  forall {V I L : Type} (vid : V -> I) (VS : VSet I) (PM : PMap I V) (LM : PMap I L)
    (next : V -> list (V * L)) (cfg : ntd_cfg) (starts : list V) av (c : Z) n os r os' r',
  (0 <= c)%Z ->
  ntd_run vid VS PM LM next cfg starts av None n = (os, r) ->
  ntd_run vid VS PM LM next cfg starts av (Some c) n = (os', r') ->
  (Z.of_nat (length (n_calls (outcome_state r'))) <= c)%Z /\
  ((Z.of_nat (length (n_calls (outcome_state r))) <= c)%Z ->
     os' = os /\ outcome_map (ntd_forget_limit VS PM LM) r' = r) /\
  ((c < Z.of_nat (length (n_calls (outcome_state r))))%Z ->
     (exists s', r' = Raised RuntimeErrorLimit s') /\
     Z.of_nat (length (n_calls (outcome_state r'))) = c /\ exists ext, os = os' ++ ext).
Proof.
  intros V I L vid VS PM LM next cfg starts av c n os r os' r'.
  exact (ntd_limit_all vid VS PM LM next cfg starts av c n os r os' r').
Qed.
Print Assumptions C05_ntd_calculation_limit.

Example C05_ntd_example :
  let p := ntd_run (fun v => v) hVS hPM hPM inf_next ntd_default [0] None (Some 2%Z) 100 in
  ntd_ids (fun v => v) (fst p) = [1; 2; 5; 6] /\
  match snd p with Raised RuntimeErrorLimit s => rev (map fst (n_calls s)) = [0; 2] | _ => False end.
Proof. vm_compute. auto. Qed.

(** C05 for depth first search, all modes; reads as above. The result of [dfs_traverse] shows the calls of the neighbor function (vertex and depth). *)
Theorem C05_dfs_calculation_limit :
  forall {V I L : Type} (V_dec : forall a b : V, {a = b} + {a <> b}) (vid : V -> I) (VS : VSet I) (PM : PMap I V) (LM : PMap I L)
    (XM : DMap I Z 0%Z) (next : V -> list (V * L)) (cfg : dfs_cfg) (skip : nat -> bool) (starts : list V) av (c : Z) n os r os' r',
  (0 <= c)%Z ->
  dfs_traverse V_dec vid VS PM LM XM next cfg skip starts av None n = (os, r) ->
  dfs_traverse V_dec vid VS PM LM XM next cfg skip starts av (Some c) n = (os', r') ->
  (Z.of_nat (length (outcome_state r')) <= c)%Z /\
  ((Z.of_nat (length (outcome_state r)) <= c)%Z -> os' = os /\ r' = r) /\
  ((c < Z.of_nat (length (outcome_state r)))%Z ->
     (exists calls, r' = Raised RuntimeErrorLimit calls) /\ Z.of_nat (length (outcome_state r')) = c /\ exists ext, os = os' ++ ext).
Proof.
  intros V I L V_dec vid VS PM LM XM next cfg skip starts av c n os r os' r'.
  exact (traverse_limit V_dec vid VS PM LM XM next cfg skip starts av c n os r os' r').
Qed.
Print Assumptions C05_dfs_calculation_limit.

Example C05_dfs_example :
  let o := dfs_ask DFS_TREE both_entering false true in
  let p := dfs_traverse Nat.eq_dec (fun v : nat => v) hVS hPM hPM hXM g_next (dfs_checked o) never [0] None (Some 3%Z) 60 in
  map fr_vertex (fst p) = [0; 2; 3; 4] /\ snd p = Raised RuntimeErrorLimit [(3, 2%Z); (2, 1%Z); (0, 0%Z)].
Proof. split; vm_compute; reflexivity. Qed.

(** C05 for topological sort; reads as above. *)
Theorem C05_topo_calculation_limit :
  forall {V I L : Type} (vid : V -> I) (VS : VSet I) (PM : PMap I V) (LM : PMap I L)
    (next : V -> list (V * L)) (cfg : topo_cfg) (starts : list V) av (c : Z) n os r os' r',
  (0 <= c)%Z ->
  topo_run vid VS PM LM next cfg starts av None n = (os, r) ->
  topo_run vid VS PM LM next cfg starts av (Some c) n = (os', r') ->
  (Z.of_nat (length (t_calls (outcome_state r'))) <= c)%Z /\
  ((Z.of_nat (length (t_calls (outcome_state r))) <= c)%Z ->
     os' = os /\ LimitSim.outcome_map (topo_forget_limit VS PM LM) r' = r) /\
  ((c < Z.of_nat (length (t_calls (outcome_state r))))%Z ->
     (exists s', r' = Raised RuntimeErrorLimit s') /\
     Z.of_nat (length (t_calls (outcome_state r'))) = c /\ exists ext, os = os' ++ ext).
Proof.
  intros V I L vid VS PM LM next cfg starts av c n os r os' r'.
  exact (topo_limit_all vid VS PM LM next cfg starts av c n os r os' r').
Qed.
Print Assumptions C05_topo_calculation_limit.

Example C05_topo_example :
  let p c := topo_run (fun v => v) hVS hPM hPM dag_next topo_default [0] None (Some c) 100 in
  map tr_vertex (fst (p 3%Z)) = [4] /\ topo_got (p 3%Z) = Some (Some RuntimeErrorLimit) /\ topo_got (p 5%Z) = Some None.
Proof. split; [vm_compute; reflexivity|]. split; vm_compute; reflexivity. Qed.

(** C05 for bidirectional breadth first search.  The limit holds for each of the two directions ([bb_calls true], [bb_calls false]: the number of calls of the forward
    resp. backward neighbor function). *)
Theorem C05_bidirectional_bfs_calculation_limit :
  forall {V I L : Type} (V_dec : forall a b : V, {a = b} + {a <> b}) (I_dec : forall a b : I, {a = b} + {a <> b}) (vid : V -> I)
    (VS : VSet I) (PM : PMap I V) (LM : PMap I L) (next_f next_b : V -> list (V * L)) (labeled build_path fail_silently : bool) (c : Z), (0 <= c)%Z ->
  forall starts goals n os r os' r',
  bb_run V_dec I_dec vid VS PM LM next_f next_b labeled build_path fail_silently starts goals None n = (os, r) ->
  bb_run V_dec I_dec vid VS PM LM next_f next_b labeled build_path fail_silently starts goals (Some c) n = (os', r') ->
  let within s := forall forwards, (Z.of_nat (bb_calls VS PM LM forwards s) <= c)%Z in
  within (outcome_state r') /\
  (within (outcome_state r) -> os' = os /\ LimitSim.outcome_map (bb_forget_limit VS PM LM) r' = r) /\
  (~ within (outcome_state r) -> (exists s', r' = Raised RuntimeErrorLimit s') /\ exists ext, os = os' ++ ext).
Proof.
  intros V I L V_dec I_dec vid VS PM LM next_f next_b labeled build_path fail_silently c Hc.
  exact (bb_limit_all V_dec I_dec vid VS PM LM next_f next_b labeled build_path fail_silently c Hc).
Qed.
Print Assumptions C05_bidirectional_bfs_calculation_limit.

Example C05_bidirectional_bfs_example :
  let p c := bb_run Nat.eq_dec Nat.eq_dec (fun v => v) hVS hPM hPM g_next g_back true true false [5] [4] (Some c) 60 in
  map br_length (fst (p 4%Z)) = [4%Z] /\ (exists s, snd (p 1%Z) = Raised RuntimeErrorLimit s).
Proof. split; [vm_compute; reflexivity|]. eexists. vm_compute. reflexivity. Qed.

(** C05 for the bidirectional search of shortest paths.  The limit holds for each of the two directions ([b2_count_opt true], [b2_count_opt false]: the number of calls of
    the forward resp. backward neighbor function). *)
Theorem C05_bidirectional_shortest_path_calculation_limit :
  forall {V I L : Type} (V_dec : forall a b : V, {a = b} + {a <> b}) (I_dec : forall a b : I, {a = b} + {a <> b}) (vid : V -> I)
    (WT : Weights) (DM : DMap I (w_t WT) (w_inf WT)) (PM : PMap I V) (LM : PMap I L) (next_f next_b : V -> list (V * w_t WT * L))
    (labeled build_path fail_silently : bool) (c : Z), (0 <= c)%Z ->
  forall starts goals n os r os' r',
  b2_run V_dec I_dec vid WT DM PM LM next_f next_b labeled build_path fail_silently starts goals None n = (os, r) ->
  b2_run V_dec I_dec vid WT DM PM LM next_f next_b labeled build_path fail_silently starts goals (Some c) n = (os', r') ->
  let within s := forall forwards, (Z.of_nat (b2_count_opt WT DM PM LM forwards s) <= c)%Z in
  within (outcome_state r') /\
  (within (outcome_state r) -> os' = os /\ LimitSim.outcome_map (option_map (b2_forget_limit WT DM PM LM)) r' = r) /\
  (~ within (outcome_state r) -> (exists s', r' = Raised RuntimeErrorLimit s') /\ exists ext, os = os' ++ ext).
Proof.
  intros V I L V_dec I_dec vid WT DM PM LM next_f next_b labeled build_path fail_silently c Hc.
  exact (b2_limit_all V_dec I_dec vid WT DM PM LM next_f next_b labeled build_path fail_silently c Hc).
Qed.
Print Assumptions C05_bidirectional_shortest_path_calculation_limit.

Example C05_bidirectional_shortest_path_example :
  let p c := b2_run Nat.eq_dec Nat.eq_dec (fun v => v) ZI hDMZ hPM hPM (el_forth plain_edges) (el_back plain_edges) true true false [0] [1] (Some c) 60 in
  map b2_length (fst (p 4%Z)) = [Some 9%Z] /\ (exists s, snd (p 1%Z) = Raised RuntimeErrorLimit s).
Proof. split; [vm_compute; reflexivity|]. eexists. vm_compute. reflexivity. Qed.
