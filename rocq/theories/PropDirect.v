(** Properties of the code that accesses sequences directly: C80-C82.

    The strategies contain, for each access to a collection, code that handles the sequence below the collection directly, for gears with sequences. C80: this code has the effect
    of the operation on the set or mapping that the sequence stands for. C81: where the code has no handler for ids beyond the end of the sequence, such ids do not occur. In C81, [R] tells
    for a gear which ids can be read; the theorems hold for each such [R]; the gears with sets and dicts, with bytes, and with bits are instances (see the examples). [..._run_direct] is the run
    with the check, and ends with IndexErrorModel resp. AssertionModel if an access fails. *)
From Coq Require Import List ZArith NArith Bool Arith Lia.
From Verif Require Import Machine GearSpec GearModel GearProofs Common Weight HeapModel DijkstraModel AStarModel BiSPModel DFSModel DFSReports DFSProofs TopoModel TopoExamples
  InlineSpec InlineModel InlineProofs DirectModel DirectProofs Examples DFSExamples.
Import ListNotations.

(** C80. Sets with one byte, resp. one bit, per id. *)
Theorem C80_sequence_set_code : forall cfg : wcfg, wcfg_ok cfg ->
  correct_set_code (fun _ => True) (fun k s => bs_contains (Z.of_nat k) s) (bs_new cfg) byte_read byte_test (byte_visit cfg) (byte_mark cfg) byte_clear byte_leave /\
  correct_set_code bytes_ok (fun k s => bits_contains (Z.of_nat k) s) (bits_new cfg) bit_read bit_test (bit_visit cfg) (bit_mark cfg) bit_clear bit_leave.
Proof. exact (fun cfg H => conj (byte_code cfg H) (bit_code cfg H)). Qed.
Print Assumptions C80_sequence_set_code.

Example C80_set_example :
  let s := bit_mark bit_cfg 1300 (bit_mark bit_cfg 11 (bit_mark bit_cfg 9 (bits_new bit_cfg))) in
  map (fun k => bit_test k s) [8; 9; 10; 11; 1300; 1301; 5000] = [false; true; false; true; true; false; false] /\
  match bit_clear 9 s with Some t => map (fun k => bit_test k t) [9; 11] = [false; true] | None => False end /\
  bit_visit bit_cfg 11 s = None.
Proof. vm_compute. auto. Qed.

(** C80. Mappings with default value (distances, numbers). *)
Theorem C80_sequence_map_code : forall {A} (cfg : wcfg) (dflt : A), wcfg_ok cfg ->
  correct_map_code dflt (ma_direct dflt) (ma_new cfg dflt) map_read map_write (map_store cfg dflt) (map_improve cfg dflt).
Proof. exact @map_code. Qed.
Print Assumptions C80_sequence_map_code.

Example C80_map_example :
  let le := fun a b : option Z => match a, b with Some x, Some y => (x <=? y)%Z | None, Some _ => false | _, None => true end in
  let s := map_store bit_cfg None 7 (Some 5%Z) (ma_new bit_cfg None) in
  map_improve bit_cfg None le 7 (Some 6%Z) s = None /\
  match map_improve bit_cfg None le 7 (Some 4%Z) s with Some t => ma_direct None 7 t = Some 4%Z | None => False end /\
  match map_improve bit_cfg None le 400 (Some 4%Z) s with Some t => ma_direct None 400 t = Some 4%Z | None => False end.
Proof. vm_compute. auto. Qed.

(** C81. Dijkstra: the direct accesses do not fail, and only the documented errors are raised. Known distances are not combined with is_tree (see C78). *)
Theorem C81_dijkstra_no_internal_error :
  forall {V I L : Type} (vid : V -> I) (WT : Weights) (DM : DMap I (w_t WT) (w_inf WT)) (PM : PMap I V) (LM : PMap I L) (R : map_range DM)
    (next : V -> list (V * w_t WT * L)) (cfg : dij_cfg) (starts : list V) (known : option (dm_t DM)),
  known = None \/ DijkstraModel.dc_is_tree cfg = false ->
  forall lim n,
  dij_run_direct vid WT DM PM LM R next cfg starts known lim n = dij_run vid WT DM PM LM next cfg starts known lim n /\
  forall os x s, dij_run vid WT DM PM LM next cfg starts known lim n = (os, Raised x s) -> x = RuntimeErrorLimit \/ x = OverflowErrorDistance.
Proof.
  intros V I L vid WT DM PM LM R next cfg starts known Hk lim n.
  exact (conj (dij_direct vid WT DM PM LM R next cfg starts known lim n Hk) (dij_errors vid WT DM PM LM next cfg starts known lim n)).
Qed.
Print Assumptions C81_dijkstra_no_internal_error.

(** C81. A*. *)
Theorem C81_a_star_no_internal_error :
  forall {V I L : Type} (vid : V -> I) (WT : Weights) (DM : DMap I (w_t WT) (w_inf WT)) (PM : PMap I V) (LM : PMap I L) (R : map_range DM)
    (next : V -> list (V * w_t WT * L)) (cfg : ast_cfg) (heuristic : V -> w_t WT) (starts : list V) (known_distances known_guesses : option (dm_t DM)),
  known_guesses = None \/ ac_is_tree cfg = false ->
  forall lim n,
  ast_run_direct vid WT DM PM LM R next cfg heuristic starts known_distances known_guesses lim n =
    ast_run vid WT DM PM LM next cfg heuristic starts known_distances known_guesses lim n /\
  forall os x s, ast_run vid WT DM PM LM next cfg heuristic starts known_distances known_guesses lim n = (os, Raised x s) ->
    x = RuntimeErrorLimit \/ x = OverflowErrorDistance.
Proof.
  intros V I L vid WT DM PM LM R next cfg heuristic starts kd kg Hk lim n.
  exact (conj (ast_direct vid WT DM PM LM R next cfg heuristic starts kd kg lim n Hk) (ast_errors vid WT DM PM LM next cfg heuristic starts kd kg lim n)).
Qed.
Print Assumptions C81_a_star_no_internal_error.

(** C81. BSearchShortestPath (its loop; before the loop, no collection is accessed directly). *)
Theorem C81_bsearch_shortest_path_no_internal_error :
  forall {V I L : Type} (V_dec : forall a b : V, {a = b} + {a <> b}) (vid : V -> I) (WT : Weights) (DM : DMap I (w_t WT) (w_inf WT)) (PM : PMap I V) (LM : PMap I L)
    (R : map_range DM) (next_f next_b : V -> list (V * w_t WT * L)) (labeled build_path fail_silently : bool) (first : V) (starts goals : list V) lim n,
  let run_ := run (b2_step V_dec vid WT DM PM LM next_f next_b labeled build_path fail_silently) n (b2_init vid WT DM PM LM build_path first starts goals lim) in
  b2_loop_direct vid WT DM PM LM R V_dec next_f next_b labeled build_path fail_silently first starts goals lim n = run_ /\
  forall os x s, run_ = (os, Raised x s) -> x = RuntimeErrorLimit \/ x = OverflowErrorDistance \/ x = KeyErrorNotFound /\ fail_silently = false.
Proof.
  intros V I L V_dec vid WT DM PM LM R next_f next_b labeled build_path fail_silently first starts goals lim n.
  exact (conj (b2_direct vid WT DM PM LM R V_dec next_f next_b labeled build_path fail_silently first starts goals lim n)
              (b2_errors vid V_dec WT DM PM LM next_f next_b labeled build_path fail_silently _ n)).
Qed.
Print Assumptions C81_bsearch_shortest_path_no_internal_error.

(** C81. Topological sort, one start vertex, no preloaded vertices (other cases: C82). *)
Theorem C81_topological_sort_no_internal_error :
  forall {V I L : Type} (vid : V -> I) (VS : VSet I) (PM : PMap I V) (LM : PMap I L) (R : set_range VS) (next : V -> list (V * L)) (cfg : topo_cfg) (starts : list V),
  length starts <= 1 ->
  forall lim n,
  topo_run_direct vid VS PM LM R next cfg starts None lim n = topo_run vid VS PM LM next cfg starts None lim n /\
  forall os x s, topo_run vid VS PM LM next cfg starts None lim n = (os, Raised x s) -> x = RuntimeErrorLimit \/ x = RuntimeErrorCycle /\ tc_is_tree cfg = false.
Proof.
  intros V I L vid VS PM LM R next cfg starts Hl lim n.
  exact (conj (topo_direct vid VS PM LM R next cfg starts lim n Hl) (topo_errors vid VS PM LM next cfg starts None lim n)).
Qed.
Print Assumptions C81_topological_sort_no_internal_error.

(** C81. Depth-first search, all options that start_from accepts; preloaded vertices are not combined with event BACK_EDGE (see C82). *)
Theorem C81_dfs_no_internal_error :
  forall {V I L : Type} (V_dec : forall a b : V, {a = b} + {a <> b}) (vid : V -> I) (VS : VSet I) (PM : PMap I V) (LM : PMap I L) (XM : DMap I Z 0%Z)
    (R : set_range VS) (RX : map_range XM) (next : V -> list (V * L)) (starts : list V) (o cfg : dfs_cfg) (skip : nat -> bool) (av : option (vs_t VS)),
  dfs_options o (match av with Some _ => true | None => false end) = inl cfg ->
  av = None \/ dc_report cfg BACK_EDGE = false ->
  forall lim n,
  dfs_run_direct V_dec vid VS PM LM R XM RX next cfg skip starts av lim n = dfs_run V_dec vid VS PM LM XM next cfg skip starts av lim n /\
  forall os x s, dfs_run V_dec vid VS PM LM XM next cfg skip starts av lim n = (os, Raised x s) -> x = RuntimeErrorLimit.
Proof.
  intros V I L V_dec vid VS PM LM XM R RX next starts o cfg skip av Ho Ha lim n.
  exact (conj (dfs_direct V_dec vid VS PM LM R next XM RX cfg skip av (dfs_options_ok o _ cfg Ho) Ha starts lim n)
              (fun os x s HR => proj1 (dfs_any V_dec vid VS PM LM XM next starts cfg skip av (dfs_options_ok o _ cfg Ho) lim n os (Raised x s) HR))).
Qed.
Print Assumptions C81_dfs_no_internal_error.

(** The ranges of the gears: sets and dicts, bytes, bits, lists of distances. *)
Example C81_ranges :
  (exists R : set_range hVS, forall i s, sr_read R i s = true) /\
  (exists R : set_range (ByteVSet bit_cfg bit_cfg_ok), forall i s, sr_read R i s = match byte_read i s with Some _ => true | None => false end) /\
  (exists R : set_range bVS, forall i s, sr_read R i s = match bit_read i s with Some _ => true | None => false end) /\
  (exists R : map_range (SeqDMap list_cfg list_cfg_ok (w_inf ZI)), forall i s, mr_in R i s = match map_read i s with Some _ => true | None => false end).
Proof.
  split; [exists (hash_set_range Nat.eq_dec); reflexivity|]. split; [|split].
  - exists (byte_range bit_cfg bit_cfg_ok). intros i s. rewrite byte_read_spec. cbn [byte_range seq_map_range sr_read mr_in]. now destruct (i <? length s).
  - exists (bit_range bit_cfg bit_cfg_ok). intros i s. rewrite bit_read_spec. cbn [bit_range sr_read]. now destruct (i / 8 <? length s).
  - exists (seq_map_range list_cfg list_cfg_ok (w_inf ZI)). intros i s. rewrite (map_read_spec (w_inf ZI)). cbn [byte_range seq_map_range sr_read mr_in]. now destruct (i <? length s).
Qed.

(** A start vertex beyond the end of the sequence, and a wide range of ids. *)
Example C81_example :
  let next v := match v with 3000 => [(0, Some 4%Z, 1); (4500, Some 1%Z, 2)] | 4500 => [(0, Some 2%Z, 3)] | _ => [] end in
  let run_ := dij_run_direct id_nat ZI (SeqDMap bit_cfg bit_cfg_ok (w_inf ZI)) hPM hPM (seq_map_range bit_cfg bit_cfg_ok (w_inf ZI)) next
      {| DijkstraModel.dc_is_tree := false; DijkstraModel.dc_build_paths := true; DijkstraModel.dc_labeled := true; dc_keep_distances := false |} [3000] None None 20 in
  map (fun r => (dr_vertex r, dr_distance r)) (fst run_) = [(4500, Some 1%Z); (0, Some 3%Z)] /\ match snd run_ with Ended _ => True | _ => False end.
Proof. vm_compute. auto. Qed.

(** C82. Topological sort with two start vertices, 5000 and 0, and an edge from 0 to 5000: with a gear with bits or bytes, the traversal raises an internal error. With a gear with
    sets, it reports the vertices. *)
Theorem C82_topological_sort_start_vertices_refuted :
  exists (next : nat -> list (nat * nat)) (starts : list nat) (n : nat),
  match topo_run_direct id_nat bVS hPM hPM (bit_range bit_cfg bit_cfg_ok) next topo_default starts None None n with
  | (os, Raised AssertionModel _) => map tr_vertex os = []
  | _ => False
  end /\
  match topo_run_direct id_nat (ByteVSet bit_cfg bit_cfg_ok) hPM hPM (byte_range bit_cfg bit_cfg_ok) next topo_default starts None None n with
  | (os, Raised AssertionModel _) => map tr_vertex os = []
  | _ => False
  end /\
  match topo_run_direct id_nat hVS hPM hPM (hash_set_range Nat.eq_dec) next topo_default starts None None n with
  | (os, Ended _) => map tr_vertex os = [0; 5000]
  | _ => False
  end.
Proof. exists (fun v => match v with 0 => [(5000, 1)] | _ => [] end), [5000; 0], 20. vm_compute. auto. Qed.
Print Assumptions C82_topological_sort_start_vertices_refuted.

(** C82. Depth-first search with reports of back edges, with vertex 5000 preloaded as already visited, and an edge from 0 to 5000. *)
Theorem C82_dfs_already_visited_refuted :
  exists (next : nat -> list (nat * nat)) (starts : list nat) (o cfg : dfs_cfg) (preloaded : nat) (n : nat),
  dfs_options o true = inl cfg /\
  match dfs_run_direct Nat.eq_dec id_nat bVS hPM hPM (bit_range bit_cfg bit_cfg_ok) hXM (hash_map_range Nat.eq_dec 0%Z) next cfg (fun _ => false) starts
          (Some (vs_add bVS preloaded (vs_empty bVS))) None n with
  | (os, Raised AssertionModel _) => map fr_vertex os = [0]
  | _ => False
  end /\
  match dfs_run_direct Nat.eq_dec id_nat hVS hPM hPM (hash_set_range Nat.eq_dec) hXM (hash_map_range Nat.eq_dec 0%Z) next cfg (fun _ => false) starts
          (Some (vs_add hVS preloaded (vs_empty hVS))) None n with
  | (os, Ended _) => map fr_vertex os = [0; 1]
  | _ => False
  end.
Proof.
  exists (fun v => match v with 0 => [(1, 1); (5000, 1)] | _ => [] end), [0], (dfs_ask DFS_TREE [ENTERING_START; ENTERING_SUCCESSOR; BACK_EDGE] false true). eexists. exists 5000, 20.
  split; [reflexivity|]. vm_compute. auto.
Qed.
Print Assumptions C82_dfs_already_visited_refuted.
