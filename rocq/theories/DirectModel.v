(** Direct access of the strategies to collections, without handling of IndexError by extending the sequence.  The models of the strategies read and write collections by [vs_mem], [dm_get],
    etc.  Here, they are run with a check: if an access of this kind is outside of the sequence, IndexError resp. the "Internal error" AssertionError is raised. *)
From Coq Require Import List ZArith NArith Bool Arith Lia.
From Verif Require Import Machine GearSpec GearModel GearProofs Common Weight HeapModel DijkstraModel AStarModel BiSPModel DFSModel TopoModel.
Import ListNotations.

(** [sr_read]: reading the entry of an id does not raise. [sr_clear]: the code that removes an id without testing whether it is in the set (InlineModel.v: [byte_clear], [bit_clear]) does not
    raise and removes just this id. *)
Record set_range {I} (VS : VSet I) := {
  sr_read : I -> vs_t VS -> bool;
  sr_clear : I -> vs_t VS -> bool;
  sr_add_same : forall i s, sr_read i (vs_add VS i s) = true;
  sr_add_other : forall i j s, sr_read i s = true -> sr_read i (vs_add VS j s) = true;
  sr_discard : forall i j s, sr_read i s = true -> sr_read i (vs_discard VS j s) = true;
  sr_mem : forall i s, vs_mem VS i s = true -> sr_clear i s = true
}.
Arguments sr_read {I VS}. Arguments sr_clear {I VS}.

(** [mr_in]: access to the entry of a key does not raise. *)
Record map_range {I W} {dflt : W} (DM : DMap I W dflt) := {
  mr_in : I -> dm_t DM -> bool;
  mr_set_same : forall i w m, mr_in i (dm_set DM i w m) = true;
  mr_set_other : forall i j w m, mr_in i m = true -> mr_in i (dm_set DM j w m) = true;
  mr_out : forall i m, mr_in i m = false -> dm_get DM i m = dflt
}.
Arguments mr_in {I W dflt DM}.

(** Run a step only if its accesses are inside. *)
Definition guarded {S O} (inside : S -> bool) (x : exn) (step : S -> step_result S O exn) (s : S) : step_result S O exn :=
  if inside s then step s else Raise [] x s.

Section Dijkstra.
Context {V I L : Type}.
Variable vid : V -> I.
Variable WT : Weights.
Variable DM : DMap I (w_t WT) (w_inf WT).
Variable PM : PMap I V.
Variable LM : PMap I L.
Variable R : map_range DM.

(** shortest_paths.py:291 and 300 (without is_tree) *)
Definition dij_inside (cfg : dij_cfg) (s : @dij_state V I L WT DM PM LM) : bool :=
  match d_pc s, d_heap s with
  | DLoop _, (_, (v, _)) :: _ => DijkstraModel.dc_is_tree cfg || mr_in R (vid v) (d_distances s)
  | _, _ => true
  end.

(** shortest_paths.py:265 and the loop *)
Definition dij_run_direct (next : V -> list (V * w_t WT * L)) (cfg : dij_cfg) (starts : list V) (known : option (dm_t DM)) (limit : option Z) (n : nat) :=
  let s0 := dij_init vid WT DM PM LM cfg starts known limit in
  if forallb (fun v => mr_in R (vid v) (d_distances s0)) starts
  then run (guarded (dij_inside cfg) IndexErrorModel (dij_step vid WT DM PM LM next cfg)) n s0
  else ([], Raised IndexErrorModel s0).

(** a_star.py:351 (without is_tree) and 355 *)
Definition ast_inside (cfg : ast_cfg) (s : @ast_state V I L WT DM PM LM) : bool :=
  match a_pc s, a_heap s with
  | ALoop _, (_, (v, _)) :: _ => (ac_is_tree cfg || mr_in R (vid v) (a_guesses s)) && mr_in R (vid v) (a_distances s)
  | _, _ => true
  end.

(** a_star.py:305, 320 and the loop *)
Definition ast_run_direct (next : V -> list (V * w_t WT * L)) (cfg : ast_cfg) (heuristic : V -> w_t WT) (starts : list V) (known_distances known_guesses : option (dm_t DM))
    (limit : option Z) (n : nat) :=
  let s0 := ast_init vid WT DM PM LM cfg heuristic starts known_distances known_guesses limit in
  if forallb (fun v => mr_in R (vid v) (a_distances s0) && mr_in R (vid v) (a_guesses s0)) starts
  then run (guarded (ast_inside cfg) IndexErrorModel (ast_step vid WT DM PM LM next cfg heuristic)) n s0
  else ([], Raised IndexErrorModel s0).

(** bidirectional_search/shortest_path.py:422 *)
Definition b2_inside (s : @b2_state V I L WT DM PM LM) : bool :=
  match b2_pc_of s, b2_heap (b2_current s) with
  | SLoop, (_, v) :: _ => mr_in R (vid v) (b2_dist (b2_current s))
  | _, _ => true
  end.

(** bidirectional_search/shortest_path.py:334-343 and the loop *)
Definition b2_loop_direct (V_dec : forall a b : V, {a = b} + {a <> b}) (next_f next_b : V -> list (V * w_t WT * L)) (labeled build_path fail_silently : bool)
    (first : V) (starts goals : list V) (limit : option Z) (n : nat) :=
  let s0 := b2_init vid WT DM PM LM build_path first starts goals limit in
  if forallb (fun v => mr_in R (vid v) (b2_dist (b2_current s0))) starts && forallb (fun v => mr_in R (vid v) (b2_dist (b2_other s0))) goals
  then run (guarded b2_inside IndexErrorModel (b2_step V_dec vid WT DM PM LM next_f next_b labeled build_path fail_silently)) n s0
  else ([], Raised IndexErrorModel s0).
End Dijkstra.

Section Sets.
Context {V I L : Type}.
Variable V_dec : forall a b : V, {a = b} + {a <> b}.
Variable vid : V -> I.
Variable VS : VSet I.
Variable PM : PMap I V.
Variable LM : PMap I L.
Variable R : set_range VS.

(** topological_sort.py:580-595, 602-617 *)
Definition topo_inside (cfg : topo_cfg) (s : @topo_state V I L VS PM LM) : bool :=
  match t_pc s with
  | TEdges _ ((n, _) :: _) => tc_is_tree cfg || negb (vs_mem VS (vid n) (t_visited s)) || sr_read R (vid n) (t_trace_set s)
  | _ => true
  end.

Definition topo_run_direct (next : V -> list (V * L)) (cfg : topo_cfg) (starts : list V) (already_visited : option (vs_t VS)) (limit : option Z) (n : nat) :=
  run (guarded (topo_inside cfg) AssertionModel (topo_step vid VS PM LM next cfg)) n (topo_init vid VS PM LM cfg starts already_visited limit).

Variable XM : DMap I Z 0%Z.
Variable RX : map_range XM.

(** depth_first.py:616-623 (leaving), 760-786 (back edge?), 797-800 (index) *)
Definition dfs_inside (cfg : dfs_cfg) (s : @dfs_state V I L VS PM LM XM) : bool :=
  let rep := dc_report cfg in
  match f_pc s, f_markers s with
  | FLoop _, true :: _ =>
      match f_trace s with
      | v :: _ => negb (dc_compute_on_trace cfg) || sr_clear R (vid v) (f_on_trace s)
      | [] => true
      end
  | FLoop _, false :: _ =>
      match f_to_visit s, f_trace s with
      | v :: _, p :: _ =>
          if negb (dc_is_tree cfg) && is_dfs_tree (dc_mode cfg) && vs_mem VS (vid v) (f_visited s) && negb (rep SOME_NON_TREE_EDGE) &&
             (rep FORWARD_EDGE || rep BACK_EDGE || rep CROSS_EDGE || rep FORWARD_OR_CROSS_EDGE)
          then (negb (rep BACK_EDGE) || sr_read R (vid v) (f_on_trace s)) &&
               (negb (rep FORWARD_EDGE || rep CROSS_EDGE) || (mr_in RX (vid v) (f_index s) && mr_in RX (vid p) (f_index s)))
          else true
      | _, _ => true
      end
  | _, _ => true
  end.

Definition dfs_run_direct (next : V -> list (V * L)) (cfg : dfs_cfg) (skip : nat -> bool) (starts : list V) (already_visited : option (vs_t VS)) (limit : option Z) (n : nat) :=
  run (guarded (dfs_inside cfg) AssertionModel (dfs_step V_dec vid VS PM LM XM next cfg skip)) n (dfs_init vid VS PM LM XM cfg starts already_visited limit).
End Sets.

(** The ranges of the collections.  Sets and dicts: no access raises. *)
Definition hash_set_range {I} (I_dec : forall a b : I, {a = b} + {a <> b}) : set_range (HashVSet I_dec).
Proof. refine {| sr_read := fun _ _ => true; sr_clear := fun _ _ => true |}; auto. Defined.
Definition hash_map_range {I W} (I_dec : forall a b : I, {a = b} + {a <> b}) (dflt : W) : map_range (HashDMap I_dec dflt).
Proof. refine {| mr_in := fun _ _ => true |}; auto. discriminate. Defined.
