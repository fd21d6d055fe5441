(** Model of [TraversalShortestPathsFlex]
    (src/nographs/_strategies/traversals/with_weights/shortest_paths.py). *)
From Coq Require Import List ZArith Bool Arith.
From Verif Require Import Machine GearSpec Common Weight HeapModel.
Import ListNotations.

(** utils.py:132-152 ([define_distances]): distances at the start of the traversal. [setdefault] assigns
    to keys without value; simplification: a key is regarded as without value iff the mapping gives the
    default value (infinity) for it. *)
Definition dm_setdefault {I W} {dflt : W} (W_eqb : W -> W -> bool) (DM : DMap I W dflt)
    (m : dm_t DM) (i : I) (w : W) : dm_t DM :=
  if W_eqb (dm_get DM i m) dflt then dm_set DM i w m else m.

Definition w_eqb (WT : Weights) (a b : w_t WT) : bool := w_leb WT a b && w_leb WT b a.

Definition define_distances {I} (WT : Weights) (DM : DMap I (w_t WT) (w_inf WT))
    (known : option (dm_t DM)) (starts : list (I * w_t WT)) (is_tree : bool) : dm_t DM :=
  match known with
  | None => fold_left (fun m p => dm_set DM (fst p) (snd p) m) starts (dm_empty DM)
  | Some m0 => if is_tree then m0
               else fold_left (fun m p => dm_setdefault (w_eqb WT) DM m (fst p) (snd p)) starts m0
  end.

(** Options of the constructor and of [start_from], shortest_paths.py:77-133. *)
Record dij_cfg := {
  dc_is_tree : bool;
  dc_build_paths : bool;
  dc_labeled : bool;
  dc_keep_distances : bool
}.

Section Dijkstra.
Context {V I L : Type}.
Variable vid : V -> I.
Variable WT : Weights.
Notation W := (w_t WT).
Variable DM : DMap I W (w_inf WT).     (* gear.vertex_id_to_distance_mapping *)
Variable PM : PMap I V.
Variable LM : PMap I L.
(** The neighbor function: out-edges as (end vertex, weight, labels). *)
Variable next : V -> list (V * W * L).
Variable cfg : dij_cfg.

(** Position in the loops, shortest_paths.py:276-372: at the begin of the while loop or in the for loop
    over the edges of [v], with [path_weight], [path_edge_count] and the edges not yet processed. *)
Inductive dij_pc :=
| DLoop
| DEdges (v : V) (path_weight : W) (path_edge_count : nat) (rest : list (V * W * L)).

(** [d_calls] records the calls of the neighbor function, most recent first: vertex and the values of
    [distance] and [depth] at the call. *)
Record dij_state := {
  d_pc : dij_pc;
  d_heap : list (@entry (V * nat) WT);    (* to_visit *)
  d_no : Z;                                (* next unique number *)
  d_distances : dm_t DM;
  d_pred : pm_t PM;
  d_labels : pm_t LM;
  d_distance : W;
  d_depth : nat;
  d_limit : option Z;
  d_calls : list (V * W * nat)
}.

(** What the user sees when a vertex is reported. *)
Record dij_report := {
  dr_vertex : V;
  dr_distance : W;
  dr_depth : nat;
  dr_distances : dm_t DM;
  dr_pred : pm_t PM;
  dr_labels : pm_t LM
}.

Definition dij_observe (v : V) (s : dij_state) : dij_report :=
  {| dr_vertex := v; dr_distance := d_distance s; dr_depth := d_depth s;
     dr_distances := d_distances s; dr_pred := d_pred s; dr_labels := d_labels s |}.

(** shortest_paths.py:263-271: the list of start entries; numbers count down from 256 *)
Fixpoint start_entries (no : Z) (dist : dm_t DM) (starts : list V) : list (@entry (V * nat) WT) :=
  match starts with
  | [] => []
  | v :: r => (dm_get DM (vid v) dist, no, (v, 0)) :: start_entries (no - 1) dist r
  end.

(** shortest_paths.py:181-205, 223-272 *)
Definition dij_init (starts : list V) (known : option (dm_t DM)) (calculation_limit : option Z) : dij_state :=
  let dist := define_distances WT DM known (map (fun v => (vid v, w_zero WT)) starts) (dc_is_tree cfg) in
  {| d_pc := DLoop;
     d_heap := heapify WT (start_entries 256 dist starts);
     d_no := 256 - Z.of_nat (length starts);
     d_distances := dist;
     d_pred := create_predecessors vid PM (dc_build_paths cfg) starts;
     d_labels := pm_empty LM;
     d_distance := w_inf WT; d_depth := 0;
     d_limit := limit_init calculation_limit;
     d_calls := [] |}.

Definition d_set_pc (s : dij_state) (pc : dij_pc) : dij_state :=
  {| d_pc := pc; d_heap := d_heap s; d_no := d_no s; d_distances := d_distances s; d_pred := d_pred s;
     d_labels := d_labels s; d_distance := d_distance s; d_depth := d_depth s;
     d_limit := d_limit s; d_calls := d_calls s |}.

(** shortest_paths.py:278: the heap without its minimum *)
Definition d_set_heap (s : dij_state) (h : list (@entry (V * nat) WT)) : dij_state :=
  {| d_pc := d_pc s; d_heap := h; d_no := d_no s; d_distances := d_distances s; d_pred := d_pred s;
     d_labels := d_labels s; d_distance := d_distance s; d_depth := d_depth s;
     d_limit := d_limit s; d_calls := d_calls s |}.

(** shortest_paths.py:293-304: a vertex is settled: drop its distance, set the attributes *)
Definition dij_settle (s : dij_state) (v : V) (w : W) (k : nat) : dij_state :=
  {| d_pc := d_pc s; d_heap := d_heap s; d_no := d_no s;
     d_distances := if dc_is_tree cfg || dc_keep_distances cfg then d_distances s
                    else dm_set DM (vid v) (w_zero WT) (d_distances s);
     d_pred := d_pred s; d_labels := d_labels s; d_distance := w; d_depth := k;
     d_limit := d_limit s; d_calls := d_calls s |}.

(** shortest_paths.py:310-315: limit check passed, the neighbor function is called *)
Definition dij_expand (s : dij_state) (v : V) (w : W) (k : nat) (lim : option Z) : dij_state :=
  {| d_pc := DEdges v w k (next v); d_heap := d_heap s; d_no := d_no s;
     d_distances := d_distances s; d_pred := d_pred s; d_labels := d_labels s;
     d_distance := d_distance s; d_depth := d_depth s;
     d_limit := lim; d_calls := (v, w, k) :: d_calls s |}.

(** shortest_paths.py:335-372: a better path to neighbor [n] has been found *)
Definition dij_relax (s : dij_state) (v : V) (w : W) (k : nat) (n : V) (nw : W) (l : L)
    (rest : list (V * W * L)) : dij_state :=
  {| d_pc := DEdges v w k rest;
     d_heap := heappush WT (nw, d_no s, (n, S k)) (d_heap s);
     d_no := d_no s - 1;
     d_distances := if dc_is_tree cfg then d_distances s else dm_set DM (vid n) nw (d_distances s);
     d_pred := if dc_build_paths cfg then pm_set PM (vid n) v (d_pred s) else d_pred s;
     d_labels := if dc_build_paths cfg && dc_labeled cfg then pm_set LM (vid n) l (d_labels s)
                 else d_labels s;
     d_distance := d_distance s; d_depth := d_depth s;
     d_limit := d_limit s; d_calls := d_calls s |}.

(** One pass, shortest_paths.py:276-372. *)
Definition dij_step (s : dij_state) : step_result dij_state dij_report exn :=
  match d_pc s with
  | DLoop =>
      match d_heap s with
      | [] => Halt [] s
      | ((w, _), (v, k)) :: h =>
          if negb (dc_is_tree cfg) && w_ltb WT (dm_get DM (vid v) (d_distances s)) w   (* lines 283-292 *)
          then Go [] (d_set_heap s h)
          else
            let s1 := dij_settle (d_set_heap s h) v w k in
            let out := if 0 <? k then [dij_observe v s1] else [] in            (* lines 307-308 *)
            match limit_check (d_limit s1) with                                        (* lines 310-311 *)
            | None => Raise out RuntimeErrorLimit s1
            | Some lim => Go out (dij_expand s1 v w k lim)
            end
      end
  | DEdges v w k [] => Go [] (d_set_pc s DLoop)
  | DEdges v w k ((n, ew, l) :: rest) =>
      let nw := w_add WT ew w in                                                       (* line 318 *)
      if w_leb WT (w_inf WT) nw then Raise [] OverflowErrorDistance s                  (* lines 321-322 *)
      else if negb (dc_is_tree cfg) && w_leb WT (dm_get DM (vid n) (d_distances s)) nw   (* lines 337-338 *)
           then Go [] (d_set_pc s (DEdges v w k rest))
           else Go [] (dij_relax s v w k n nw l rest)
  end.
End Dijkstra.

Arguments d_pc {V I L WT DM PM LM}. Arguments d_heap {V I L WT DM PM LM}.
Arguments d_no {V I L WT DM PM LM}. Arguments d_distances {V I L WT DM PM LM}.
Arguments d_pred {V I L WT DM PM LM}. Arguments d_labels {V I L WT DM PM LM}.
Arguments d_distance {V I L WT DM PM LM}. Arguments d_depth {V I L WT DM PM LM}.
Arguments d_limit {V I L WT DM PM LM}. Arguments d_calls {V I L WT DM PM LM}.
Arguments dr_vertex {V I L WT DM PM LM}. Arguments dr_distance {V I L WT DM PM LM}.
Arguments dr_depth {V I L WT DM PM LM}. Arguments dr_distances {V I L WT DM PM LM}.
Arguments dr_pred {V I L WT DM PM LM}. Arguments dr_labels {V I L WT DM PM LM}.

(** [n] passes of a started traversal. *)
Definition dij_run {V I L} (vid : V -> I) (WT : Weights) (DM : DMap I (w_t WT) (w_inf WT))
    (PM : PMap I V) (LM : PMap I L) (next : V -> list (V * w_t WT * L)) (cfg : dij_cfg)
    (starts : list V) (known : option (dm_t DM)) (calculation_limit : option Z) (n : nat)
  : list (@dij_report V I L WT DM PM LM) * outcome (@dij_state V I L WT DM PM LM) exn :=
  run (dij_step vid WT DM PM LM next cfg) n
      (dij_init vid WT DM PM LM cfg starts known calculation_limit).

Definition dij_ids {V I L} (vid : V -> I) {WT : Weights} {DM : DMap I (w_t WT) (w_inf WT)}
    {PM : PMap I V} {LM : PMap I L} (os : list (@dij_report V I L WT DM PM LM)) : list I :=
  map (fun rep => vid (dr_vertex rep)) os.
