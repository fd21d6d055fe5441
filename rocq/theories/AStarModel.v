(** Model of [TraversalAStarFlex]
    (src/nographs/_strategies/traversals/with_weights/a_star.py). *)
From Coq Require Import List ZArith Bool Arith.
From Verif Require Import Machine GearSpec Common Weight HeapModel DijkstraModel.
Import ListNotations.

(** Options of the constructor and of [start_from], a_star.py:103-160. *)
Record ast_cfg := {
  ac_is_tree : bool;
  ac_build_paths : bool;
  ac_labeled : bool
}.

Section AStar.
Context {V I L : Type}.
Variable vid : V -> I.
Variable WT : Weights.
Notation W := (w_t WT).
Variable DM : DMap I W (w_inf WT).     (* gear.vertex_id_to_distance_mapping *)
Variable PM : PMap I V.
Variable LM : PMap I L.
(** The neighbor function: out-edges as (end vertex, weight, labels). *)
Variable next : V -> list (V * W * L).
Variable cfg : ast_cfg.
(** Parameter [heuristic] of [start_from]. *)
Variable heuristic : V -> W.

(** Position in the loops, a_star.py:333-435: at the begin of the while loop or in the for loop over
    the edges of [v], with [path_weight], [path_edge_count] and the edges not yet processed. *)
Inductive ast_pc :=
| ALoop
| AEdges (v : V) (path_weight : W) (path_edge_count : nat) (rest : list (V * W * L)).

(** [a_calls] records the calls of the neighbor function, most recent first: vertex and the values of
    [path_length] and [depth] at the call. *)
Record ast_state := {
  a_pc : ast_pc;
  a_heap : list (@entry (V * nat) WT);    (* to_visit *)
  a_no : Z;                                (* next unique number *)
  a_distances : dm_t DM;
  a_guesses : dm_t DM;                     (* path_length_guesses *)
  a_pred : pm_t PM;
  a_labels : pm_t LM;
  a_path_length : W;
  a_depth : nat;
  a_limit : option Z;
  a_calls : list (V * W * nat)
}.

(** What the user sees when a vertex is reported. *)
Record ast_report := {
  ar_vertex : V;
  ar_path_length : W;
  ar_depth : nat;
  ar_distances : dm_t DM;
  ar_pred : pm_t PM;
  ar_labels : pm_t LM
}.

Definition ast_observe (v : V) (s : ast_state) : ast_report :=
  {| ar_vertex := v; ar_path_length := a_path_length s; ar_depth := a_depth s;
     ar_distances := a_distances s; ar_pred := a_pred s; ar_labels := a_labels s |}.

(** a_star.py:318-328: the list of start entries; numbers count down from 256 *)
Fixpoint ast_start_entries (no : Z) (guesses : dm_t DM) (starts : list V) : list (@entry (V * nat) WT) :=
  match starts with
  | [] => []
  | v :: r => (dm_get DM (vid v) guesses, no, (v, 0)) :: ast_start_entries (no - 1) guesses r
  end.

(** a_star.py:213-241 ([start_from]) and 259-329 (begin of [_traverse]). The start guess is
    [distances[vertex_id] + heuristic(vertex)]. *)
Definition ast_init (starts : list V) (known_distances known_guesses : option (dm_t DM))
    (calculation_limit : option Z) : ast_state :=
  let dist := define_distances WT DM known_distances (map (fun v => (vid v, w_zero WT)) starts) false in
  let guesses := define_distances WT DM known_guesses
      (map (fun v => (vid v, w_add WT (dm_get DM (vid v) dist) (heuristic v))) starts) (ac_is_tree cfg) in
  {| a_pc := ALoop;
     a_heap := heapify WT (ast_start_entries 256 guesses starts);
     a_no := 256 - Z.of_nat (length starts);
     a_distances := dist;
     a_guesses := guesses;
     a_pred := create_predecessors vid PM (ac_build_paths cfg) starts;
     a_labels := pm_empty LM;
     a_path_length := w_inf WT; a_depth := 0;
     a_limit := limit_init calculation_limit;
     a_calls := [] |}.

Definition a_set_pc (s : ast_state) (pc : ast_pc) : ast_state :=
  {| a_pc := pc; a_heap := a_heap s; a_no := a_no s; a_distances := a_distances s; a_guesses := a_guesses s;
     a_pred := a_pred s; a_labels := a_labels s; a_path_length := a_path_length s; a_depth := a_depth s;
     a_limit := a_limit s; a_calls := a_calls s |}.

(** a_star.py:335: the heap without its minimum *)
Definition a_set_heap (s : ast_state) (h : list (@entry (V * nat) WT)) : ast_state :=
  {| a_pc := a_pc s; a_heap := h; a_no := a_no s; a_distances := a_distances s; a_guesses := a_guesses s;
     a_pred := a_pred s; a_labels := a_labels s; a_path_length := a_path_length s; a_depth := a_depth s;
     a_limit := a_limit s; a_calls := a_calls s |}.

(** a_star.py:355-359: path_weight is read from the distances and exported *)
Definition ast_export (s : ast_state) (v : V) (k : nat) : ast_state :=
  {| a_pc := a_pc s; a_heap := a_heap s; a_no := a_no s; a_distances := a_distances s; a_guesses := a_guesses s;
     a_pred := a_pred s; a_labels := a_labels s;
     a_path_length := dm_get DM (vid v) (a_distances s); a_depth := k;
     a_limit := a_limit s; a_calls := a_calls s |}.

(** a_star.py:365-370: limit check passed, the neighbor function is called *)
Definition ast_expand (s : ast_state) (v : V) (w : W) (k : nat) (lim : option Z) : ast_state :=
  {| a_pc := AEdges v w k (next v); a_heap := a_heap s; a_no := a_no s;
     a_distances := a_distances s; a_guesses := a_guesses s; a_pred := a_pred s; a_labels := a_labels s;
     a_path_length := a_path_length s; a_depth := a_depth s;
     a_limit := lim; a_calls := (v, w, k) :: a_calls s |}.

(** a_star.py:392-415: a shorter path to neighbor [n] is stored *)
Definition ast_store (s : ast_state) (v : V) (n : V) (nw : W) (l : L) : ast_state :=
  {| a_pc := a_pc s; a_heap := a_heap s; a_no := a_no s;
     a_distances := dm_set DM (vid n) nw (a_distances s);
     a_guesses := a_guesses s;
     a_pred := if ac_build_paths cfg then pm_set PM (vid n) v (a_pred s) else a_pred s;
     a_labels := if ac_build_paths cfg && ac_labeled cfg then pm_set LM (vid n) l (a_labels s)
                 else a_labels s;
     a_path_length := a_path_length s; a_depth := a_depth s;
     a_limit := a_limit s; a_calls := a_calls s |}.

(** a_star.py:427-435: the guess is stored and the neighbor is pushed *)
Definition ast_push (s : ast_state) (v : V) (w : W) (k : nat) (n : V) (guess : W)
    (rest : list (V * W * L)) : ast_state :=
  {| a_pc := AEdges v w k rest;
     a_heap := heappush WT (guess, a_no s, (n, S k)) (a_heap s);
     a_no := a_no s - 1;
     a_distances := a_distances s;
     a_guesses := if ac_is_tree cfg then a_guesses s else dm_set DM (vid n) guess (a_guesses s);
     a_pred := a_pred s; a_labels := a_labels s;
     a_path_length := a_path_length s; a_depth := a_depth s;
     a_limit := a_limit s; a_calls := a_calls s |}.

(** One pass, a_star.py:333-435. *)
Definition ast_step (s : ast_state) : step_result ast_state ast_report exn :=
  match a_pc s with
  | ALoop =>
      match a_heap s with
      | [] => Halt [] s
      | ((g, _), (v, k)) :: hp =>
          if negb (ac_is_tree cfg) && w_ltb WT (dm_get DM (vid v) (a_guesses s)) g     (* lines 351-352 *)
          then Go [] (a_set_heap s hp)
          else
            let s1 := ast_export (a_set_heap s hp) v k in
            let out := if 0 <? k then [ast_observe v s1] else [] in                    (* lines 362-363 *)
            match limit_check (a_limit s1) with                                        (* lines 365-366 *)
            | None => Raise out RuntimeErrorLimit s1
            | Some lim => Go out (ast_expand s1 v (a_path_length s1) k lim)
            end
      end
  | AEdges v w k [] => Go [] (a_set_pc s ALoop)
  | AEdges v w k ((n, ew, l) :: rest) =>
      let nw := w_add WT ew w in                                                       (* line 373 *)
      if w_leb WT (w_inf WT) nw then Raise [] OverflowErrorDistance s                  (* lines 376-377 *)
      else if negb (ac_is_tree cfg) && w_leb WT (dm_get DM (vid n) (a_distances s)) nw   (* lines 390-391 *)
           then Go [] (a_set_pc s (AEdges v w k rest))
           else
             let s1 := ast_store s v n nw l in
             let h := heuristic n in                                                   (* line 417 *)
             if w_eqb WT h (w_inf WT)                                                  (* lines 418-419 *)
             then Go [] (ast_push s1 v w k n (w_inf WT) rest)
             else
               let guess := w_add WT nw h in                                           (* line 421 *)
               if w_leb WT (w_inf WT) guess then Raise [] OverflowErrorDistance s1     (* lines 424-425 *)
               else Go [] (ast_push s1 v w k n guess rest)
  end.
End AStar.

Arguments a_pc {V I L WT DM PM LM}. Arguments a_heap {V I L WT DM PM LM}.
Arguments a_no {V I L WT DM PM LM}. Arguments a_distances {V I L WT DM PM LM}.
Arguments a_guesses {V I L WT DM PM LM}.
Arguments a_pred {V I L WT DM PM LM}. Arguments a_labels {V I L WT DM PM LM}.
Arguments a_path_length {V I L WT DM PM LM}. Arguments a_depth {V I L WT DM PM LM}.
Arguments a_limit {V I L WT DM PM LM}. Arguments a_calls {V I L WT DM PM LM}.
Arguments ar_vertex {V I L WT DM PM LM}. Arguments ar_path_length {V I L WT DM PM LM}.
Arguments ar_depth {V I L WT DM PM LM}. Arguments ar_distances {V I L WT DM PM LM}.
Arguments ar_pred {V I L WT DM PM LM}. Arguments ar_labels {V I L WT DM PM LM}.

(** [n] passes of a started traversal. *)
Definition ast_run {V I L} (vid : V -> I) (WT : Weights) (DM : DMap I (w_t WT) (w_inf WT))
    (PM : PMap I V) (LM : PMap I L) (next : V -> list (V * w_t WT * L)) (cfg : ast_cfg)
    (heuristic : V -> w_t WT) (starts : list V) (known_distances known_guesses : option (dm_t DM))
    (calculation_limit : option Z) (n : nat)
  : list (@ast_report V I L WT DM PM LM) * outcome (@ast_state V I L WT DM PM LM) exn :=
  run (ast_step vid WT DM PM LM next cfg heuristic) n
      (ast_init vid WT DM PM LM cfg heuristic starts known_distances known_guesses calculation_limit).

Definition ast_ids {V I L} (vid : V -> I) {WT : Weights} {DM : DMap I (w_t WT) (w_inf WT)}
    {PM : PMap I V} {LM : PMap I L} (os : list (@ast_report V I L WT DM PM LM)) : list I :=
  map (fun rep => vid (ar_vertex rep)) os.
