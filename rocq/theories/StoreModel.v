(** Model of TraversalShortestPaths with a gear that keeps distances in an array of C floats (_gears.py:673-717, GearForIntVertexIDsAndCFloats, and _gears.py:894-945,
    GearForIntVerticesAndIDsAndCFloats): a distance is rounded when it is stored in the array (array("f"), the default), but the heap holds the number that has been computed.
    [store] is the effect of storing a number and reading it again. *)
From Coq Require Import List ZArith Bool Arith Lia.
From Verif Require Import Machine GearSpec Common Weight HeapModel DijkstraModel FloatModel.
Import ListNotations.
Local Open Scope Z_scope.

Section Store.
Context {V I L : Type}.
Variable vid : V -> I.
Variable WT : Weights.
Notation W := (w_t WT).
Variable DM : DMap I W (w_inf WT).
Variable PM : PMap I V.
Variable LM : PMap I L.
Variable next : V -> list (V * W * L).
Variable cfg : dij_cfg.
Variable store : W -> W.
Notation state := (@dij_state V I L WT DM PM LM).

(** shortest_paths.py:181-205, 223-272 *)
Definition sto_init (starts : list V) (calculation_limit : option Z) : state :=
  let dist := define_distances WT DM None (map (fun v => (vid v, store (w_zero WT))) starts) (dc_is_tree cfg) in
  {| d_pc := DLoop WT;
     d_heap := heapify WT (start_entries vid WT DM 256 dist starts);
     d_no := 256 - Z.of_nat (length starts);
     d_distances := dist;
     d_pred := create_predecessors vid PM (dc_build_paths cfg) starts;
     d_labels := pm_empty LM;
     d_distance := w_inf WT; d_depth := 0;
     d_limit := limit_init calculation_limit;
     d_calls := [] |}.

(** shortest_paths.py:293-304 *)
Definition sto_settle (s : state) (v : V) (w : W) (k : nat) : state :=
  {| d_pc := d_pc s; d_heap := d_heap s; d_no := d_no s;
     d_distances := if dc_is_tree cfg || dc_keep_distances cfg then d_distances s
                    else dm_set DM (vid v) (store (w_zero WT)) (d_distances s);
     d_pred := d_pred s; d_labels := d_labels s; d_distance := w; d_depth := k;
     d_limit := d_limit s; d_calls := d_calls s |}.

(** shortest_paths.py:335-372; the number itself is put on the heap, lines 364-372 *)
Definition sto_relax (s : state) (v : V) (w : W) (k : nat) (n : V) (nw : W) (l : L) (rest : list (V * W * L)) : state :=
  {| d_pc := DEdges WT v w k rest;
     d_heap := heappush WT (nw, d_no s, (n, S k)) (d_heap s);
     d_no := d_no s - 1;
     d_distances := if dc_is_tree cfg then d_distances s else dm_set DM (vid n) (store nw) (d_distances s);
     d_pred := if dc_build_paths cfg then pm_set PM (vid n) v (d_pred s) else d_pred s;
     d_labels := if dc_build_paths cfg && dc_labeled cfg then pm_set LM (vid n) l (d_labels s)
                 else d_labels s;
     d_distance := d_distance s; d_depth := d_depth s;
     d_limit := d_limit s; d_calls := d_calls s |}.

(** One pass, shortest_paths.py:276-372, see [dij_step]. *)
Definition sto_step (s : state) : step_result state (@dij_report V I L WT DM PM LM) exn :=
  match d_pc s with
  | DLoop _ =>
      match d_heap s with
      | [] => Halt [] s
      | ((w, _), (v, k)) :: h =>
          if negb (dc_is_tree cfg) && w_ltb WT (dm_get DM (vid v) (d_distances s)) w
          then Go [] (d_set_heap WT DM PM LM s h)
          else
            let s1 := sto_settle (d_set_heap WT DM PM LM s h) v w k in
            let out := if (0 <? k)%nat then [dij_observe WT DM PM LM v s1] else [] in
            match limit_check (d_limit s1) with
            | None => Raise out RuntimeErrorLimit s1
            | Some lim => Go out (dij_expand WT DM PM LM next s1 v w k lim)
            end
      end
  | DEdges _ v w k [] => Go [] (d_set_pc WT DM PM LM s (DLoop WT))
  | DEdges _ v w k ((n, ew, l) :: rest) =>
      let nw := w_add WT ew w in
      if w_leb WT (w_inf WT) nw then Raise [] OverflowErrorDistance s
      else if negb (dc_is_tree cfg) && w_leb WT (dm_get DM (vid n) (d_distances s)) nw
           then Go [] (d_set_pc WT DM PM LM s (DEdges WT v w k rest))
           else Go [] (sto_relax s v w k n nw l rest)
  end.

Definition sto_run (starts : list V) (calculation_limit : option Z) (n : nat)
  : list (@dij_report V I L WT DM PM LM) * outcome state exn :=
  run sto_step n (sto_init starts calculation_limit).
End Store.

(** ** Storing a Python float in array("f"), and reading it again: rounding to a C float (IEEE 754 binary32: 24 bits; the smallest one is 2^-149, that is 2^925 in units of 2^-1074;
    too large numbers become infinite) *)
Definition round_at (k x : Z) : Z :=
  let unit := 2 ^ k in
  let q := x / unit in
  let r := x mod unit in
  (if (unit <? 2 * r) || ((2 * r =? unit) && Z.odd q) then q + 1 else q) * unit.
Definition single_value (x : Z) : Z := round_at (Z.max 925 (lost_bits 24 x)) x.
Definition single_largest : Z := (2 ^ 24 - 1) * 2 ^ (104 + 1074).
Definition store_single (a : w_t PyFloat) : w_t PyFloat :=
  match a with
  | Some f => let y := single_value (fin_value 53 py_largest f) in
              if y <=? single_largest then float_of 53 py_largest y else None
  | None => None
  end.
