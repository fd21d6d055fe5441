(** Model of the code by which the strategies access sequence based collections directly, i.e., without calls of the methods of the collection. The code is generated
    into the strategies from tpl/; each definition cites one or more of its occurrences. A result [None] of the unguarded forms means that IndexError (or, for a byte that would
    become negative, OverflowError) leaves the code. *)
From Coq Require Import List ZArith NArith Bool Arith.
From Verif Require Import GearModel.
Import ListNotations.

(** * Sets with one byte per id *)
Section Bytes.
Variable cfg : wcfg.

(** [if sequence[id]] without handler that continues: depth_first.py:769, topological_sort.py:582 *)
Definition byte_read (k : nat) (s : list N) : option bool := option_map (fun v => negb (v =? 0)%N) (seq_get s k).

(** [try: if sequence[id]: ...; except IndexError: pass]: depth_first.py:1212-1216, topological_sort.py:579-595 *)
Definition byte_test (k : nat) (s : list N) : bool := match byte_read k s with Some b => b | None => false end.

(** [try: if sequence[id]: <seen>; else: sequence[id] = True; except IndexError: extend_and_set(id, True)]: breadth_first.py:338-345, depth_first.py:677-683, 719-726, 1119-1124,
    topological_sort.py:499-506. [None]: <seen>. *)
Definition byte_visit (k : nat) (s : list N) : option (list N) :=
  match seq_get s k with
  | Some v => if negb (v =? 0)%N then None else Some (match seq_set s k 1%N with Some s' => s' | None => s end)
  | None => Some (match extend_and_set cfg 0%N s k 1%N with Some s' => s' | None => s end)
  end.

(** [try: sequence[id] = True; except IndexError: extend_and_set(id, True)]: depth_first.py:834-837, topological_sort.py:507-510 *)
Definition byte_mark (k : nat) (s : list N) : list N :=
  match seq_set s k 1%N with
  | Some s' => s'
  | None => match extend_and_set cfg 0%N s k 1%N with Some s' => s' | None => s end
  end.

(** [sequence[id] = False] without handler: depth_first.py:623 *)
Definition byte_clear (k : nat) (s : list N) : option (list N) := seq_set s k 0%N.

(** [try: if sequence[id]: ...; sequence[id] = False; ...; except IndexError: pass]: topological_sort.py:489-497. [None]: not in the set. *)
Definition byte_leave (k : nat) (s : list N) : option (list N) :=
  match seq_get s k with
  | Some v => if negb (v =? 0)%N then seq_set s k 0%N else None
  | None => None
  end.
End Bytes.

(** * Sets with one bit per id. [sequence_key, bit_number = divmod(id, 8)], [bit_mask = 1 << bit_number] *)
Section Bits.
Variable cfg : wcfg.

(** [if sequence[sequence_key] & bit_mask]: depth_first.py:780, topological_sort.py:604 *)
Definition bit_read (k : nat) (s : list N) : option bool := option_map (fun v => negb (N.land v (bit_mask k) =? 0)%N) (seq_get s (k / 8)).

(** The same with [except IndexError: pass]: depth_first.py:1202-1209, topological_sort.py:599-619 *)
Definition bit_test (k : nat) (s : list N) : bool := match bit_read k s with Some b => b | None => false end.

(** [value = sequence[sequence_key]; if value & bit_mask: <seen>; else: sequence[sequence_key] = value | bit_mask; except IndexError: extend_and_set(sequence_key, bit_mask)]:
    breadth_first.py:325-337, depth_first.py:687-696, 730-740, 1108-1116, topological_sort.py:526-535 *)
Definition bit_visit (k : nat) (s : list N) : option (list N) :=
  match seq_get s (k / 8) with
  | Some v => if negb (N.land v (bit_mask k) =? 0)%N then None
              else Some (match seq_set s (k / 8) (N.lor v (bit_mask k)) with Some s' => s' | None => s end)
  | None => Some (match extend_and_set cfg 0%N s (k / 8) (bit_mask k) with Some s' => s' | None => s end)
  end.

(** [try: sequence[sequence_key] |= bit_mask; except IndexError: extend_and_set(sequence_key, bit_mask)]: depth_first.py:841-844, topological_sort.py:536-539 *)
Definition bit_mark (k : nat) (s : list N) : list N :=
  match seq_get s (k / 8) with
  | Some v => match seq_set s (k / 8) (N.lor v (bit_mask k)) with Some s' => s' | None => s end
  | None => match extend_and_set cfg 0%N s (k / 8) (bit_mask k) with Some s' => s' | None => s end
  end.

(** [sequence[sequence_key] -= 1 << bit_number] without handler: depth_first.py:619-620 *)
Definition bit_clear (k : nat) (s : list N) : option (list N) :=
  match seq_get s (k / 8) with
  | Some v => if (v <? bit_mask k)%N then None else seq_set s (k / 8) (v - bit_mask k)%N
  | None => None
  end.

(** [value = sequence[sequence_key]; if value & bit_mask: ...; sequence[sequence_key] = value - bit_mask; ...; except IndexError: pass]: topological_sort.py:514-525 *)
Definition bit_leave (k : nat) (s : list N) : option (list N) :=
  match seq_get s (k / 8) with
  | Some v => if negb (N.land v (bit_mask k) =? 0)%N then (if (v <? bit_mask k)%N then None else seq_set s (k / 8) (v - bit_mask k)%N) else None
  | None => None
  end.
End Bits.

(** * Mappings *)
Section Maps.
Context {A : Type}.
Variable cfg : wcfg.
Variable default : A.

(** [sequence[id]] without handler: shortest_paths.py:265, 291, a_star.py:305, 320, 351, 355, depth_first.py:799-800, bidirectional_search/shortest_path.py:422 *)
Definition map_read (k : nat) (s : list A) : option A := seq_get s k.

(** [sequence[id] = value] without handler: shortest_paths.py:300 *)
Definition map_write (k : nat) (v : A) (s : list A) : option (list A) := seq_set s k v.

(** [try: sequence[id] = value; except IndexError: extend_and_set(id, value)]: breadth_first.py:348-363, depth_first.py:850-870, a_star.py:397-413, 428-431 *)
Definition map_store (k : nat) (v : A) (s : list A) : list A :=
  match seq_set s k v with
  | Some s' => s'
  | None => match extend_and_set cfg default s k v with Some s' => s' | None => s end
  end.

(** [try: if sequence[id] <= value: <ignore>; sequence[id] = value; except IndexError: extend_and_set(id, value)]: shortest_paths.py:336-341, a_star.py:389-396,
    bidirectional_search/shortest_path.py:464-470. [None]: <ignore>. *)
Definition map_improve (le : A -> A -> bool) (k : nat) (v : A) (s : list A) : option (list A) :=
  match seq_get s k with
  | Some d => if le d v then None else Some (match seq_set s k v with Some s' => s' | None => s end)
  | None => Some (match extend_and_set cfg default s k v with Some s' => s' | None => s end)
  end.
End Maps.

(** [try: if sequence[id] is None: sequence[id] = value; except IndexError: extend_and_set(id, value)]: depth_first.py:882-888, 1061-1067. For sequences with None as gap
    marker. *)
Definition map_store_if_none {B} (cfg : wcfg) (k : nat) (v : B) (s : list (option B)) : list (option B) :=
  match seq_get s k with
  | Some None => match seq_set s k (Some v) with Some s' => s' | None => s end
  | Some (Some _) => s
  | None => match extend_and_set cfg None s k (Some v) with Some s' => s' | None => s end
  end.

(** The same for sequences without None: the condition is never true. *)
Definition map_store_if_none_num (cfg : wcfg) (sentinel : Z) (k : nat) (v : Z) (s : list Z) : list Z :=
  match seq_get s k with
  | Some _ => s
  | None => match extend_and_set cfg sentinel s k v with Some s' => s' | None => s end
  end.
