(** Model of class [Position] (src/nographs/_extra_matrix_gadgets.py). *)
From Coq Require Import List ZArith Bool.
From Verif Require Import Common.
Import ListNotations.
Local Open Scope Z_scope.

(** A position or vector: the coordinates.  Limits: pairs (from, to). *)
Notation position := (list Z).
Notation limits_t := (list (Z * Z)).

(** _extra_matrix_gadgets.py:39-41 ([__add__]; [zip] ends with the shorter one) *)
Definition pos_add (p o : position) : position := map (fun c => fst c + snd c) (combine p o).

(** _extra_matrix_gadgets.py:43-45 ([__sub__]; [map] ends with the shorter one) *)
Definition pos_sub (p o : position) : position := map (fun c => fst c - snd c) (combine p o).

(** _extra_matrix_gadgets.py:47-53 ([__mul__]) *)
Definition pos_mul (p : position) (k : Z) : position := map (fun c => c * k) p.

(** _extra_matrix_gadgets.py:55-58 *)
Definition manhattan_distance (p o : position) : Z := fold_left Z.add (map Z.abs (pos_sub p o)) 0.

(** _extra_matrix_gadgets.py:60-67 *)
Definition is_in_cuboid (p : position) (limits : limits_t) : bool :=
  forallb (fun c => (fst (snd c) <=? fst c) && (fst c <? snd (snd c))) (combine p limits).

(** _extra_matrix_gadgets.py:76-83: one coordinate; [None] is ZeroDivisionError.  Python's operator % is [Z.modulo]. *)
Definition wrap_coordinate (c : Z) (limit : Z * Z) : option Z :=
  let '(low, high) := limit in
  let size := high - low in
  if ((c <? low) || (high <=? c)) && (size =? 0) then None
  else
    let c := if c <? low then high - (high - c) mod size else c in
    Some (if high <=? c then (c - low) mod size + low else c).

(** _extra_matrix_gadgets.py:69-84 *)
Fixpoint wrap_coordinates (l : list (Z * (Z * Z))) : option position :=
  match l with
  | [] => Some []
  | (c, limit) :: r => match wrap_coordinate c limit, wrap_coordinates r with Some x, Some y => Some (x :: y) | _, _ => None end
  end.
Definition wrap_to_cuboid (p : position) (limits : limits_t) : option position := wrap_coordinates (combine p limits).

(** [itertools.product(range(-1, 2), repeat=dimensions)], line 121 *)
Fixpoint product_moves (dimensions : nat) : list position :=
  match dimensions with
  | O => [[]]
  | S d => flat_map (fun x => map (cons x) (product_moves d)) [-1; 0; 1]
  end.

(** [dimensions - move.count(0)], line 122 *)
Definition non_zeros (move : position) : nat := length (filter (fun x => negb (x =? 0)) move).

(** _extra_matrix_gadgets.py:86-123; a container [non_zero_counts] is modelled by its test for membership.
    Simplification: [dimensions - move.count(0)] is written as the number of the other coordinates. *)
Definition moves (dimensions : nat) (diagonals zero_move : bool) (non_zero_counts : option (nat -> bool)) : list position + exn :=
  match non_zero_counts with
  | None =>
      let low := (if zero_move then 0 else 1)%nat in
      let high := (1 + (if diagonals then dimensions else 1))%nat in
      inl (filter (fun move => (low <=? non_zeros move)%nat && (non_zeros move <? high)%nat) (product_moves dimensions))
  | Some allowed =>
      if zero_move || diagonals then inr RuntimeErrorConfig
      else inl (filter (fun move => allowed (non_zeros move)) (product_moves dimensions))
  end.

(** How an iteration ends: regularly, with a RuntimeError about missing limits, or with a ZeroDivisionError. *)
Inductive pos_end := PosDone | PosLimitsMissing | PosZeroDivision.

(** _extra_matrix_gadgets.py:125-155: the iterated positions *)
Fixpoint neighbors (p : position) (moves : list position) (limits : option limits_t) (wrap : bool) : list position * pos_end :=
  match moves with
  | [] => ([], PosDone)
  | move :: r =>
      let q := pos_add p move in
      match limits with
      | None => if wrap then ([], PosLimitsMissing) else let '(l, e) := neighbors p r limits wrap in (q :: l, e)
      | Some lim =>
          if wrap
          then match wrap_to_cuboid q lim with
               | None => ([], PosZeroDivision)
               | Some q' => let '(l, e) := neighbors p r limits wrap in (q' :: l, e)
               end
          else let '(l, e) := neighbors p r limits wrap in (if is_in_cuboid q lim then q :: l else l, e)
      end
  end.
