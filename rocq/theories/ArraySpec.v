(** Specification vocabulary for arrays. *)
From Coq Require Import List ZArith.
From Verif Require Import PositionSpec ArrayModel.
Import ListNotations.

Section ArraySpec.
Context {C : Type}.
Variable st : store C.

(** Sequences are nested at least [d] times. *)
Fixpoint nested (d : nat) (v : val C) : Prop :=
  match d with
  | O => True
  | S d => exists r m l, v = VSeq r /\ nth_error st r = Some (m, l) /\ Forall (nested d) l
  end.

(** The sequences in the first [d] levels of nesting. *)
Fixpoint objects (d : nat) (v : val C) : list nat :=
  match d, v with
  | S d, VSeq r => r :: match nth_error st r with Some (_, l) => flat_map (objects d) l | None => [] end
  | _, _ => []
  end.

(** No sequence occurs at two places of the array. (A counterexample is the Python expression [[[0] * 3] * 3].) *)
Definition unshared (d : nat) (v : val C) : Prop := NoDup (objects d v).

(** The sequences of the last dimension can be changed. *)
Fixpoint changeable (d : nat) (v : val C) : Prop :=
  match d, v with
  | S O, VSeq r => exists l, nth_error st r = Some (true, l)
  | S d, VSeq r => exists m l, nth_error st r = Some (m, l) /\ Forall (changeable d) l
  | _, _ => False
  end.

(** In each dimension, all sequences have the same length. *)
Fixpoint rectangular (sizes : list nat) (v : val C) : Prop :=
  match sizes with
  | [] => True
  | n :: r => exists ref m l, v = VSeq ref /\ nth_error st ref = Some (m, l) /\ length l = n /\ Forall (rectangular r) l
  end.
End ArraySpec.

(** Coordinates count from the beginning. *)
Definition from_begin (p : list Z) : Prop := Forall (fun c => (0 <= c)%Z) p.

(** A history of writes to two arrays: [(true, p, x)] writes [x] at position [p] of the second one.  [None]: one of the writes has raised an exception. *)
Fixpoint write_all {C} (st : store C) (v v' : val C) (ws : list (bool * list Z * val C)) : option (store C) :=
  match ws with
  | [] => Some st
  | (second, p, x) :: r => match array_set st (if second : bool then v' else v) p x with inl st' => write_all st' v v' r | inr _ => None end
  end.

(** The content that was last written to a position. *)
Fixpoint latest {C} (ws : list (bool * list Z * val C)) (second : bool) (q : list Z) : option (val C) :=
  match ws with
  | [] => None
  | (b, p, x) :: r => match latest r second q with
                      | Some y => Some y
                      | None => if Bool.eqb b second then if list_eq_dec Z.eq_dec p q then Some x else None else None
                      end
  end.

(** The limits of an array. *)
Definition whole_array (sizes : list nat) : list (Z * Z) := map (fun n => (0%Z, Z.of_nat n)) sizes.

(** A move to a neighbor position. *)
Definition a_move (d : nat) (diagonals : bool) (m : list Z) : Prop := unit_vector d m /\ (count_non_zero m = 1 \/ (diagonals = true /\ 2 <= count_non_zero m)).

(** Position [q] is a neighbor of [p] in the array. *)
Definition array_neighbor (sizes : list nat) (diagonals wrap : bool) (p q : list Z) : Prop :=
  inside q (whole_array sizes) /\
  exists m, a_move (length sizes) diagonals m /\ if wrap then congruent (whole_array sizes) (translated p m) q else q = translated p m.
