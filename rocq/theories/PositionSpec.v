(** Specification vocabulary for positions. *)
From Coq Require Import List ZArith.
Import ListNotations.
Local Open Scope Z_scope.

(** All ranges (from, to) are non-empty. *)
Definition proper_limits (limits : list (Z * Z)) : Prop := forall low high, In (low, high) limits -> low < high.

(** The position has as many coordinates as there are limits, and each is in its range: from <= coordinate < to. *)
Definition inside (p : list Z) (limits : list (Z * Z)) : Prop := Forall2 (fun c l => fst l <= c < snd l) p limits.

(** The coordinates of the positions differ by multiples of the sizes of the ranges. *)
Definition congruent (limits : list (Z * Z)) (p q : list Z) : Prop :=
  length p = length limits /\ length q = length limits /\
  forall i c d l, nth_error p i = Some c -> nth_error q i = Some d -> nth_error limits i = Some l -> exists k, d = c + k * (snd l - fst l).

(** A position moved by a vector. *)
Fixpoint translated (p m : list Z) : list Z := match p, m with x :: p, y :: m => x + y :: translated p m | _, _ => [] end.

(** Lexicographic order. *)
Inductive lex_lt : list Z -> list Z -> Prop :=
| lex_head x y p q : x < y -> lex_lt (x :: p) (y :: q)
| lex_tail x p q : lex_lt p q -> lex_lt (x :: p) (x :: q).

(** A vector with coordinates -1, 0 and 1. *)
Definition unit_vector (dimensions : nat) (m : list Z) : Prop := length m = dimensions /\ forall x, In x m -> x = -1 \/ x = 0 \/ x = 1.

(** The number of coordinates that are not 0. *)
Fixpoint count_non_zero (m : list Z) : nat := match m with [] => O | x :: r => if Z.eq_dec x 0 then count_non_zero r else S (count_non_zero r) end.

(** Which numbers of non-zero coordinates are allowed. *)
Definition allowed_count (diagonals zero_move : bool) (counts : option (nat -> bool)) (n : nat) : Prop :=
  match counts with
  | Some f => f n = true
  | None => n = 1%nat \/ (zero_move = true /\ n = 0%nat) \/ (diagonals = true /\ (2 <= n)%nat)
  end.

(** One position can be reached from another one by a number of moves without diagonals. *)
Inductive in_moves (p : list Z) : nat -> list Z -> Prop :=
| in_moves_0 : in_moves p 0 p
| in_moves_S n q m : in_moves p n q -> unit_vector (length p) m -> count_non_zero m = 1%nat -> in_moves p (S n) (translated q m).
