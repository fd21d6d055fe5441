(** Arrays of machine integers: which numbers they can hold (Python standard library, module array), and which number the gears use as infinity. *)
From Coq Require Import ZArith List.
From Verif Require Import Weight.
Local Open Scope Z_scope.

(** The type codes for integers: lower case: signed, upper case: unsigned *)
Inductive int_type := tc_b | tc_B | tc_h | tc_H | tc_i | tc_I | tc_l | tc_L | tc_q | tc_Q.

Definition signed (c : int_type) : bool := match c with tc_b | tc_h | tc_i | tc_l | tc_q => true | _ => false end.

(** Minimum size in bytes, as documented for module array; the size on a particular platform can be larger for "i", "I", "l" and "L". *)
Definition minimum_size (c : int_type) : Z :=
  match c with tc_b | tc_B => 1 | tc_h | tc_H => 2 | tc_i | tc_I => 2 | tc_l | tc_L => 4 | tc_q | tc_Q => 8 end.

(** The numbers that fit in an element of [size] bytes. Storing another number raises OverflowError. *)
Definition fits (c : int_type) (size : Z) (x : Z) : Prop :=
  if signed c then - 2 ^ (8 * size - 1) <= x < 2 ^ (8 * size - 1) else 0 <= x < 2 ^ (8 * size).

(** [x] is not below zero and not above infinity. *)
Definition in_range (WT : Weights) (x : w_t WT) : Prop := w_leb WT (w_zero WT) x = true /\ w_leb WT x (w_inf WT) = true.
