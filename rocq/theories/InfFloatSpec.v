(** Specification for C119: the graph whose edges have the exact values of the floats given. *)
From Coq Require Import ZArith.
From Verif Require Import SignedFloat.

Definition s_value {prec largest : Z} (a : sfloat prec largest) : option Z := match a with Finite _ _ x => Some (sfin_value prec largest x) | _ => None end.
Definition exact_edge {V : Type} (prec largest : Z) (edge : V -> nat -> option (V * sfloat prec largest)) (v : V) (k : nat) : option (V * option Z) :=
  match edge v k with Some (u, a) => Some (u, s_value a) | None => None end.
