(** Model of the choice of the infinity value of gears with arrays of machine integers. *)
From Coq Require Import ZArith Bool.
From Verif Require Import Weight RangeSpec.
Local Open Scope Z_scope.

(** _gears.py:133: the dict, for the type code in lower case *)
Definition bytes_of_type_code (c : int_type) : Z :=
  match c with tc_b | tc_B => 1 | tc_h | tc_H => 2 | tc_i | tc_I => 2 | tc_l | tc_L => 4 | tc_q | tc_Q => 8 end.

(** _gears.py:129-138 ([max_value_for_integer_array_type_code]) *)
Definition max_value_for_integer_array_type_code (c : int_type) : Z :=
  let bits := bytes_of_type_code c * 8 in
  let bits := if signed c then bits - 1 else bits in
  2 ^ bits - 1.

Lemma max_value_positive : forall c, 0 < max_value_for_integer_array_type_code c.
Proof. intros []; reflexivity. Qed.

(** _gears.py:736-748, 968-983: zero and infinity of [GearForIntVertexIDsAndCInts] and [GearForIntVerticesAndIDsAndCInts] *)
Definition CIntWeights (c : int_type) : Weights := ZWeights (max_value_for_integer_array_type_code c) (max_value_positive c).
