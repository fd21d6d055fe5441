(** Configurations used in the examples about neighbors-then-depth traversals. *)
From Verif Require Import NTDModel.

Definition ntd_default : ntd_cfg :=
  {| nc_is_tree := false; nc_build_paths := true; nc_labeled := true; nc_compute_depth := true |}.
