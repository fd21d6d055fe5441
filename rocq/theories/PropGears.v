(** Properties of the sequence based collections: C41, C42. *)
From Coq Require Import List ZArith NArith Bool Arith Sorted Lia.
From Verif Require Import GearSpec GearModel GearProofs GearHistoryModel GearHistorySpec GearHistory.
Import ListNotations.

(** C41. After every history of operations on a set without (first part) or with bit packing
    (second part), created with any initial keys, pre-allocation and extension size: the membership
    test answers like the mathematical set that results from the history
    ([set_history], GearHistorySpec.v), negative numbers are no members, iteration gives
    each element once, in ascending order, and the length is the number of elements. *)
Theorem C41_sets_behave_as_sets :
  forall (cfg : wcfg) (keys : list nat) (ops : list set_op), 0 < w_extend_size cfg ->
  (let s := bs_after cfg keys ops in
   set_history (fun k => In k keys) ops (fun k => bs_contains (Z.of_nat k) s = true) /\
   (forall z, (z < 0)%Z -> bs_contains z s = false) /\
   StronglySorted lt (bs_iter s) /\
   (forall k, In k (bs_iter s) <-> bs_contains (Z.of_nat k) s = true) /\
   bs_len s = length (bs_iter s)) /\
  (let s := bits_after cfg keys ops in
   set_history (fun k => In k keys) ops (fun k => bits_contains (Z.of_nat k) s = true) /\
   (forall z, (z < 0)%Z -> bits_contains z s = false) /\
   StronglySorted lt (bits_iter s) /\
   (forall k, In k (bits_iter s) <-> bits_contains (Z.of_nat k) s = true) /\
   bits_len s = length (bits_iter s)).
Proof.
  intros cfg keys ops Hcfg.
  exact (conj (bs_after_spec cfg Hcfg keys ops) (bits_after_spec cfg Hcfg keys ops)).
Qed.
Print Assumptions C41_sets_behave_as_sets.

Example C41_example :
  let cfg := {| w_extend_size := 3; w_by_template := true; w_pre_allocate := 2 |} in
  let ops := [SAdd 17; SDiscard 2; SUpdate [9; 8; 30]; SPop; SDiscard 100; SAdd 9] in
  bits_iter (bits_after cfg [2; 5] ops) = [8; 9; 17; 30] /\
  bs_iter (bs_after cfg [2; 5] ops) = [8; 9; 17; 30] /\
  bits_len (bits_after cfg [2; 5] (ops ++ [SClear])) = 0.
Proof. vm_compute. auto. Qed.

(** C42. After every history of operations on a mapping: lookup by key ([ma_getitem], None:
    KeyError) answers like the mathematical partial map that results from the history
    ([map_history]), the direct access of the traversals gives the default value exactly for
    missing keys, membership, iteration and length agree with it. *)
Theorem C42_mappings_behave_as_maps :
  forall {A : Type} (A_eqb : A -> A -> bool), (forall a b, reflect (a = b) (A_eqb a b)) ->
  forall (cfg : wcfg) (default : A) (items : list (nat * A)) (ops : list (map_op A)),
  0 < w_extend_size cfg ->
  let s := ma_after A_eqb cfg default items ops in
  map_history default (fun _ => None) (MUpdate items :: ops) (fun k => ma_getitem A_eqb default k s) /\
  (forall k, ma_direct default k s = match ma_getitem A_eqb default k s with Some v => v | None => default end) /\
  (forall k, ma_contains A_eqb default (Z.of_nat k) s = true <-> ma_getitem A_eqb default k s <> None) /\
  (forall z, (z < 0)%Z -> ma_contains A_eqb default z s = false) /\
  StronglySorted lt (ma_iter A_eqb default s) /\
  (forall k, In k (ma_iter A_eqb default s) <-> ma_getitem A_eqb default k s <> None) /\
  ma_len A_eqb default s = length (ma_iter A_eqb default s).
Proof.
  intros A A_eqb Hspec cfg default items ops Hcfg.
  exact (ma_after_spec A_eqb Hspec cfg Hcfg default items ops).
Qed.
Print Assumptions C42_mappings_behave_as_maps.

Example C42_example :
  let cfg := {| w_extend_size := 3; w_by_template := true; w_pre_allocate := 2 |} in
  let s := ma_after Z.eqb cfg 99%Z [(4, 1%Z)]
             [MSet 7 20%Z; MUpdateDefault [(4, 5%Z); (12, 6%Z)]; MDel 7; MUpdate [(1, 8%Z); (1, 9%Z)]] in
  ma_iter Z.eqb 99%Z s = [1; 4; 12] /\ map (fun k => ma_direct 99%Z k s) [1; 4; 7; 12; 500] = [9; 1; 99; 6; 99]%Z.
Proof. vm_compute. auto. Qed.
