(** The part of C90 for the search in infinitely branching graphs. *)
From Coq Require Import List ZArith Bool Arith.
From Verif Require Import Machine Common GearSpec Weight DijkstraModel NestedModel NestedProofs NestedOwn NestedExamples Examples InfModel PropInf.
Import ListNotations.

Theorem C90_nested_infinite_branching :
  forall {V : Type} (V_dec : forall a b : V, {a = b} + {a <> b}) (edge : V -> nat -> option (V * option Z)) (DM : DMap V (option Z) None) (PM : PMap V V)
    (DMi : DMap (V * nat) (option Z) None) (PMi : PMap (V * nat) (V * nat)) (LMi : PMap (V * nat) unit),
  undisturbed (inf_object V_dec edge DM PM DMi PMi LMi) (fun _ r => r)
    (fun '(build_paths, store_distances, starts, lim) n => inf_run V_dec edge DM PM DMi PMi LMi build_paths store_distances starts lim n).
Proof. exact (@inf_undisturbed). Qed.
Print Assumptions C90_nested_infinite_branching.

Example C90_nested_infinite_branching_example :
  let o := inf_object Nat.eq_dec fedge hDMZ hPM sDM sPM sLM in
  let us := in_turns (true, true, [0], None) 3 (true, true, [1], None) 40 in
  used_in_time 0 (tl us) /\
  map (fun rep => (nr_vertex rep, nr_distance rep)) (fst (reports o 0 (new_object None) us)) = [(1, Some 1%Z); (2, Some 3%Z)] /\
  map (fun rep => (nr_vertex rep, nr_distance rep)) (fst (reports o 1 (new_object None) us)) = [(0, Some 0%Z); (2, Some 2%Z)].
Proof. split; [apply in_time_ok; vm_compute; reflexivity|]. vm_compute. split; reflexivity. Qed.
