(** C121: options of TraversalShortestPathsInfBranchingSorted.  Two runs from the same distinct start vertices, with the same limit and the same number of passes,
    that differ only in the options build_paths and store_distances, report the same vertices with the same distances in the same order, call the neighbor
    function for the same vertices with the same values of attribute distance, read the same elements of the iterators, and end, or raise, in
    the same way.  The paths depend only on build_paths, the stored distances only on store_distances. *)
From Coq Require Import List ZArith Bool Arith Lia.
From Verif Require Import Machine GearSpec Common Weight InfModel InfSpec OptSim InfOpt Examples PropInf.
Import ListNotations.

Theorem C121_infinite_branching_options :
  forall {V : Type} (V_dec : forall a b : V, {a = b} + {a <> b}) (edge : V -> nat -> option (V * option Z))
    (DM : DMap V (option Z) None) (PM : PMap V V) (DMi : DMap (V * nat) (option Z) None) (PMi : PMap (V * nat) (V * nat)) (LMi : PMap (V * nat) unit)
    (starts : list V) lim n build_paths1 build_paths2 store_distances1 store_distances2 os1 r1 os2 r2,
  edge_sequences edge -> edges_sorted edge -> edges_nonnegative edge -> NoDup starts ->
  inf_run V_dec edge DM PM DMi PMi LMi build_paths1 store_distances1 starts lim n = (os1, r1) ->
  inf_run V_dec edge DM PM DMi PMi LMi build_paths2 store_distances2 starts lim n = (os2, r2) ->
  map (fun o => (nr_vertex o, nr_distance o)) os1 = map (fun o => (nr_vertex o, nr_distance o)) os2 /\
  outcome_map (fun s => (n_calls s, n_reads s)) r1 = outcome_map (fun s => (n_calls s, n_reads s)) r2 /\
  (build_paths1 = build_paths2 -> map nr_pred os1 = map nr_pred os2 /\ n_pred (outcome_state r1) = n_pred (outcome_state r2)) /\
  (store_distances1 = store_distances2 -> map nr_distances os1 = map nr_distances os2 /\ n_distances (outcome_state r1) = n_distances (outcome_state r2)).
Proof.
  exact (fun V V_dec edge DM PM DMi PMi LMi starts lim n bp1 bp2 st1 st2 os1 r1 os2 r2 H1 H2 H3 H4 =>
    inf_options V_dec edge DM PM DMi PMi LMi starts H1 H2 H3 H4 lim n bp1 bp2 st1 st2 os1 r1 os2 r2).
Qed.
Print Assumptions C121_infinite_branching_options.

(** The graph of PropInf with infinitely many edges meets the conditions (iedge_ok); with a limit, and with both options or none of them. *)
Definition iseen bp st lim n :=
  let '(os, r) := inf_run Nat.eq_dec iedge hDMZ hPM sDM sPM sLM bp st [0] lim n in
  (map (fun o => (nr_vertex o, nr_distance o)) os, n_reads (outcome_state r), match r with Running _ => 0 | Ended _ => 1 | Raised RuntimeErrorLimit _ => 2 | Raised _ _ => 3 end).
Example C121_example : NoDup [0] /\ iseen true true (Some 6%Z) 40 = iseen false false (Some 6%Z) 40 /\
  (let '(l, reads, kind) := iseen true false (Some 6%Z) 40 in (firstn 3 l, length reads, kind)) = ([(1, Some 1%Z); (4, Some 1%Z); (5, Some 2%Z)], 6, 2).
Proof. split; [repeat constructor; simpl; tauto|]. vm_compute. split; reflexivity. Qed.
