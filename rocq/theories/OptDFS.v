(** Proofs for C101, part 3: TraversalDepthFirst with different options for paths and additional information. *)
From Coq Require Import List Bool Arith ZArith Lia.
From Verif Require Import Machine GearSpec Spec Common TraversalSpec DFSModel DFSSpec DFSTreeSpec DFSLog DFSLogMore
  DFSReports DFSProofs DFSTerm DFSWProofs DFSMain DFSTree DFSMore DFSDet DFSCompare.
Import ListNotations.

Section Options.
Context {V I L : Type} (V_dec : forall a b : V, {a = b} + {a <> b}) (vid : V -> I) (VS : VSet I) (PM : PMap I V) (LM : PMap I L) (XM : DMap I Z 0%Z) (next : V -> list (V * L)).
Context (starts : list V) (av : option (vs_t VS)).
Notation given := (match av with Some _ => true | None => false end).
Notation traverse cfg skip := (dfs_traverse V_dec vid VS PM LM XM next cfg skip starts av).
Notation same_seen := (same_seen VS PM LM XM).
Notation asked := (asked VS PM LM XM).

Lemma dfs_options_agree o1 o2 cfg1 cfg2 skip : dc_is_tree o1 = dc_is_tree o2 -> dc_mode o1 = dc_mode o2 -> dc_report o1 = dc_report o2 ->
  dfs_options o1 given = inl cfg1 -> dfs_options o2 given = inl cfg2 -> (dc_is_tree o1 = true -> av = None) ->
  forall lim1 n1 os1 r1 lim2 n2 os2 r2, traverse cfg1 skip lim1 n1 = (os1, r1) -> traverse cfg2 skip lim2 n2 = (os2, r2) ->
  same_as_far (same_seen cfg1 cfg2) os1 os2 /\ (forall c1 c2, r1 = Ended c1 -> r2 = Ended c2 -> Forall2 (same_seen cfg1 cfg2) os1 os2).
Proof.
  intros T12 M12 Q12 Ho1 Ho2 Ht lim1 n1 os1 r1 lim2 n2 os2 r2 R1 R2.
  destruct (options_keep _ _ _ Ho1) as (T1 & _ & _ & M1 & Q1 & _). destruct (options_keep _ _ _ Ho2) as (T2 & _ & _ & M2 & Q2 & _).
  assert (Q : dc_report cfg1 = dc_report cfg2) by congruence.
  assert (F : filter (asked cfg1) os2 = os2).
  { rewrite (asked_all_same VS PM LM XM cfg1 cfg2 Q). destruct (dfs_main V_dec vid VS PM LM XM next starts cfg2 skip av _ Ho2 (fun h _ => Ht (eq_trans (eq_trans T12 (eq_sym T2)) h)) _ _ _ _ R2) as (log & k & op & _ & G & _).
    apply asked_all in G. rewrite <- (rev_involutive os2), filter_rev', G. reflexivity. }
  rewrite <- F.
  apply (compare_runs V_dec vid VS PM LM XM next starts cfg1 cfg2 skip skip av o1 o2 Ho1 Ho2) with (pol := dfs_policy VS cfg1 av)
    (lim1 := lim1) (n1 := n1) (lim2 := lim2) (n2 := n2); auto; try congruence.
  - intros h _. apply Ht. congruence.
  - intros h _. apply Ht. congruence.
  - rewrite (policy_same VS av cfg2 cfg1) by congruence. auto.
  - apply rule_same; auto.
  - apply shown_filter; auto.
Qed.
End Options.
