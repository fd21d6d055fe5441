(** Example objects, for PropNested and PropNestedRefuted. *)
From Coq Require Import List ZArith Bool Arith.
From Verif Require Import Machine Common GearSpec Weight BFSModel NTDModel DFSModel TopoModel DijkstraModel AStarModel MSTModel NestedModel Examples NTDExamples DFSExamples TopoExamples AStarExamples MSTExamples.
Import ListNotations.

Definition no_id (v : nat) := v.
Definition bfs_obj := bfs_object no_id hVS (@hPM nat) (@hPM nat) g_next.
Definition bfs_p s : bfs_cfg * list nat * option (vs_t hVS) * option Z := (bfs_default, s, None, None).
Definition ntd_obj := ntd_object no_id hVS (@hPM nat) (@hPM nat) g_next.
Definition ntd_p s : ntd_cfg * list nat * option (vs_t hVS) * option Z := (ntd_default, s, None, None).
Definition dfs_obj := depth_first_object Nat.eq_dec no_id hVS (@hPM nat) (@hPM nat) hXM g_next.
Definition dfs_p ev tr s : dfs_cfg * (nat -> bool) * list nat * option (vs_t hVS) * option Z := (dfs_checked (dfs_ask DFS_TREE ev tr true), never, s, None, None).
(** Task 0 depends on 2 and 1, 1 on 2, 3 on 4. *)
Definition tasks (v : nat) : list (nat * nat) := match v with 0 => [(2, 0); (1, 0)] | 1 => [(2, 0)] | 3 => [(4,0)] | _ => [] end.
Definition topo_obj := topo_object no_id hVS (@hPM nat) (@hPM nat) tasks.
Definition topo_p s : topo_cfg * list nat * option (vs_t hVS) * option Z := (topo_default, s, None, None).
Definition dij_obj := dij_object no_id ZInfWeights hDMZ (@hPM nat) (@hPM nat) w_next.
Definition dij_p s : dij_cfg * list nat * option (dm_t hDMZ) * option Z := (dij_default, s, None, None).

(** An outer loop over [p], whose generator has executed [n] passes, when an inner loop over [q] is executed, of [m] passes; then the outer loop continues with [n'] passes *)
Definition inside {P} (p : P) (n : nat) (q : P) (m n' : nat) : list (use P) := StartFrom p :: repeat (Pass 0) n ++ StartFrom q :: repeat (Pass 1) m ++ repeat (Pass 0) n'.
(** The same, but inner loop and outer loop take turns *)
Definition in_turns {P} (p : P) (n : nat) (q : P) (m : nat) : list (use P) := StartFrom p :: repeat (Pass 0) n ++ StartFrom q :: concat (repeat [Pass 1; Pass 0] m).
Notation show_bfs os := (map (fun r => (br_vertex r, br_depth r)) os).
Notation show_ntd os := (map (fun r => (NTDModel.nr_vertex r, NTDModel.nr_depth r)) os).
Notation show_dfs os := (map (fun r => (fr_vertex r, fr_event r, fr_depth r)) os).

(** The condition [used_in_time] can be checked. *)
Fixpoint in_time {P} (k : nat) (us : list (use P)) : bool :=
  match us with [] => true | StartFrom _ :: _ => false | Pass j :: r => Nat.eqb j k || in_time k r end.
Lemma in_time_ok {P} k (us : list (use P)) : in_time k us = true -> used_in_time k us.
Proof.
  induction us as [|u us IH]; intros H us1 p us2 E; [destruct us1; discriminate|].
  destruct us1 as [|u1 us1]; cbn [app] in E; inversion E; subst; [discriminate|]. destruct u1 as [|j]; [discriminate|].
  cbn [in_time] in H. apply orb_prop in H as [H|H]; [left; apply Nat.eqb_eq in H; congruence|right; eapply IH; eauto].
Qed.
