(** Properties of programs that use one set of visited vertices (option already_visited) for several traversals, one after the other: C89.

    [series ... shared rs] runs the traversals [rs] (breadth first, neighbors-then-depth, and depth first, in any mix), each with the set as the one before has left it.  It gives the
    reports of each of them, whether all have come to their end, and the set after the last. *)
From Coq Require Import List ZArith Bool Arith.
From Verif Require Import Machine Common GearSpec Spec TraversalSpec BFSModel NTDModel DFSModel SeriesModel SeriesProofs Examples NTDExamples DFSExamples.
Import ListNotations.

(** Whether or not the traversals come to their end: no vertex is reported twice, within a traversal or by two of them; no vertex is reported that was in the set at the beginning; and
    each traversal reports only vertices that can be reached from its start vertices, on ways that avoid the vertices that were in the set at the very beginning of the series. *)
Theorem C89_series_reports :
  forall {V I L : Type} (V_dec : forall a b : V, {a = b} + {a <> b}) (I_dec : forall a b : I, {a = b} + {a <> b}) (vid : V -> I)
    (VS : VSet I) (PM : PMap I V) (LM : PMap I L) (XM : DMap I Z 0%Z) (next : V -> list (V * L)) (E : I -> I -> Prop),
  presents vid next E ->
  forall (rs : list (round V)), (forall r, In r rs -> round_ok r) ->
  forall (shared : vs_t VS) (reports : list (list V)) (all_ended : bool) (after : vs_t VS),
  series V_dec vid VS PM LM XM next shared rs = (reports, all_ended, after) ->
  let initially := fun i => vs_mem VS i shared = true in
  length reports = length rs /\ NoDup (map vid (concat reports)) /\
  (forall v, In v (concat reports) -> ~ initially (vid v)) /\
  (forall k r os, nth_error rs k = Some r -> nth_error reports k = Some os ->
     forall v, In v os -> reachable (avoiding E initially) (is_start vid (round_starts r)) (vid v)).
Proof.
  exact (fun V I L V_dec I_dec vid VS PM LM XM next E => series_reports_spec V_dec I_dec vid VS PM LM XM next E).
Qed.
Print Assumptions C89_series_reports.

(** What the set contains afterwards: nothing is lost; all that is reported is in it; all that is in it was in it before or can be reached; and if all traversals have come to their end,
    it contains exactly what was in it before and what can be reached from the start vertices of all the traversals on ways that avoid what was in it before. *)
Theorem C89_series_visited :
  forall {V I L : Type} (V_dec : forall a b : V, {a = b} + {a <> b}) (I_dec : forall a b : I, {a = b} + {a <> b}) (vid : V -> I)
    (VS : VSet I) (PM : PMap I V) (LM : PMap I L) (XM : DMap I Z 0%Z) (next : V -> list (V * L)) (E : I -> I -> Prop),
  presents vid next E ->
  forall (rs : list (round V)), (forall r, In r rs -> round_ok r) ->
  forall (shared : vs_t VS) (reports : list (list V)) (all_ended : bool) (after : vs_t VS),
  series V_dec vid VS PM LM XM next shared rs = (reports, all_ended, after) ->
  let initially := fun i => vs_mem VS i shared = true in
  let finally := fun i => vs_mem VS i after = true in
  let sources := fun i => exists r, In r rs /\ starts_from vid initially r i in
  (forall i, initially i -> finally i) /\ (forall v, In v (concat reports) -> finally (vid v)) /\
  (forall i, finally i -> initially i \/ reachable (avoiding E initially) sources i) /\
  (all_ended = true -> forall i, finally i <-> initially i \/ reachable (avoiding E initially) sources i).
Proof.
  exact (fun V I L V_dec I_dec vid VS PM LM XM next E => series_visited_spec V_dec I_dec vid VS PM LM XM next E).
Qed.
Print Assumptions C89_series_visited.

(** If all traversals have come to their end, then together they have reported all: each vertex that can be reached from the start vertices of one of the traversals, on a way that avoids the
    vertices in the set at the beginning, is a start vertex of one of the traversals, or it has been reported, by exactly one of them. *)
Theorem C89_series_complete :
  forall {V I L : Type} (V_dec : forall a b : V, {a = b} + {a <> b}) (I_dec : forall a b : I, {a = b} + {a <> b}) (vid : V -> I)
    (VS : VSet I) (PM : PMap I V) (LM : PMap I L) (XM : DMap I Z 0%Z) (next : V -> list (V * L)) (E : I -> I -> Prop),
  presents vid next E ->
  forall (rs : list (round V)), (forall r, In r rs -> round_ok r) ->
  forall (shared : vs_t VS) (reports : list (list V)) (after : vs_t VS),
  series V_dec vid VS PM LM XM next shared rs = (reports, true, after) ->
  let initially := fun i => vs_mem VS i shared = true in
  forall i, reachable (avoiding E initially) (fun j => exists r, In r rs /\ starts_from vid initially r j) i -> ~ initially i ->
  (exists r, In r rs /\ is_start vid (round_starts r) i) \/
  (exists! k, exists os v, nth_error reports k = Some os /\ In v os /\ vid v = i).
Proof.
  exact (fun V I L V_dec I_dec vid VS PM LM XM next E => series_complete_spec V_dec I_dec vid VS PM LM XM next E).
Qed.
Print Assumptions C89_series_complete.

(** Programs that use three strategies on the graph [g_next] (0 to 4, and 5 that leads to 0), vertex 3 is in the set at the beginning.  In the first one, all traversals come to their end;
    in the second one, the first traversal is left after 6 passes of its loop. *)
Definition dfs_shared : dfs_cfg :=
  let o := dfs_ask DFS_TREE both_entering false false in match dfs_options o true with inl cfg => cfg | inr _ => o end.
Definition series_rounds : list (round nat) :=
  [RBreadthFirst bfs_default [1] None 50; RNeighborsThenDepth ntd_default [0] None 50; RDepthFirst dfs_shared [2; 5] 50].
Definition series_rounds_left : list (round nat) :=
  [RDepthFirst dfs_shared [5; 2] 6; RBreadthFirst bfs_default [0; 4] None 50; RNeighborsThenDepth ntd_default [2] None 50].
Example C89_example :
  presents (fun v : nat => v) g_next (graph_of g_next) /\
  (forall r, In r (series_rounds ++ series_rounds_left) -> round_ok r) /\
  (let '(reports, all_ended, after) := series Nat.eq_dec (fun v => v) hVS hPM hPM hXM g_next (vs_of_list hVS (vs_empty hVS) [3]) series_rounds in
   reports = [[]; [2]; [5]] /\ all_ended = true /\ map (fun i => vs_mem hVS i after) [0; 1; 2; 3; 4; 5] = [true; true; true; true; false; true]) /\
  (let '(reports, all_ended, after) := series Nat.eq_dec (fun v => v) hVS hPM hPM hXM g_next (vs_of_list hVS (vs_empty hVS) [3]) series_rounds_left in
   reports = [[5; 0]; [1; 2]; []] /\ all_ended = false).
Proof.
  split; [apply presents_graph_of|]. split; [|vm_compute; auto].
  assert (H : round_ok (RDepthFirst dfs_shared [2; 5] 50)).
  { split; [exists (dfs_ask DFS_TREE both_entering false false); reflexivity|]. repeat split. intros []; vm_compute; auto; discriminate. }
  intros r Hr. simpl in Hr. destruct Hr as [<-|[<-|[<-|[<-|[<-|[<-|[]]]]]]]; try exact H; simpl; auto.
Qed.
