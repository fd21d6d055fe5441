(** Properties of a history of operations on one started traversal: C86.

    A program can call next, go_to, and any number of iterators of go_for_vertices_in, go_for_depth_range and go_for_distance_range in any order.  [os] are the reports of the traversal
    within a number of passes (any list), [e] tells what follows then.  [history] has an entry for each operation: the operation, the reports that it has taken from the traversal,
    and what it has answered. *)
From Coq Require Import List ZArith Bool Arith Lia Sorted.
From Verif Require Import Machine GearSpec Spec TraversalSpec Common BFSModel GoModel HistoryModel HistorySpec HistoryProofs HistoryFail PropBFS Examples.
Import ListNotations.

(** Each report goes to exactly one operation, and in the order of the traversal: no report is lost or used twice. *)
Theorem C86_each_report_once :
  forall {O I : Type} (I_dec : forall a b : I, {a = b} + {a <> b}) (id : O -> I) (os : list O) (e : source_end) (ops : list (operation O I)),
  map e_operation (history I_dec id os e ops) = ops /\
  exists rest, os = flat_map e_taken (history I_dec id os e ops) ++ rest.
Proof.
  exact (fun O I I_dec id os e ops => match history_ok I_dec id os e ops with conj A (conj B _) => conj A B end).
Qed.
Print Assumptions C86_each_report_once.

(** An operation delivers the last report it has taken; this is one that it may deliver; it has not skipped a report that it looks for. *)
Theorem C86_operations_deliver_what_they_seek :
  forall {O I : Type} (I_dec : forall a b : I, {a = b} + {a <> b}) (id : O -> I) (os : list O) (e : source_end) (ops : list (operation O I)) before en after,
  history I_dec id os e ops = before ++ en :: after -> entry_ok id (map e_operation before) en.
Proof.
  exact (fun O I I_dec id os e ops before en after H => match history_ok I_dec id os e ops with conj _ (conj _ (conj C _)) => proj1 (C before en after H) end).
Qed.
Print Assumptions C86_operations_deliver_what_they_seek.

(** next and go_to fail to deliver only if all reports have been taken.  Then, later operations take and deliver nothing. *)
Theorem C86_exhausted :
  forall {O I : Type} (I_dec : forall a b : I, {a = b} + {a <> b}) (id : O -> I) (os : list O) (e : source_end) (ops : list (operation O I)) before en after,
  history I_dec id os e ops = before ++ en :: after ->
  e_operation en = Next \/ (exists target fail_silently, e_operation en = GoTo target fail_silently) ->
  delivers en = false ->
  os = flat_map e_taken (before ++ [en]) /\ forall later, In later after -> e_taken later = [] /\ delivers later = false.
Proof. exact (fun O I I_dec id os e ops => history_after I_dec id os e ops). Qed.
Print Assumptions C86_exhausted.

(** An exception of the traversal itself reaches at most one operation. *)
Theorem C86_own_exception_once :
  forall {O I : Type} (I_dec : forall a b : I, {a = b} + {a <> b}) (id : O -> I) (os : list O) (e : source_end) (ops : list (operation O I)),
  (forall x en, In en (history I_dec id os e ops) -> e_answer en = Some (Raises x) -> x = KeyErrorNotFound \/ e = SExn x) /\
  length (filter raises_own (history I_dec id os e ops)) <= 1.
Proof. exact (fun O I I_dec id os e ops => history_own I_dec id os e ops). Qed.
Print Assumptions C86_own_exception_once.

(** An iterator of go_for_vertices_in delivers at most as many vertices as different ones have been requested. *)
Theorem C86_vertices_iterator_bound :
  forall {O I : Type} (I_dec : forall a b : I, {a = b} + {a <> b}) (id : O -> I) (os : list O) (e : source_end) (ops : list (operation O I)) k wanted fail_silently,
  creator ops k = Some (GoForVerticesIn wanted fail_silently) ->
  length (filter (fun en => is_next_of k en && delivers en) (history I_dec id os e ops)) <= length (nodup I_dec wanted).
Proof. exact (fun O I I_dec id os e ops => history_count I_dec id os e ops). Qed.
Print Assumptions C86_vertices_iterator_bound.

(** The number of passes does not matter: if each operation is answered within the passes, more passes do not change the history. *)
Theorem C86_passes :
  forall {S O I : Type} (I_dec : forall a b : I, {a = b} + {a <> b}) (id : O -> I) (step : S -> step_result S O exn) s0 n m os s1 (ops : list (operation O I)),
  run step n s0 = (os, Running s1) ->
  (forall en, In en (history I_dec id os SMore ops) -> e_answer en <> Some Waits) ->
  history I_dec id (fst (run step (n + m) s0)) (source_end_of (snd (run step (n + m) s0))) ops = history I_dec id os SMore ops.
Proof. exact (fun S O I I_dec id => history_passes I_dec id). Qed.
Print Assumptions C86_passes.

(** Consequence for breadth first search: whatever the operations are, all that they deliver, taken together, are different vertices, by non-decreasing depth, and each depth is minimal. *)
Theorem C86_breadth_first_history :
  forall {V I L : Type} (I_dec : forall a b : I, {a = b} + {a <> b}) (vid : V -> I)
    (VS : VSet I) (PM : PMap I V) (LM : PMap I L) (next : V -> list (V * L)) (cfg : bfs_cfg)
    (E : I -> I -> Prop) (starts : list V) lim n os r ops,
  bc_is_tree cfg = false -> bc_report_depth_increase cfg = false -> presents vid next E ->
  bfs_run vid VS PM LM next cfg starts None lim n = (os, r) ->
  let all := delivered (history I_dec (fun rep => vid (br_vertex rep)) os (source_end_of r) ops) in
  NoDup (bfs_ids vid all) /\ StronglySorted (fun a b => br_depth a <= br_depth b)%Z all /\
  forall rep, In rep all -> exists k, br_depth rep = Z.of_nat k /\ min_depth E (is_start vid starts) (vid (br_vertex rep)) k.
Proof.
  exact (fun V I L I_dec vid VS PM LM next cfg E starts lim n os r ops H1 H2 H3 Hr =>
    match C01_bfs_reports_reachable_once I_dec vid VS PM LM next cfg E starts H1 H2 H3, C02_bfs_depth_minimal I_dec vid VS PM LM next cfg E starts lim n os r H1 H2 H3 Hr with
    | conj A _, conj B (conj C _) =>
        match history_sorted I_dec (fun rep => vid (br_vertex rep)) (fun a b => br_depth a <= br_depth b)%Z os (source_end_of r) ops with
        | conj P Q => conj (history_distinct I_dec (fun rep => vid (br_vertex rep)) os (source_end_of r) ops (proj1 (A lim n os r Hr)))
                           (conj (Q C) (fun rep Hin => B rep (P rep Hin)))
        end
    end).
Qed.
Print Assumptions C86_breadth_first_history.

(** Two iterators, [next] and [go_to] interleaved; the numbers are the vertices. *)
Definition some_ops : list (operation nat nat) :=
  [GoForVerticesIn [4; 9; 4] false; GoForRange (Nat.leb 3) (fun v => Nat.ltb v 8); Next; NextOf 1; NextOf 0; NextOf 1; GoTo 6 false; NextOf 0; Next; NextOf 1; NextOf 0].

(** Option fail_silently.  (If the traversal itself does not raise KeyError:) KeyError is only raised by go_to, and by iterators of go_for_vertices_in, and only if they have been called
    without fail_silently ([may_raise]); and go_to without fail_silently never answers silently that there is nothing. *)
Theorem C86_fail_silently :
  forall {O I : Type} (I_dec : forall a b : I, {a = b} + {a <> b}) (id : O -> I) (os : list O) (e : source_end) (ops : list (operation O I)) before en after,
  e <> SExn KeyErrorNotFound -> history I_dec id os e ops = before ++ en :: after ->
  (e_answer en = Some (Raises KeyErrorNotFound) -> may_raise (map e_operation before) (e_operation en)) /\
  (forall target, e_operation en = GoTo target false -> e_answer en <> Some Stops).
Proof. exact (fun O I I_dec id os e ops before en after => history_raises I_dec id os e ops before en after). Qed.
Print Assumptions C86_fail_silently.
Example C86_fail_silently_example :
  map e_answer (history Nat.eq_dec (fun v => v) [1; 2; 3] SEnd [GoForVerticesIn [2; 7] false; GoForVerticesIn [8] true; NextOf 0; NextOf 0; NextOf 1; GoTo 9 true; GoTo 9 false]) =
  [None; None; Some (Delivers 2); Some (Raises KeyErrorNotFound); Some Stops; Some Stops; Some (Raises KeyErrorNotFound)].
Proof. vm_compute. reflexivity. Qed.

(** Missing vertices.  An iterator of go_for_vertices_in that has been called without fail_silently ends regularly only when it has delivered as many vertices as there are in the set, or if
    it has raised an exception before. *)
Theorem C86_missing_vertices :
  forall {O I : Type} (I_dec : forall a b : I, {a = b} + {a <> b}) (id : O -> I) (os : list O) (e : source_end) (ops : list (operation O I)) before en after k wanted,
  history I_dec id os e ops = before ++ en :: after -> e_operation en = NextOf k ->
  creator (map e_operation before) k = Some (GoForVerticesIn wanted false) -> e_answer en = Some Stops ->
  (exists earlier x, In earlier before /\ is_next_of k earlier = true /\ e_answer earlier = Some (Raises x)) \/
  length (filter (fun en => is_next_of k en && delivers en) before) = length (nodup I_dec wanted).
Proof. exact (fun O I I_dec id os e ops before en after k wanted => history_missing I_dec id os e ops before en after k wanted). Qed.
Print Assumptions C86_missing_vertices.
Example C86_missing_vertices_example :
  map e_answer (history Nat.eq_dec (fun v => v) [1; 2; 3] SEnd [GoForVerticesIn [2; 1; 2] false; NextOf 0; NextOf 0; NextOf 0]) = [None; Some (Delivers 1); Some (Delivers 2); Some Stops].
Proof. vm_compute. reflexivity. Qed.

Example C86_example :
  map (fun en => (e_taken en, e_answer en)) (history Nat.eq_dec (fun v => v) [1; 2; 3; 4; 5; 6; 7; 8; 9] (SExn RuntimeErrorLimit) some_ops) =
  [([], None); ([], None); ([1], Some (Delivers 1)); ([2; 3], Some (Delivers 3)); ([4], Some (Delivers 4)); ([5], Some (Delivers 5)); ([6], Some (Delivers 6));
   ([7; 8; 9], Some (Delivers 9)); ([], Some (Raises RuntimeErrorLimit)); ([], Some Stops); ([], Some Stops)].
Proof. vm_compute. reflexivity. Qed.

(** Breadth first search on an infinite graph: each operation is answered within 20 passes, so the history is the same for any larger number of passes. *)
Definition inf_ops : list (operation (@bfs_report nat nat unit hVS hPM hPM) nat) := [GoForVerticesIn [2; 4] true; Next; NextOf 0; GoTo 4 false].
Definition answered_vertex (en : entry (@bfs_report nat nat unit hVS hPM hPM) nat) : option nat :=
  match e_answer en with Some (Delivers rep) => Some (br_vertex rep) | _ => None end.

Example C86_bfs_example :
  presents (fun v => v) inf_next (graph_of inf_next) /\
  let p := bfs_run (fun v => v) hVS hPM hPM inf_next bfs_default [0] None None 20 in
  (match snd p with Running _ => True | _ => False end) /\
  let h := history Nat.eq_dec (fun rep => br_vertex rep) (fst p) (source_end_of (snd p)) inf_ops in
  map answered_vertex h = [None; Some 1; Some 2; Some 4] /\
  forallb (fun en => match e_answer en with Some Waits => false | _ => true end) h = true.
Proof. split; [apply presents_graph_of|]. vm_compute. auto. Qed.
