(** Properties of TraversalDepthFirst: C04, C09-C16, C49, C50, C59-C64.

    In all theorems, [o] are the options as the user gives them, and [cfg] what start_from makes of them if it does not raise an error ([dfs_options o _ = inl cfg]).
    [skip m]: the consumer calls skip_expanding_entered_vertex at report number [m]. [dfs_traverse ... lim n = (os, r)]: [os] are the reports after [n]
    passes of the loops, [r] tells if the traversal is still running, has ended, or has raised an error, with the
    calls of the neighbor function (vertex, attribute depth), most recent first. *)
From Coq Require Import List ZArith Bool Arith Lia.
From Verif Require Import Machine GearSpec Spec TraversalSpec Common PathsModel PathsSpec DFSModel DFSSpec DFSTreeSpec DFSReports DFSMain
  DFSMore DFSDet DFSCompare DFSTrace DFSModes DFSPaths DFSFinal Examples DFSExamples.
Import ListNotations.

(** C09 (and C04 for this strategy). Mode DFS_TREE; only entering events are requested, among them ENTERING_SUCCESSOR (the default). No vertex is reported twice;
    each reported vertex is reachable from the start vertices, without edges into preloaded vertices; when the traversal has ended without skipped expansions,
    each such vertex has been reported, except perhaps start vertices, if ENTERING_START is not requested. *)
Theorem C09_dfs_reports_reachable_once :
  forall {V I L : Type} (V_dec : forall a b : V, {a = b} + {a <> b}) (vid : V -> I) (VS : VSet I) (PM : PMap I V) (LM : PMap I L)
    (XM : DMap I Z 0%Z) (next : V -> list (V * L)) (starts : list V) (o cfg : dfs_cfg) (skip : nat -> bool) (av : option (vs_t VS)),
  dfs_options o (match av with Some _ => true | None => false end) = inl cfg ->
  dc_mode cfg = DFS_TREE -> dc_is_tree cfg = false ->
  (forall ev, dc_report cfg ev = true -> ev = ENTERING_START \/ ev = ENTERING_SUCCESSOR) -> dc_report cfg ENTERING_SUCCESSOR = true ->
  forall (E : I -> I -> Prop), presents vid next E ->
  let preloaded := in_already_visited VS av in
  let St i := is_start vid starts i /\ ~ preloaded i in
  (forall lim n os r, dfs_traverse V_dec vid VS PM LM XM next cfg skip starts av lim n = (os, r) ->
     let ids := map (fun rep => vid (fr_vertex rep)) os in
     NoDup ids /\
     (forall i, In i ids -> ~ preloaded i /\ reachable (avoiding E preloaded) St i) /\
     (forall x c, r = Raised x c -> x = RuntimeErrorLimit) /\
     (forall c, r = Ended c -> (forall m, skip m = false) ->
        forall i, reachable (avoiding E preloaded) St i -> In i ids \/ (dc_report cfg ENTERING_START = false /\ is_start vid starts i))) /\
  (forall l, (forall i, reachable (avoiding E preloaded) St i -> In i l) -> forall lim, exists n os r,
     dfs_traverse V_dec vid VS PM LM XM next cfg skip starts av lim n = (os, r) /\ forall c, r <> Running c).
Proof.
  intros V I L V_dec vid VS PM LM XM next starts o cfg skip av Ho Hm Ht H1 H2 E HE P St.
  exact (conj (fun lim n os r HR => dfs_reach V_dec vid VS PM LM XM next starts cfg skip av o Ho Ht Hm H1 H2 E lim n os r HE HR)
              (fun l Hl => dfs_tree_terminates V_dec vid VS PM LM XM next starts cfg skip av Ht Hm o Ho E l HE Hl)).
Qed.
Print Assumptions C09_dfs_reports_reachable_once.

Example C09_example :
  let o := dfs_ask DFS_TREE [ENTERING_SUCCESSOR] false true in
  dfs_options o false = inl (dfs_checked o) /\
  seen (dfs_try o g_next [0] 60) = [(2, Some ENTERING_SUCCESSOR, 1%Z, []); (3, Some ENTERING_SUCCESSOR, 2%Z, []);
     (4, Some ENTERING_SUCCESSOR, 3%Z, []); (1, Some ENTERING_SUCCESSOR, 1%Z, [])] /\
  exists c, snd (dfs_try o g_next [0] 60) = Ended c.
Proof. split; [reflexivity|]. split; [vm_compute; reflexivity|]. eexists. vm_compute. reflexivity. Qed.

(** C10 (and C04). Mode DFS_TREE, any events. The entered vertices form a depth-first tree, and the reports show it: see [shows] and [depth_first_tree] in
    DFSTreeSpec. At each report, depth is the number of edges of the path in this tree, [visited] holds preloaded and entered vertices, [index] (if computed) numbers the
    vertices in the order of entering, and [paths] delivers for each entered vertex its path in the tree ([tree_look]; paths
    need a gear that marks gaps, see [marks_gaps] and C79). The neighbor
    function has been called for the expanded vertices, in the order of entering. *)
Theorem C10_dfs_tree :
  forall {V I L : Type} (V_dec : forall a b : V, {a = b} + {a <> b}) (vid : V -> I) (VS : VSet I) (PM : PMap I V) (LM : PMap I L)
    (XM : DMap I Z 0%Z) (next : V -> list (V * L)) (starts : list V) (o cfg : dfs_cfg) (skip : nat -> bool) (av : option (vs_t VS)),
  dfs_options o (match av with Some _ => true | None => false end) = inl cfg ->
  dc_mode cfg = DFS_TREE -> dc_is_tree cfg = false ->
  forall (E : I -> I -> Prop), presents vid next E ->
  let preloaded := in_already_visited VS av in
  forall lim n os r, dfs_traverse V_dec vid VS PM LM XM next cfg skip starts av lim n = (os, r) ->
  exists tree,
    shows (dc_report cfg) skip entry_event (tree_look V_dec vid VS PM LM XM next cfg av) 0 [] tree os /\
    depth_first_tree vid (next_edge next) starts preloaded tree /\
    (forall e, In e tree -> reachable (avoiding E preloaded) (fun i => is_start vid starts i /\ ~ preloaded i) (vid (en_vertex e))) /\
    match r with
    | Running c => map fst (rev c) = map en_vertex (filter en_expanded tree)
    | Ended c => map fst (rev c) = map en_vertex (filter en_expanded tree) /\
        forall i, reachable (fun i j => avoiding E preloaded i j /\ forall e, In e tree -> vid (en_vertex e) = i -> en_expanded e = true)
                            (fun i => is_start vid starts i /\ ~ preloaded i) i -> In i (map (fun e => vid (en_vertex e)) tree)
    | Raised x c => x = RuntimeErrorLimit /\
        exists e tree', tree = tree' ++ [e] /\ map fst (rev c) = map en_vertex (filter en_expanded tree')
    end.
Proof.
  intros V I L V_dec vid VS PM LM XM next starts o cfg skip av Ho Hm Ht E HE P lim n os r HR.
  exact (dfs_tree_main V_dec vid VS PM LM XM next starts cfg skip av Ht Hm o Ho E lim n os r HE HR).
Qed.
Print Assumptions C10_dfs_tree.

Example C10_example :
  let o := dfs_ask DFS_TREE both_entering true true in
  let preload := vs_add hVS 3 (vs_empty hVS) in
  dfs_options o true = inl (dfs_checked o) /\
  seen (dfs_traverse Nat.eq_dec (fun v : nat => v) hVS hPM hPM hXM g_next (dfs_checked o) (fun m => m =? 1) [0] (Some preload) None 60)
  = [(0, Some ENTERING_START, 0%Z, [0]); (2, Some ENTERING_SUCCESSOR, 1%Z, [0; 2]); (1, Some ENTERING_SUCCESSOR, 1%Z, [0; 1])] /\
  snd (dfs_traverse Nat.eq_dec (fun v : nat => v) hVS hPM hPM hXM g_next (dfs_checked o) (fun m => m =? 1) [0] (Some preload) None 60)
  = Ended [(1, 1%Z); (0, 0%Z)] /\
  marks_gaps (@hPM nat).
Proof. split; [reflexivity|]. split; [vm_compute; reflexivity|]. split; [vm_compute; reflexivity|]. apply GearProofs.HashPMap_gaps. Qed.

(** C10, second part. With and without compute_trace, a traversal reports the same vertices with the same events and depths, in the same order ([same_seen]), as far as
    both have come ([same_as_far]); if both have ended, all reports agree. *)
Theorem C10_dfs_with_and_without_trace :
  forall {V I L : Type} (V_dec : forall a b : V, {a = b} + {a <> b}) (vid : V -> I) (VS : VSet I) (PM : PMap I V) (LM : PMap I L)
    (XM : DMap I Z 0%Z) (next : V -> list (V * L)) (starts : list V) (av : option (vs_t VS)) (o cfg1 cfg2 : dfs_cfg) (skip : nat -> bool),
  let given := match av with Some _ => true | None => false end in
  dfs_options o given = inl cfg1 -> dfs_options (ask_trace o) given = inl cfg2 -> (dc_is_tree o = true -> av = None) ->
  forall lim1 n1 os1 r1 lim2 n2 os2 r2,
  dfs_traverse V_dec vid VS PM LM XM next cfg1 skip starts av lim1 n1 = (os1, r1) ->
  dfs_traverse V_dec vid VS PM LM XM next cfg2 skip starts av lim2 n2 = (os2, r2) ->
  same_as_far (same_seen VS PM LM XM cfg1 cfg2) os1 os2 /\
  (forall c1 c2, r1 = Ended c1 -> r2 = Ended c2 -> Forall2 (same_seen VS PM LM XM cfg1 cfg2) os1 os2).
Proof.
  intros V I L V_dec vid VS PM LM XM next starts av o cfg1 cfg2 skip.
  exact (trace_agrees V_dec vid VS PM LM XM next starts av o cfg1 cfg2 skip).
Qed.
Print Assumptions C10_dfs_with_and_without_trace.

Example C10_trace_example :
  let o := dfs_ask DFS_TREE both_entering false true in
  dfs_uses_trace (dfs_checked o) = false /\ dfs_uses_trace (dfs_checked (ask_trace o)) = true /\
  map (fun x => fst x) (seen (dfs_try o g_next [0] 60)) = map (fun x => fst x) (seen (dfs_try (ask_trace o) g_next [0] 60)) /\
  length (seen (dfs_try o g_next [0] 60)) = 5.
Proof. split; [reflexivity|]. split; [reflexivity|]. split; vm_compute; reflexivity. Qed.

(** C11. The trace is a path of the graph that begins with a start vertex and ends with the reported vertex; depth fits to it, and [on_trace] holds its
    vertices. For reports of skipped start vertices and of edges to vertices that are not entered, depth and [on_trace] do not count the reported vertex. *)
Theorem C11_dfs_trace :
  forall {V I L : Type} (V_dec : forall a b : V, {a = b} + {a <> b}) (vid : V -> I) (VS : VSet I) (PM : PMap I V) (LM : PMap I L)
    (XM : DMap I Z 0%Z) (next : V -> list (V * L)) (starts : list V) (o cfg : dfs_cfg) (skip : nat -> bool) (av : option (vs_t VS)),
  dfs_options o (match av with Some _ => true | None => false end) = inl cfg ->
  dfs_uses_trace cfg = true ->
  forall lim n os r, dfs_traverse V_dec vid VS PM LM XM next cfg skip starts av lim n = (os, r) -> forall rep, In rep os ->
  path_list (next_edge next) (fun s => In s starts) (fr_trace rep) (fr_vertex rep) /\
  fr_event rep <> None /\
  (dc_compute_depth cfg = true ->
     fr_depth rep = (Z.of_nat (length (fr_trace rep)) - (if on_walk (fr_event rep) then 1 else 2))%Z) /\
  (dc_compute_on_trace cfg = true -> forall i, vs_mem VS i (fr_on_trace rep) = true <->
     In i (map vid (if on_walk (fr_event rep) then fr_trace rep else removelast (fr_trace rep)))).
Proof.
  intros V I L V_dec vid VS PM LM XM next starts o cfg skip av Ho Hu lim n os r HR.
  exact (trace_is_path V_dec vid VS PM LM XM next starts cfg skip av o Ho Hu lim n os r HR).
Qed.
Print Assumptions C11_dfs_trace.

Example C11_example :
  let o := dfs_ask DFS_TREE all_kinds true true in
  dfs_options o false = inl (dfs_checked o) /\ dfs_uses_trace (dfs_checked o) = true /\
  seen (dfs_try o kinds_next [0] 60) =
    [(0, Some ENTERING_START, 0%Z, [0]); (1, Some ENTERING_SUCCESSOR, 1%Z, [0; 1]); (2, Some ENTERING_SUCCESSOR, 2%Z, [0; 1; 2]);
     (0, Some BACK_EDGE, 2%Z, [0; 1; 2; 0]); (2, Some FORWARD_EDGE, 0%Z, [0; 2]); (3, Some ENTERING_SUCCESSOR, 1%Z, [0; 3]);
     (2, Some CROSS_EDGE, 1%Z, [0; 3; 2])].
Proof. repeat split; vm_compute; reflexivity. Qed.

(** C12. If entering and leaving are requested, the reports can be replayed on a stack ([brackets]), and it is empty at the end. The flag: in mode ALL_WALKS, or with is_tree, it is not
    claimed that a vertex is entered with event ENTERING_START exactly if the stack is empty (see C62). *)
Theorem C12_dfs_nested :
  forall {V I L : Type} (V_dec : forall a b : V, {a = b} + {a <> b}) (vid : V -> I) (VS : VSet I) (PM : PMap I V) (LM : PMap I L)
    (XM : DMap I Z 0%Z) (next : V -> list (V * L)) (starts : list V) (o cfg : dfs_cfg) (skip : nat -> bool) (av : option (vs_t VS)),
  dfs_options o (match av with Some _ => true | None => false end) = inl cfg ->
  dfs_uses_trace cfg = true ->
  dc_report cfg ENTERING_START = true -> dc_report cfg ENTERING_SUCCESSOR = true ->
  dc_report cfg LEAVING_START = true -> dc_report cfg LEAVING_SUCCESSOR = true ->
  forall lim n os r, dfs_traverse V_dec vid VS PM LM XM next cfg skip starts av lim n = (os, r) ->
  exists st, brackets (negb (dc_is_tree cfg) && negb (is_all_walks (dc_mode cfg))) [] os st /\ (forall c, r = Ended c -> st = []).
Proof.
  intros V I L V_dec vid VS PM LM XM next starts o cfg skip av Ho Hu.
  exact (trace_nested' V_dec vid VS PM LM XM next starts cfg skip av o Ho Hu).
Qed.
Print Assumptions C12_dfs_nested.

Example C12_example :
  let o := dfs_ask DFS_TREE all_tree_events false true in
  dfs_options o false = inl (dfs_checked o) /\ dfs_uses_trace (dfs_checked o) = true /\
  map (fun x => fst (fst x)) (seen (dfs_try o g_next [0] 60)) =
    [(0, Some ENTERING_START); (2, Some ENTERING_SUCCESSOR); (3, Some ENTERING_SUCCESSOR); (4, Some ENTERING_SUCCESSOR);
     (4, Some LEAVING_SUCCESSOR); (3, Some LEAVING_SUCCESSOR); (2, Some LEAVING_SUCCESSOR);
     (1, Some ENTERING_SUCCESSOR); (1, Some LEAVING_SUCCESSOR); (0, Some LEAVING_START)] /\
  exists c, snd (dfs_try o g_next [0] 60) = Ended c.
Proof. repeat split; try (vm_compute; reflexivity). eexists. vm_compute. reflexivity. Qed.

(** C13. Mode DFS_TREE; entering events and BACK_EDGE are requested. The report of a back, forward or cross edge shows, as last step of the trace, an edge from an
    entered vertex ([pre]: the trace to it) to a vertex that has been entered before (or is preloaded), and the edge is of the reported kind. *)
Theorem C13_dfs_edge_kinds :
  forall {V I L : Type} (V_dec : forall a b : V, {a = b} + {a <> b}) (vid : V -> I) (VS : VSet I) (PM : PMap I V) (LM : PMap I L)
    (XM : DMap I Z 0%Z) (next : V -> list (V * L)) (starts : list V) (o cfg : dfs_cfg) (skip : nat -> bool) (av : option (vs_t VS)),
  dfs_options o (match av with Some _ => true | None => false end) = inl cfg ->
  dfs_uses_trace cfg = true -> dc_mode cfg = DFS_TREE -> dc_is_tree cfg = false ->
  dc_report cfg ENTERING_START = true -> dc_report cfg ENTERING_SUCCESSOR = true -> dc_report cfg BACK_EDGE = true ->
  forall lim n os r, dfs_traverse V_dec vid VS PM LM XM next cfg skip starts av lim n = (os, r) ->
  (forall o1 rep o2, os = o1 ++ rep :: o2 ->
    match fr_event rep with
    | Some BACK_EDGE | Some FORWARD_EDGE | Some CROSS_EDGE =>
        exists pre, fr_trace rep = pre ++ [fr_vertex rep] /\
          match fr_event rep with
          | Some BACK_EDGE => edge_back vid pre rep
          | Some FORWARD_EDGE => ~ edge_back vid pre rep /\ edge_forward vid o1 pre rep
          | _ => ~ edge_back vid pre rep /\ ~ edge_forward vid o1 pre rep
          end /\
          (in_already_visited VS av (vid (fr_vertex rep)) \/
           exists rep', In rep' o1 /\ entering (fr_event rep') = true /\ vid (fr_vertex rep') = vid (fr_vertex rep)) /\
          exists rep', In rep' o1 /\ entering (fr_event rep') = true /\ fr_trace rep' = pre
    | _ => True
    end) /\
  (forall c, r = Ended c -> dc_report cfg FORWARD_EDGE = true -> dc_report cfg CROSS_EDGE = true -> (forall m, skip m = false) ->
     forall rep w, In rep os -> entering (fr_event rep) = true -> next_edge next (fr_vertex rep) w ->
     exists rep', In rep' os /\ fr_vertex rep' = w /\ fr_trace rep' = fr_trace rep ++ [w] /\
       (fr_event rep' = Some ENTERING_SUCCESSOR \/ fr_event rep' = Some BACK_EDGE \/ fr_event rep' = Some FORWARD_EDGE \/ fr_event rep' = Some CROSS_EDGE)).
Proof.
  intros V I L V_dec vid VS PM LM XM next starts o cfg skip av Ho Hu Hm Ht R1 R2 R3 lim n os r HR.
  exact (kinds_both V_dec vid VS PM LM XM next starts cfg skip av o Ho Hu Hm Ht R1 R2 lim n os r R3 HR).
Qed.
Print Assumptions C13_dfs_edge_kinds.

Example C13_example :
  let o := dfs_ask DFS_TREE all_kinds false true in
  dfs_options o false = inl (dfs_checked o) /\ dfs_uses_trace (dfs_checked o) = true /\
  map (fun x => fst (fst x)) (seen (dfs_try o kinds_next [0] 60)) =
    [(0, Some ENTERING_START); (1, Some ENTERING_SUCCESSOR); (2, Some ENTERING_SUCCESSOR); (0, Some BACK_EDGE); (2, Some FORWARD_EDGE);
     (3, Some ENTERING_SUCCESSOR); (2, Some CROSS_EDGE)] /\
  exists c, snd (dfs_try o kinds_next [0] 60) = Ended c.
Proof. repeat split; try (vm_compute; reflexivity). eexists. vm_compute. reflexivity. Qed.

(** C14. Mode ALL_PATHS. [ps]: the entered simple paths, with the information if the last vertex has been expanded. [dnode p] says that [p] is a walk from a start
    vertex (last step first, each step with the number of the edge). No path is entered twice. When the traversal has ended, each simple path has been entered,
    except those that continue a path that the consumer has chosen not to expand. The reports show these paths: depth and trace belong to the
    path, and (with one start vertex) [paths] delivers it ([walk_look]). *)
Theorem C14_dfs_all_paths :
  forall {V I L : Type} (V_dec : forall a b : V, {a = b} + {a <> b}) (vid : V -> I) (VS : VSet I) (PM : PMap I V) (LM : PMap I L)
    (XM : DMap I Z 0%Z) (next : V -> list (V * L)) (starts : list V) (o cfg : dfs_cfg) (skip : nat -> bool) (av : option (vs_t VS)),
  dfs_options o (match av with Some _ => true | None => false end) = inl cfg ->
  dfs_uses_trace cfg = true -> dc_is_tree cfg = false -> dc_mode cfg = ALL_PATHS ->
  (forall lim n os r, dfs_traverse V_dec vid VS PM LM XM next cfg skip starts av lim n = (os, r) ->
   exists ps : list (bool * node V),
    shows (dc_report cfg) skip entry_event (walk_look V_dec vid VS PM LM XM starts cfg) 0 [] (entries_at ps) os /\
    NoDup (map snd ps) /\ (forall b p, In (b, p) ps -> dnode next starts p /\ NoDup (ids vid p)) /\
    (forall c, r = Ended c -> forall p, dnode next starts p -> NoDup (ids vid p) ->
       (forall d q, p = d ++ q -> d <> [] -> ~ In (false, q) ps) -> exists b, In (b, p) ps) /\
    (forall x c, r = Raised x c -> x = RuntimeErrorLimit)) /\
  (forall E l, presents vid next E -> (forall i, reachable E (is_start vid starts) i -> In i l) ->
   forall lim, exists n os r, dfs_traverse V_dec vid VS PM LM XM next cfg skip starts av lim n = (os, r) /\ forall c, r <> Running c).
Proof.
  intros V I L V_dec vid VS PM LM XM next starts o cfg skip av Ho Hu Ht Hm.
  exact (conj (dfs_paths_main V_dec vid VS PM LM XM next starts cfg skip av o Ho Hu Ht Hm)
              (dfs_paths_terminates V_dec vid VS PM LM XM next starts cfg skip av o Ho Hu Ht Hm)).
Qed.
Print Assumptions C14_dfs_all_paths.

Example C14_example :
  let o := dfs_ask ALL_PATHS both_entering false true in
  dfs_options o false = inl (dfs_checked o) /\ dfs_uses_trace (dfs_checked o) = true /\
  map (fun x => snd x) (seen (dfs_try o dag_next [0] 60)) = [[0]; [0; 2]; [0; 1]; [0; 1; 2]; [0; 1; 2]] /\
  exists c, snd (dfs_try o dag_next [0] 60) = Ended c.
Proof. repeat split; try (vm_compute; reflexivity). eexists. vm_compute. reflexivity. Qed.

(** C15. Mode ALL_WALKS, without is_tree; reads as C14, for all walks. [own_event]: the event is ENTERING_START if the last vertex of the walk equals the first one (see C62). *)
Theorem C15_dfs_all_walks :
  forall {V I L : Type} (V_dec : forall a b : V, {a = b} + {a <> b}) (vid : V -> I) (VS : VSet I) (PM : PMap I V) (LM : PMap I L)
    (XM : DMap I Z 0%Z) (next : V -> list (V * L)) (starts : list V) (o cfg : dfs_cfg) (skip : nat -> bool) (av : option (vs_t VS)),
  dfs_options o (match av with Some _ => true | None => false end) = inl cfg ->
  dfs_uses_trace cfg = true -> dc_is_tree cfg = false -> dc_mode cfg = ALL_WALKS ->
  (forall lim n os r, dfs_traverse V_dec vid VS PM LM XM next cfg skip starts av lim n = (os, r) ->
   exists ps : list (bool * node V),
    shows (dc_report cfg) skip (own_event V_dec) (walk_look V_dec vid VS PM LM XM starts cfg) 0 [] (entries_at ps) os /\
    NoDup (map snd ps) /\ (forall b p, In (b, p) ps -> dnode next starts p) /\
    (forall c, r = Ended c -> forall p, dnode next starts p ->
       (forall d q, p = d ++ q -> d <> [] -> ~ In (false, q) ps) -> exists b, In (b, p) ps) /\
    (forall x c, r = Raised x c -> x = RuntimeErrorLimit)) /\
  (forall E l, presents vid next E -> (forall i p, reachable E (is_start vid starts) i -> walk E i p i -> p = []) ->
   (forall i, reachable E (is_start vid starts) i -> In i l) ->
   forall lim, exists n os r, dfs_traverse V_dec vid VS PM LM XM next cfg skip starts av lim n = (os, r) /\ forall c, r <> Running c).
Proof.
  intros V I L V_dec vid VS PM LM XM next starts o cfg skip av Ho Hu Ht Hm.
  exact (conj (dfs_walks_main V_dec vid VS PM LM XM next starts cfg skip av o Ho Hu Ht Hm)
              (dfs_walks_terminates V_dec vid VS PM LM XM next starts cfg skip av o Ho Hu Ht Hm)).
Qed.
Print Assumptions C15_dfs_all_walks.

Example C15_example :
  let o := dfs_ask ALL_WALKS both_entering false false in
  dfs_options o false = inl (dfs_checked o) /\ dfs_uses_trace (dfs_checked o) = true /\
  map (fun x => snd x) (seen (dfs_try o dag_next [0] 60)) = [[0]; [0; 2]; [0; 1]; [0; 1; 2]; [0; 1; 2]] /\
  map (fun x => snd x) (seen (dfs_try o pair_next [0] 4)) = [[0]; [0; 1]; [0; 1; 0]] /\
  exists c, snd (dfs_try o dag_next [0] 60) = Ended c.
Proof. repeat split; try (vm_compute; reflexivity). eexists. vm_compute. reflexivity. Qed.

(** C16, refuted. The edge from 0 to 1 has label 10, the edge from 0 to 2 has label 20. When vertex 1 is entered, both trace_labels and [paths] show
    label 20 for the edge from 0 to 1. *)
Theorem C16_dfs_labels_refuted :
  exists (next : nat -> list (nat * nat)) rep,
  In rep (fst (dfs_try (dfs_ask DFS_TREE both_entering true true) next [0] 30)) /\
  fr_event rep = Some ENTERING_SUCCESSOR /\ fr_trace rep = [0; 1] /\ fr_trace_labels rep = [20] /\
  iter_labeled_edges_from_start Nat.eq_dec (fun v => v) hPM hPM (fr_pred rep) (fr_labels rep) 10 1 = POk [(0, 1, 20)] /\
  ~ In (1, 20) (next 0).
Proof. exact dfs_labels_wrong. Qed.
Print Assumptions C16_dfs_labels_refuted.

(** C16, what holds: there is one label per edge of the trace, and the labels are right for edges that are not affected by the error ([safe_edge]: the edge is the only one of its
    source vertex, or some edge of the trace up to it is not the first one of its source vertex). Missing: the other edges, for which the property is false.
    In the implementation without trace, the labels in [paths] are right for all edges ([path_label] in theorem C10_dfs_tree). *)
Theorem C16_dfs_labels_partial :
  forall {V I L : Type} (V_dec : forall a b : V, {a = b} + {a <> b}) (vid : V -> I) (VS : VSet I) (PM : PMap I V) (LM : PMap I L)
    (XM : DMap I Z 0%Z) (next : V -> list (V * L)) (starts : list V) (o cfg : dfs_cfg) (skip : nat -> bool) (av : option (vs_t VS)),
  dfs_options o (match av with Some _ => true | None => false end) = inl cfg ->
  dfs_uses_trace cfg = true -> dc_labeled cfg = true ->
  forall lim n os r, dfs_traverse V_dec vid VS PM LM XM next cfg skip starts av lim n = (os, r) -> forall rep, In rep os ->
  exists p, dnode next starts p /\ rev (verts p) = fr_trace rep /\ trace_labels_ok next p (rev (fr_trace_labels rep)).
Proof.
  intros V I L V_dec vid VS PM LM XM next starts o cfg skip av Ho Hu Hl lim n os r HR.
  exact (dfs_labels_main V_dec vid VS PM LM XM next starts cfg skip av o Ho Hu lim n os r Hl HR).
Qed.
Print Assumptions C16_dfs_labels_partial.

(** Vertex 2 is entered by the edge with label 21. The label 20 at the end is wrong, it should be 10. *)
Example C16_example :
  map (fun rep => (fr_trace rep, fr_trace_labels rep)) (fst (dfs_try (dfs_ask DFS_TREE both_entering true true) g_next [0] 60)) =
  [([0], []); ([0; 2], [21]); ([0; 2; 3], [21; 23]); ([0; 2; 3; 4], [21; 23; 34]); ([0; 1], [20])].
Proof. vm_compute. reflexivity. Qed.

(** C49 for this strategy. If no two walks from the start vertices lead to the same vertex ([tree_like]), option is_tree does not change the reports. *)
Theorem C49_dfs_is_tree :
  forall {V I L : Type} (V_dec : forall a b : V, {a = b} + {a <> b}) (vid : V -> I) (VS : VSet I) (PM : PMap I V) (LM : PMap I L)
    (XM : DMap I Z 0%Z) (next : V -> list (V * L)) (starts : list V) (o cfg1 cfg2 : dfs_cfg) (skip : nat -> bool),
  tree_like vid next starts ->
  dfs_options (ask_is_tree o) false = inl cfg1 -> dfs_options o false = inl cfg2 -> dc_is_tree o = false ->
  forall lim1 n1 os1 r1 lim2 n2 os2 r2,
  dfs_traverse V_dec vid VS PM LM XM next cfg1 skip starts None lim1 n1 = (os1, r1) ->
  dfs_traverse V_dec vid VS PM LM XM next cfg2 skip starts None lim2 n2 = (os2, r2) ->
  same_as_far (same_seen VS PM LM XM cfg1 cfg2) os1 os2 /\
  (forall c1 c2, r1 = Ended c1 -> r2 = Ended c2 -> Forall2 (same_seen VS PM LM XM cfg1 cfg2) os1 os2).
Proof.
  intros V I L V_dec vid VS PM LM XM next starts o cfg1 cfg2 skip HT.
  exact (is_tree_agrees V_dec vid VS PM LM XM next starts None o cfg1 cfg2 skip eq_refl HT).
Qed.
Print Assumptions C49_dfs_is_tree.

Example C49_dfs_example :
  tree_like (fun v : nat => v) ears_next [0] /\
  let o := dfs_ask DFS_TREE both_entering true true in
  dfs_options (ask_is_tree o) false = inl (dfs_checked (ask_is_tree o)) /\
  seen (dfs_try (ask_is_tree o) ears_next [0] 30) = seen (dfs_try o ears_next [0] 30) /\
  length (seen (dfs_try o ears_next [0] 30)) = 3.
Proof. split; [exact ears_tree|]. split; [reflexivity|]. split; vm_compute; reflexivity. Qed.

(** C59. Skipping the expansion of a reported vertex: the neighbor function is called exactly for the other entered vertices, in the order of entering; and
    each vertex that can be reached without following the edges of a skipped vertex is entered. *)
Theorem C59_dfs_skip_expanding :
  forall {V I L : Type} (V_dec : forall a b : V, {a = b} + {a <> b}) (vid : V -> I) (VS : VSet I) (PM : PMap I V) (LM : PMap I L)
    (XM : DMap I Z 0%Z) (next : V -> list (V * L)) (starts : list V) (o cfg : dfs_cfg) (skip : nat -> bool) (av : option (vs_t VS)),
  dfs_options o (match av with Some _ => true | None => false end) = inl cfg ->
  dc_mode cfg = DFS_TREE -> dc_is_tree cfg = false ->
  forall (E : I -> I -> Prop), presents vid next E ->
  let preloaded := in_already_visited VS av in
  forall lim n os c, dfs_traverse V_dec vid VS PM LM XM next cfg skip starts av lim n = (os, Ended c) ->
  exists tree,
    shows (dc_report cfg) skip entry_event (fun _ _ _ => True) 0 [] tree os /\ NoDup (map (fun e => vid (en_vertex e)) tree) /\
    map fst (rev c) = map en_vertex (filter en_expanded tree) /\
    forall i, reachable (fun i j => avoiding E preloaded i j /\ forall e, In e tree -> vid (en_vertex e) = i -> en_expanded e = true)
                        (fun i => is_start vid starts i /\ ~ preloaded i) i -> In i (map (fun e => vid (en_vertex e)) tree).
Proof.
  intros V I L V_dec vid VS PM LM XM next starts o cfg skip av Ho Hm Ht E HE P lim n os c HR.
  exact (dfs_skip V_dec vid VS PM LM XM next starts cfg skip av o Ho Ht Hm E lim n os c HE HR).
Qed.
Print Assumptions C59_dfs_skip_expanding.

Example C59_example :
  let o := dfs_ask DFS_TREE [ENTERING_SUCCESSOR] false true in
  let p := dfs_traverse Nat.eq_dec (fun v : nat => v) hVS hPM hPM hXM g_next (dfs_checked o) (fun m => m =? 1) [0] None None 60 in
  map fr_vertex (fst p) = [2; 3; 1] /\ snd p = Ended [(1, 1%Z); (2, 1%Z); (0, 0%Z)].
Proof. split; vm_compute; reflexivity. Qed.

(** C60, refuted. If event FORWARD_OR_CROSS_EDGE is requested, it is never reported, although there are forward and cross edges. *)
Theorem C60_dfs_forward_or_cross_refuted :
  exists (next : nat -> list (nat * unit)),
  let o R := dfs_ask DFS_TREE R false true in
  let p := dfs_try (o all_kinds) next [0] 60 in
  let p' := dfs_try (o [ENTERING_START; ENTERING_SUCCESSOR; FORWARD_OR_CROSS_EDGE]) next [0] 60 in
  dfs_options (o [ENTERING_START; ENTERING_SUCCESSOR; FORWARD_OR_CROSS_EDGE]) false = inl (dfs_checked (o [ENTERING_START; ENTERING_SUCCESSOR; FORWARD_OR_CROSS_EDGE])) /\
  (exists rep, In rep (fst p) /\ fr_event rep = Some FORWARD_EDGE) /\ (exists rep, In rep (fst p) /\ fr_event rep = Some CROSS_EDGE) /\
  (exists c, snd p' = Ended c) /\ map fr_event (fst p') = [Some ENTERING_START; Some ENTERING_SUCCESSOR; Some ENTERING_SUCCESSOR; Some ENTERING_SUCCESSOR].
Proof. exact dfs_forward_or_cross_missing. Qed.
Print Assumptions C60_dfs_forward_or_cross_refuted.

(** C61, refuted. If CROSS_EDGE is requested and BACK_EDGE is not, an edge to a vertex on the trace is reported as CROSS_EDGE. *)
Theorem C61_dfs_cross_without_back_refuted :
  exists (next : nat -> list (nat * unit)) rep,
  let o := dfs_ask DFS_TREE [ENTERING_START; ENTERING_SUCCESSOR; CROSS_EDGE] false true in
  dfs_options o false = inl (dfs_checked o) /\
  In rep (fst (dfs_try o next [0] 60)) /\ fr_event rep = Some CROSS_EDGE /\ fr_trace rep = [0; 1; 2; 0].
Proof. exact dfs_cross_is_back. Qed.
Print Assumptions C61_dfs_cross_without_back_refuted.

(** C62, refuted. In mode ALL_WALKS, the start vertex is entered again as successor, and the event is ENTERING_START. *)
Theorem C62_dfs_walks_start_event_refuted :
  exists (next : nat -> list (nat * unit)) rep,
  let o := dfs_ask ALL_WALKS both_entering false false in
  dfs_options o false = inl (dfs_checked o) /\
  In rep (fst (dfs_try o next [0] 10)) /\ fr_event rep = Some ENTERING_START /\ fr_trace rep = [0; 0].
Proof. exact dfs_walks_start. Qed.
Print Assumptions C62_dfs_walks_start_event_refuted.

(** C63, refuted. Mode ALL_PATHS with two start vertices: when start vertex 1 is entered, [paths] delivers a path with an edge; when 0 is
    entered from 1, following the predecessors does not come to an end (for any number of steps). *)
Theorem C63_dfs_all_paths_paths_refuted :
  exists (next : nat -> list (nat * unit)) rep rep',
  let o := dfs_ask ALL_PATHS both_entering false true in
  dfs_options o false = inl (dfs_checked o) /\
  In rep (fst (dfs_try o next [0; 1] 30)) /\ fr_trace rep = [1] /\
  iter_vertices_from_start Nat.eq_dec (fun v => v) hPM (fr_pred rep) 10 1 = POk [0; 1] /\
  In rep' (fst (dfs_try o next [0; 1] 30)) /\ fr_trace rep' = [1; 0] /\
  forall fuel, iter_vertices_from_start Nat.eq_dec (fun v => v) hPM (fr_pred rep') fuel 0 = PFuel.
Proof. exact dfs_all_paths_cycle. Qed.
Print Assumptions C63_dfs_all_paths_paths_refuted.

(** C79, refuted. A gear that keeps vertices in an array with a number as gap marker ([aPM], as [GearForIntVerticesAndIDs]) instead of a dict ([hPMnum]): the traversal reports the
    same vertices, but [paths] has no path for the second start vertex [v] and for its successor [w]. Both implementations of the search ([trace]). *)
Theorem C79_dfs_array_gear_paths_refuted :
  forall trace : bool,
  exists (next : num -> list (num * unit)) (v w : num),
  let o := dfs_ask DFS_TREE both_entering trace true in
  let p1 := dfs_traverse num_dec num_id hVS hPMnum hPM hXM next (dfs_checked o) never [n0; v] None None 20 in
  let p2 := dfs_traverse num_dec num_id hVS aPM hPM hXM next (dfs_checked o) never [n0; v] None None 20 in
  dfs_options o false = inl (dfs_checked o) /\
  map fr_vertex (fst p1) = [n0; v; w] /\ map fr_vertex (fst p2) = [n0; v; w] /\
  map (fun rep => iter_vertices_from_start num_dec num_id hPMnum (fr_pred rep) 10 (fr_vertex rep)) (fst p1) = [POk [n0]; POk [v]; POk [v; w]] /\
  map (fun rep => iter_vertices_from_start num_dec num_id aPM (fr_pred rep) 10 (fr_vertex rep)) (fst p2) =
    [POk [n0]; PErr RuntimeErrorNoPath; PErr AssertionModel].
Proof. exact dfs_array_gear. Qed.
Print Assumptions C79_dfs_array_gear_paths_refuted.

(** C64. Requesting fewer events only hides reports: if the events [R] are requested instead of a superset, the reports are those of the other traversal with an event from [R]. (If CROSS_EDGE
    is in [R], BACK_EDGE has to be in it, see C61.) *)
Theorem C64_dfs_fewer_events :
  forall {V I L : Type} (V_dec : forall a b : V, {a = b} + {a <> b}) (vid : V -> I) (VS : VSet I) (PM : PMap I V) (LM : PMap I L)
    (XM : DMap I Z 0%Z) (next : V -> list (V * L)) (starts : list V) (av : option (vs_t VS)) (o : dfs_cfg) (R : dfs_event -> bool) (cfg1 cfg2 : dfs_cfg),
  let given := match av with Some _ => true | None => false end in
  dfs_options (ask_events R o) given = inl cfg1 -> dfs_options o given = inl cfg2 -> (dc_is_tree o = true -> av = None) ->
  (forall ev, R ev = true -> dc_report o ev = true) -> (R CROSS_EDGE = true -> R BACK_EDGE = true) ->
  let in_R rep := match fr_event rep with Some ev => R ev | None => false end in
  forall lim1 n1 os1 r1 lim2 n2 os2 r2,
  dfs_traverse V_dec vid VS PM LM XM next cfg1 (fun _ => false) starts av lim1 n1 = (os1, r1) ->
  dfs_traverse V_dec vid VS PM LM XM next cfg2 (fun _ => false) starts av lim2 n2 = (os2, r2) ->
  same_as_far (same_seen VS PM LM XM cfg1 cfg2) os1 (filter in_R os2) /\
  (forall c1 c2, r1 = Ended c1 -> r2 = Ended c2 -> Forall2 (same_seen VS PM LM XM cfg1 cfg2) os1 (filter in_R os2)).
Proof.
  intros V I L V_dec vid VS PM LM XM next starts av o R cfg1 cfg2.
  exact (fewer_events_R V_dec vid VS PM LM XM next starts av o R cfg1 cfg2).
Qed.
Print Assumptions C64_dfs_fewer_events.

Example C64_example :
  let o := dfs_ask DFS_TREE all_kinds true true in
  let R := asks [ENTERING_SUCCESSOR; BACK_EDGE] in
  dfs_options (ask_events R o) false = inl (dfs_checked (ask_events R o)) /\
  map (fun x => fst (fst x)) (seen (dfs_try (ask_events R o) kinds_next [0] 60)) =
  [(1, Some ENTERING_SUCCESSOR); (2, Some ENTERING_SUCCESSOR); (0, Some BACK_EDGE); (3, Some ENTERING_SUCCESSOR)].
Proof. repeat split; vm_compute; reflexivity. Qed.

(** C50 for this strategy: which combinations of options start_from rejects, and that it does nothing but raise RuntimeError for them. *)
Theorem C50_dfs_options :
  forall (o : dfs_cfg) (already_visited_given : bool),
  let R := dc_report o in
  let kinds := R FORWARD_EDGE = true \/ R BACK_EDGE = true \/ R CROSS_EDGE = true in
  let on_trace := dc_compute_on_trace o = true \/
    (dc_is_tree o = false /\ (kinds \/ R FORWARD_OR_CROSS_EDGE = true \/ dc_mode o = ALL_PATHS)) in
  let index := dc_compute_index o = true \/ (dc_is_tree o = false /\ (R FORWARD_EDGE = true \/ R CROSS_EDGE = true)) in
  ((exists x, dfs_options o already_visited_given = inr x) <->
   (R SOME_NON_TREE_EDGE = true /\ kinds) \/
   (R FORWARD_OR_CROSS_EDGE = true /\ (R FORWARD_EDGE = true \/ R CROSS_EDGE = true)) \/
   ((kinds \/ R SOME_NON_TREE_EDGE = true \/ R FORWARD_OR_CROSS_EDGE = true \/ on_trace) /\ (dc_is_tree o = true \/ dc_mode o = ALL_WALKS)) \/
   ((R FORWARD_EDGE = true \/ R CROSS_EDGE = true \/ R SOME_NON_TREE_EDGE = true \/ R FORWARD_OR_CROSS_EDGE = true) /\ dc_mode o = ALL_PATHS) \/
   (dc_build_paths o = true /\ dc_mode o = ALL_WALKS) \/
   (index /\ already_visited_given = true)) /\
  (forall x, dfs_options o already_visited_given = inr x -> x = RuntimeErrorConfig).
Proof. exact options_errors. Qed.
Print Assumptions C50_dfs_options.

Example C50_dfs_example :
  dfs_options (dfs_ask ALL_PATHS all_kinds false true) false = inr RuntimeErrorConfig /\
  dfs_options (dfs_ask ALL_WALKS both_entering false true) false = inr RuntimeErrorConfig.
Proof. split; reflexivity. Qed.
