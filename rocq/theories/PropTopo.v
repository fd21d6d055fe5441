(** Properties of TraversalTopologicalSort: C04, C17-C19, C49, C65-C68.

    [topo_run vid VS PM LM next cfg starts av lim n = (os, r)]: [os] are the reports after [n] passes of the loops, [r] tells if the traversal is still running, has
    ended, or has raised an error, and contains its state: [t_calls] (vertices the neighbor function has been called for, with the attribute depth at that
    moment), [t_cycle] (attribute cycle_from_start), [t_pred] and [t_labels] (attribute paths). *)
From Coq Require Import List ZArith Bool Arith Lia Permutation.
From Verif Require Import Machine MachineSim GearSpec Spec TraversalSpec Common PathsModel PathsSpec DFSSpec TopoModel TopoSpec TopoProofs TopoMore TopoTree
  Examples DFSExamples TopoExamples.
Import ListNotations.

(** C17 (and C04 for this strategy; [avoiding E preloaded] is the graph without the edges into the vertices in already_visited). For every graph, gear, options
    (not is_tree), start vertices of which none can be reached from another one, limit and number of passes: no vertex is reported twice, each reported vertex is
    reachable, and when a vertex is reported, each vertex it has an edge to (and that is not preloaded) has been reported before. When the traversal has ended, each
    reachable vertex has been reported, and the neighbor function has been called exactly once for each of them. *)
Theorem C17_topological_order :
  forall {V I L : Type} (I_dec : forall a b : I, {a = b} + {a <> b}) (vid : V -> I) (VS : VSet I) (PM : PMap I V) (LM : PMap I L)
    (next : V -> list (V * L)) (cfg : topo_cfg) (E : I -> I -> Prop) (starts : list V) (av : option (vs_t VS)),
  tc_is_tree cfg = false -> presents vid next E -> NoDup (map vid starts) ->
  let St := is_start vid starts in
  let preloaded := in_already_visited VS av in
  independent (avoiding E preloaded) St ->
  forall lim n os r, topo_run vid VS PM LM next cfg starts av lim n = (os, r) ->
  let ids os := map (fun rep => vid (tr_vertex rep)) os in
  (NoDup (ids os) /\ forall rep, In rep os -> reachable (avoiding E preloaded) St (vid (tr_vertex rep))) /\
  (forall o1 rep o2, os = o1 ++ rep :: o2 -> forall j, E (vid (tr_vertex rep)) j -> preloaded j \/ In j (ids o1)) /\
  (forall s, r = Ended s ->
     (forall i, reachable (avoiding E preloaded) St i -> In i (ids os)) /\ Permutation (map fst (t_calls s)) (map tr_vertex os)).
Proof.
  intros V I L I_dec vid VS PM LM next cfg E starts av Ht HE Hs St preloaded Hi lim n os r HR ids.
  exact (conj (topo_once I_dec vid VS PM LM next cfg Ht E HE starts Hs av lim n os r HR)
        (conj (topo_sorted I_dec vid VS PM LM next cfg Ht E HE starts Hs av Hi lim n os r HR)
              (fun s He => topo_complete I_dec vid VS PM LM next cfg Ht E HE starts Hs av lim n os s (eq_trans HR (f_equal (pair os) He))))).
Qed.
Print Assumptions C17_topological_order.

Example C17_example :
  presents (fun v => v) dag_next (graph_of dag_next) /\ independent (graph_of dag_next) (is_start (fun v => v) [0]) /\
  let p := topo_try topo_default dag_next [0] 60 in
  reported_vertices p = [4; 3; 2; 1; 0] /\ topo_got p = Some None.
Proof. split; [apply presents_graph_of|]. split; [exact dag_independent|]. split; vm_compute; reflexivity. Qed.

(** C18, first part. If the error of a cycle is raised, from a start vertex one can reach a cycle. (For all distinct start vertices.) *)
Theorem C18_cycle_error_means_cycle :
  forall {V I L : Type} (I_dec : forall a b : I, {a = b} + {a <> b}) (vid : V -> I) (VS : VSet I) (PM : PMap I V) (LM : PMap I L)
    (next : V -> list (V * L)) (cfg : topo_cfg) (E : I -> I -> Prop) (starts : list V),
  tc_is_tree cfg = false -> presents vid next E -> NoDup (map vid starts) ->
  forall lim n os s, topo_run vid VS PM LM next cfg starts None lim n = (os, Raised RuntimeErrorCycle s) ->
  cycle_reachable E (is_start vid starts).
Proof.
  intros V I L I_dec vid VS PM LM next cfg E starts Ht HE Hs.
  exact (topo_cycle_none I_dec vid VS PM LM next cfg Ht E HE starts Hs).
Qed.
Print Assumptions C18_cycle_error_means_cycle.

(** C18, second part. If only finitely many vertices are reachable, and no start vertex from another one, the traversal (without limit) terminates: it ends without
    error if there is no reachable cycle, and it raises the error of a cycle if there is one. *)
Theorem C18_topo_decides_cycle :
  forall {V I L : Type} (I_dec : forall a b : I, {a = b} + {a <> b}) (vid : V -> I) (VS : VSet I) (PM : PMap I V) (LM : PMap I L)
    (next : V -> list (V * L)) (cfg : topo_cfg) (E : I -> I -> Prop) (starts : list V),
  tc_is_tree cfg = false -> presents vid next E -> NoDup (map vid starts) ->
  let St := is_start vid starts in
  forall l, independent E St -> (forall i, reachable E St i -> In i l) ->
  exists n os r, topo_run vid VS PM LM next cfg starts None None n = (os, r) /\
    ((exists s, r = Ended s) /\ ~ cycle_reachable E St \/ (exists s, r = Raised RuntimeErrorCycle s) /\ cycle_reachable E St).
Proof.
  intros V I L I_dec vid VS PM LM next cfg E starts Ht HE Hs St.
  exact (topo_decides I_dec vid VS PM LM next cfg Ht E HE starts Hs).
Qed.
Print Assumptions C18_topo_decides_cycle.

Example C18_example :
  independent (graph_of loop_next) (is_start (fun v => v) [0]) /\
  topo_got (topo_try topo_default loop_next [0] 60) = Some (Some RuntimeErrorCycle) /\
  topo_got (topo_try topo_default dag_next [0] 60) = Some None.
Proof. split; [exact loop_independent|]. split; vm_compute; reflexivity. Qed.

(** C19, the part that holds. cycle_from_start, when the error of a cycle has been raised: there is a real path from a start vertex, [p ++ [k]], whose last vertex occurs
    in [p], and no other vertex occurs twice. It results from cycle_from_start by leaving out elements. The left out elements are further occurrences of
    vertices of [p], the first and the last vertex are the same. If no vertex occurs twice in cycle_from_start without its last element, it is itself a
    path. Missing: that it is always a path, see [C19_cycle_from_start_refuted]. *)
Theorem C19_cycle_from_start_partial :
  forall {V I L : Type} (I_dec : forall a b : I, {a = b} + {a <> b}) (vid : V -> I) (VS : VSet I) (PM : PMap I V) (LM : PMap I L)
    (next : V -> list (V * L)) (cfg : topo_cfg) (E : I -> I -> Prop) (starts : list V) (av : option (vs_t VS)),
  tc_is_tree cfg = false -> presents vid next E -> NoDup (map vid starts) ->
  forall lim n os s, topo_run vid VS PM LM next cfg starts av lim n = (os, Raised RuntimeErrorCycle s) ->
  (exists p k, path_list (next_edge next) (fun u => In u starts) (p ++ [k]) k /\ In (vid k) (map vid p) /\ NoDup (map vid p) /\
     subseq (p ++ [k]) (t_cycle s) /\ (exists c, t_cycle s = c ++ [k] /\ forall w, In w c -> In (vid w) (map vid p)) /\
     hd_error (t_cycle s) = hd_error p) /\
  (NoDup (map vid (removelast (t_cycle s))) ->
     exists k, path_list (next_edge next) (fun u => In u starts) (t_cycle s) k /\ In (vid k) (map vid (removelast (t_cycle s)))).
Proof.
  intros V I L I_dec vid VS PM LM next cfg E starts av Ht HE Hs lim n os s HR.
  exact (conj (topo_cycle_path I_dec vid VS PM LM next cfg Ht E HE starts Hs av lim n os s HR)
              (topo_cycle_exact I_dec vid VS PM LM next cfg Ht E HE starts Hs av lim n os s HR)).
Qed.
Print Assumptions C19_cycle_from_start_partial.

Example C19_example :
  t_cycle (outcome_state (snd (topo_try topo_default tail_next [3] 60))) = [3; 0; 1; 0] /\
  topo_got (topo_try topo_default tail_next [3] 60) = Some (Some RuntimeErrorCycle).
Proof. split; vm_compute; reflexivity. Qed.

(** C19 as documented ("a path from a start vertex that ends with a cycle") is false: here, cycle_from_start is 0, 1, 3, 1, 2, 1, and there is no edge from 1 to 3. *)
Theorem C19_cycle_from_start_refuted :
  exists (next : nat -> list (nat * nat)) (n : nat) os s,
    topo_run (fun v => v) hVS hPM hPM next topo_default [0] None None n = (os, Raised RuntimeErrorCycle s) /\
    t_cycle s = [0; 1; 3; 1; 2; 1] /\ ~ next_edge next 1 3.
Proof.
  exists loop_next, 60. eexists _, _. split; [vm_compute; reflexivity|]. split; [vm_compute; reflexivity|].
  intros [C|[]]. discriminate.
Qed.
Print Assumptions C19_cycle_from_start_refuted.

(** C65, the part that holds, for all distinct start vertices: when a vertex is reported, each vertex it has an edge to (and that is not preloaded) has been reported
    before, except for start vertices that can be reached from other start vertices. *)
Theorem C65_order_of_several_starts_partial :
  forall {V I L : Type} (I_dec : forall a b : I, {a = b} + {a <> b}) (vid : V -> I) (VS : VSet I) (PM : PMap I V) (LM : PMap I L)
    (next : V -> list (V * L)) (cfg : topo_cfg) (E : I -> I -> Prop) (starts : list V) (av : option (vs_t VS)),
  tc_is_tree cfg = false -> presents vid next E -> NoDup (map vid starts) ->
  let St := is_start vid starts in
  let preloaded := in_already_visited VS av in
  forall lim n os r, topo_run vid VS PM LM next cfg starts av lim n = (os, r) ->
  forall o1 rep o2, os = o1 ++ rep :: o2 -> forall j, E (vid (tr_vertex rep)) j -> ~ preloaded j ->
  In j (map (fun rep => vid (tr_vertex rep)) o1) \/ (St j /\ exists i p, St i /\ i <> j /\ walk (avoiding E preloaded) i p j).
Proof.
  intros V I L I_dec vid VS PM LM next cfg E starts av Ht HE Hs St preloaded.
  exact (topo_order I_dec vid VS PM LM next cfg Ht E HE starts Hs av).
Qed.
Print Assumptions C65_order_of_several_starts_partial.

(** C65, for several start vertices in general, is false: 1 depends on 0, and 1 is reported first. *)
Theorem C65_order_of_several_starts_refuted :
  exists (next : nat -> list (nat * nat)) (starts : list nat) (n : nat) os s,
    topo_run (fun v => v) hVS hPM hPM next topo_default starts None None n = (os, Ended s) /\
    NoDup starts /\ next_edge next 1 0 /\ map tr_vertex os = [1; 0].
Proof.
  exists dep_next, [0; 1], 60. eexists _, _. split; [vm_compute; reflexivity|].
  split; [repeat constructor; simpl; intuition discriminate|]. split; [now left|]. vm_compute. reflexivity.
Qed.
Print Assumptions C65_order_of_several_starts_refuted.

(** C66 (a cycle through several start vertices is detected) is false: 0 and 1 depend on each other, both are start vertices, and the traversal ends without error. *)
Theorem C66_cycle_through_starts_refuted :
  exists (next : nat -> list (nat * nat)) (starts : list nat) (n : nat) os s,
    topo_run (fun v => v) hVS hPM hPM next topo_default starts None None n = (os, Ended s) /\
    NoDup starts /\ cycle_reachable (graph_of next) (is_start (fun v => v) starts) /\ map tr_vertex os = [1; 0].
Proof.
  exists two_next, [0; 1], 60. eexists _, _. split; [vm_compute; reflexivity|].
  split; [repeat constructor; simpl; intuition discriminate|]. split; [|vm_compute; reflexivity].
  exists 0, [1; 0]. split; [|split; [discriminate|]].
  - exists 0, []. split; [now left|constructor].
  - constructor 2; [now left|]. constructor 2; [now left|]. constructor.
Qed.
Print Assumptions C66_cycle_through_starts_refuted.

(** C67 (no vertex is reported twice, whatever start vertices are given) is false: a start vertex that is given twice is reported twice. *)
Theorem C67_start_given_twice_refuted :
  exists (next : nat -> list (nat * nat)) (starts : list nat) (n : nat) os s,
    topo_run (fun v => v) hVS hPM hPM next topo_default starts None None n = (os, Ended s) /\ map tr_vertex os = [0; 1; 1].
Proof. exists dep_next, [1; 1], 60. eexists _, _. split; vm_compute; reflexivity. Qed.
Print Assumptions C67_start_given_twice_refuted.

(** C68. Depth and paths, for all distinct start vertices. The depth at a report, and at each call of the neighbor function, is the length of a walk from a start vertex to the
    vertex; the neighbor function is called at most once per vertex. With build_paths, the path of a reported vertex is a real path of the graph, with
    that length and with the labels of its edges, and it is still the same at the end; when the traversal has ended, paths exist exactly for the reported
    vertices. *)
Theorem C68_topo_depth_and_paths :
  forall {V I L : Type} (V_dec : forall a b : V, {a = b} + {a <> b}) (I_dec : forall a b : I, {a = b} + {a <> b}) (vid : V -> I) (VS : VSet I) (PM : PMap I V)
    (LM : PMap I L) (next : V -> list (V * L)) (cfg : topo_cfg) (E : I -> I -> Prop) (starts : list V) (av : option (vs_t VS)),
  tc_is_tree cfg = false -> presents vid next E -> NoDup (map vid starts) ->
  let St := is_start vid starts in
  let Eo := avoiding E (in_already_visited VS av) in
  (forall lim n os r, topo_run vid VS PM LM next cfg starts av lim n = (os, r) ->
     (forall rep, In rep os -> exists i p, St i /\ walk Eo i p (vid (tr_vertex rep)) /\ tr_depth rep = Z.of_nat (length p)) /\
     (forall v d, In (v, d) (t_calls (outcome_state r)) -> exists i p, St i /\ walk Eo i p (vid v) /\ d = Z.of_nat (length p)) /\
     NoDup (map vid (map fst (t_calls (outcome_state r))))) /\
  (forall lim n os r, tc_build_paths cfg = true -> topo_run vid VS PM LM next cfg starts av lim n = (os, r) -> forall rep, In rep os ->
     exists l, path_list (next_edge next) (fun u => In u starts) l (tr_vertex rep) /\ tr_depth rep = (Z.of_nat (length l) - 1)%Z /\
       delivers V_dec vid PM LM (tr_pred rep) (tr_labels rep) (tc_labeled cfg) (next_label next) (tr_vertex rep) l /\
       delivers V_dec vid PM LM (t_pred (outcome_state r)) (t_labels (outcome_state r)) (tc_labeled cfg) (next_label next) (tr_vertex rep) l) /\
  (forall lim n os s, tc_build_paths cfg = true -> topo_run vid VS PM LM next cfg starts av lim n = (os, Ended s) ->
     forall v, paths_contains vid PM (t_pred s) v = true <-> In (vid v) (map (fun rep => vid (tr_vertex rep)) os)).
Proof.
  intros V I L V_dec I_dec vid VS PM LM next cfg E starts av Ht HE Hs St Eo.
  exact (conj (topo_depth I_dec vid VS PM LM next cfg Ht E HE starts Hs av)
        (conj (fun lim n os r Hb => topo_paths V_dec I_dec vid VS PM LM next cfg Ht E HE starts Hs av lim n os r Hb)
              (fun lim n os s Hb => topo_paths_contain V_dec I_dec vid VS PM LM next cfg Ht E HE starts Hs av lim n os s Hb))).
Qed.
Print Assumptions C68_topo_depth_and_paths.

Example C68_example :
  let p := topo_try topo_default dag_next [0] 60 in
  map (fun rep => (tr_vertex rep, tr_depth rep)) (fst p) = [(4, 2%Z); (3, 2%Z); (2, 1%Z); (1, 1%Z); (0, 0%Z)] /\
  iter_vertices_from_start Nat.eq_dec (fun v => v) hPM (t_pred (outcome_state (snd p))) 10 3 = POk [0; 2; 3].
Proof. split; vm_compute; reflexivity. Qed.

(** C49 for this strategy. If no two walks from the start vertices lead to the same vertex ([tree_like]), option is_tree does not change anything the user can see except for
    the set of visited vertices, that is not kept: not the reports ([topo_same_seen]: vertex, depth, paths), and not how the traversal proceeds
    ([topo_same_rest]: calls of the neighbor function, depth, paths). *)
Theorem C49_topo_is_tree :
  forall {V I L : Type} (vid : V -> I) (VS : VSet I) (PM : PMap I V) (LM : PMap I L) (next : V -> list (V * L)) (starts : list V) (build labeled : bool) lim n,
  tree_like vid next starts ->
  let p1 := topo_run vid VS PM LM next {| tc_is_tree := true; tc_build_paths := build; tc_labeled := labeled |} starts None lim n in
  let p2 := topo_run vid VS PM LM next {| tc_is_tree := false; tc_build_paths := build; tc_labeled := labeled |} starts None lim n in
  Forall2 (topo_same_seen VS PM LM) (fst p1) (fst p2) /\ outcome_rel (topo_same_rest VS PM LM) (snd p1) (snd p2).
Proof.
  intros V I L vid VS PM LM next starts build labeled lim n HT.
  exact (topo_tree_same vid VS PM LM next starts HT build labeled lim n).
Qed.
Print Assumptions C49_topo_is_tree.

Example C49_topo_example :
  tree_like (fun v : nat => v) ears_next [0] /\
  reported_vertices (topo_try topo_tree ears_next [0] 30) = reported_vertices (topo_try topo_default ears_next [0] 30) /\
  length (reported_vertices (topo_try topo_default ears_next [0] 30)) = 3.
Proof. split; [exact ears_tree|]. split; vm_compute; reflexivity. Qed.
