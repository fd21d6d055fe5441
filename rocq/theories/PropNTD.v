(** Properties of TraversalNeighborsThenDepth: C04, C07, C08, C58. *)
From Coq Require Import List ZArith Bool Arith Lia.
From Verif Require Import Machine GearSpec Spec TraversalSpec Common PathsModel PathsSpec
  NTDModel NTDProofs NTDMore Examples NTDExamples.
Import ListNotations.

(** C07. For every graph, gear, options (not is_tree), start vertices, limit and number [n] of
    passes: no id is reported twice; each reported vertex is reachable and no start vertex; nothing but the
    RuntimeError of the calculation limit is raised; when the traversal has ended, each reachable vertex has been reported
    or is a start vertex, and [visited] holds exactly start vertices and reported vertices. Without limit, the
    traversal ends if only finitely many vertices are reachable. *)
Theorem C07_ntd_reports_reachable_once :
  forall {V I L : Type} (I_dec : forall a b : I, {a = b} + {a <> b}) (vid : V -> I)
    (VS : VSet I) (PM : PMap I V) (LM : PMap I L) (next : V -> list (V * L)) (cfg : ntd_cfg)
    (E : I -> I -> Prop) (starts : list V),
  nc_is_tree cfg = false -> presents vid next E ->
  let St := is_start vid starts in
  (forall lim n os r, ntd_run vid VS PM LM next cfg starts None lim n = (os, r) ->
     NoDup (ntd_ids vid os) /\
     (forall rep, In rep os -> ~ St (vid (nr_vertex rep)) /\ reachable E St (vid (nr_vertex rep))) /\
     (forall x s', r = Raised x s' -> x = RuntimeErrorLimit) /\
     (forall s', r = Ended s' ->
        (forall i, reachable E St i -> St i \/ In i (ntd_ids vid os)) /\
        (forall i, vs_mem VS i (n_visited s') = true <-> St i \/ In i (ntd_ids vid os)))) /\
  (forall l, (forall i, reachable E St i -> In i l) ->
     exists n os s', ntd_run vid VS PM LM next cfg starts None None n = (os, Ended s')).
Proof.
  intros V I L I_dec vid VS PM LM next cfg E starts Ht HE St.
  exact (conj (ntd_none_reported I_dec vid VS PM LM next cfg Ht E HE starts)
              (ntd_none_terminates I_dec vid VS PM LM next cfg Ht E HE starts)).
Qed.
Print Assumptions C07_ntd_reports_reachable_once.

Example C07_example :
  presents (fun v => v) g_next (graph_of g_next) /\
  let p := ntd_run (fun v => v) bVS bPM bPM g_next ntd_default [0] None None 40 in
  ntd_ids (fun v => v) (fst p) = [1; 2; 3; 4] /\
  match snd p with Ended _ => True | _ => False end.
Proof. split; [apply presents_graph_of|]. vm_compute. auto. Qed.

(** C04 for this strategy. [avoiding E P] is the graph without the edges into preloaded vertices; [n_calls] are the vertices
    the neighbor function has been asked about, [nr_visited] is the set as the user sees it at a report. *)
Theorem C04_ntd_already_visited :
  forall {V I L : Type} (I_dec : forall a b : I, {a = b} + {a <> b}) (vid : V -> I)
    (VS : VSet I) (PM : PMap I V) (LM : PMap I L) (next : V -> list (V * L)) (cfg : ntd_cfg)
    (E : I -> I -> Prop) (starts : list V) (av : option (vs_t VS)),
  nc_is_tree cfg = false -> presents vid next E ->
  let St := is_start vid starts in
  let preloaded := in_already_visited VS av in
  (forall lim n os r, ntd_run vid VS PM LM next cfg starts av lim n = (os, r) ->
     NoDup (ntd_ids vid os) /\
     (forall rep, In rep os ->
        ~ St (vid (nr_vertex rep)) /\ ~ preloaded (vid (nr_vertex rep)) /\
        reachable (avoiding E preloaded) St (vid (nr_vertex rep))) /\
     (forall v d, In (v, d) (n_calls (outcome_state r)) -> In v starts \/ In v (map nr_vertex os)) /\
     (forall o1 rep o2, os = o1 ++ rep :: o2 -> forall i, vs_mem VS i (nr_visited rep) = true <->
        preloaded i \/ St i \/ In i (ntd_ids vid (o1 ++ [rep]))) /\
     (forall x s', r = Raised x s' -> x = RuntimeErrorLimit) /\
     (forall s', r = Ended s' ->
        (forall i, reachable (avoiding E preloaded) St i -> St i \/ In i (ntd_ids vid os)) /\
        (forall i, vs_mem VS i (n_visited s') = true <-> preloaded i \/ St i \/ In i (ntd_ids vid os)))) /\
  (forall l, (forall i, reachable (avoiding E preloaded) St i -> In i l) ->
     exists n os s', ntd_run vid VS PM LM next cfg starts av None n = (os, Ended s')).
Proof.
  intros V I L I_dec vid VS PM LM next cfg E starts av Ht HE St preloaded.
  exact (conj (ntd_av_reported I_dec vid VS PM LM next cfg Ht E HE starts av)
              (ntd_av_terminates I_dec vid VS PM LM next cfg Ht E HE starts av)).
Qed.
Print Assumptions C04_ntd_already_visited.

Example C04_ntd_example :
  ntd_ids (fun v => v)
    (fst (ntd_run (fun v => v) bVS bPM bPM g_next ntd_default [0] (Some (vs_add bVS 3 (vs_empty bVS))) None 40))
  = [1; 2].
Proof. vm_compute. reflexivity. Qed.

(** C08. For each report there is a number [k] such that: there is a walk with [k] edges from a start vertex to the reported vertex; with
    compute_depth, [k] is the attribute depth; with build_paths, the container [paths] delivers, at the report and later on, one and the
    same path with [k] edges from a start vertex, along existing edges with their labels. Start vertices have the empty path; the
    container holds start vertices and reported vertices. The neighbor function is called with the depth of the vertex. *)
Theorem C08_ntd_paths_and_depth :
  forall {V I L : Type} (V_dec : forall a b : V, {a = b} + {a <> b}) (I_dec : forall a b : I, {a = b} + {a <> b})
    (vid : V -> I) (VS : VSet I) (PM : PMap I V) (LM : PMap I L) (next : V -> list (V * L)) (cfg : ntd_cfg)
    (E : I -> I -> Prop) (starts : list V) av lim n os r,
  nc_is_tree cfg = false -> presents vid next E ->
  ntd_run vid VS PM LM next cfg starts av lim n = (os, r) ->
  let St := is_start vid starts in
  (forall rep, In rep os -> exists k,
     (nc_compute_depth cfg = true -> nr_depth rep = Z.of_nat k) /\
     (exists s0 p, St s0 /\ walk E s0 p (vid (nr_vertex rep)) /\ length p = k) /\
     (nc_build_paths cfg = true -> starts_distinct vid starts ->
      exists l, path_list (next_edge next) (fun u => In u starts) l (nr_vertex rep) /\
        length l = k + 1 /\
        delivers V_dec vid PM LM (nr_pred rep) (nr_labels rep) (nc_labeled cfg) (next_label next) (nr_vertex rep) l /\
        delivers V_dec vid PM LM (n_pred (outcome_state r)) (n_labels (outcome_state r)) (nc_labeled cfg)
          (next_label next) (nr_vertex rep) l)) /\
  (nc_build_paths cfg = true -> starts_distinct vid starts -> forall v, In v starts ->
     delivers V_dec vid PM LM (n_pred (outcome_state r)) (n_labels (outcome_state r)) (nc_labeled cfg) (next_label next) v [v]) /\
  (nc_build_paths cfg = true -> forall v, paths_contains vid PM (n_pred (outcome_state r)) v = true <->
     St (vid v) \/ In (vid v) (ntd_ids vid os)) /\
  (nc_compute_depth cfg = true -> forall v d, In (v, d) (n_calls (outcome_state r)) ->
     (In v starts /\ d = 0%Z) \/ exists rep, In rep os /\ nr_vertex rep = v /\ nr_depth rep = d).
Proof.
  intros V I L V_dec I_dec vid VS PM LM next cfg E starts av lim n os r Ht HE HR St.
  exact (ntd_all_paths V_dec I_dec vid VS PM LM next cfg Ht E HE starts av lim n os r HR).
Qed.
Print Assumptions C08_ntd_paths_and_depth.

Example C08_example :
  map (fun rep => (nr_vertex rep, nr_depth rep, iter_labeled_edges_from_start Nat.eq_dec (fun v => v) bPM bPM
                    (nr_pred rep) (nr_labels rep) 10 (nr_vertex rep)))
    (fst (ntd_run (fun v => v) bVS bPM bPM g_next ntd_default [0] None None 40))
  = [(1, 1%Z, POk [(0, 1, 10)]); (2, 1%Z, POk [(0, 2, 20)]); (3, 2%Z, POk [(0, 2, 20); (2, 3, 23)]);
     (4, 3%Z, POk [(0, 2, 20); (2, 3, 23); (3, 4, 34)])].
Proof. vm_compute. reflexivity. Qed.

(** C58. [n_calls] holds the calls of the neighbor function, the most recent first. Whenever a vertex [v] is expanded, after the reports
    [o1] and the calls [c2], then all start vertices and reported vertices that come after [v] have been expanded before. *)
Theorem C58_ntd_order :
  forall {V I L : Type} (vid : V -> I) (VS : VSet I) (PM : PMap I V) (LM : PMap I L) (next : V -> list (V * L)) (cfg : ntd_cfg)
    (starts : list V) av lim n os r,
  ntd_run vid VS PM LM next cfg starts av lim n = (os, r) ->
  forall c1 v c2, map fst (n_calls (outcome_state r)) = c1 ++ v :: c2 ->
  exists o1 o2, os = o1 ++ o2 /\
    exists k1 k2, starts ++ map nr_vertex o1 = k1 ++ v :: k2 /\ forall w, In w k2 -> In w c2.
Proof.
  intros V I L vid VS PM LM next cfg starts av lim n os r HR.
  exact (ntd_order vid VS PM LM next cfg starts av lim n os r HR).
Qed.
Print Assumptions C58_ntd_order.

Example C58_example :
  let p := ntd_run (fun v => v) bVS bPM bPM inf_next ntd_default [0] None (Some 4%Z) 40 in
  ntd_ids (fun v => v) (fst p) = [1; 2; 5; 6; 13; 14; 29; 30] /\
  rev (n_calls (outcome_state (snd p))) = [(0, 0%Z); (2, 1%Z); (6, 2%Z); (14, 3%Z)].
Proof. vm_compute. auto. Qed.
