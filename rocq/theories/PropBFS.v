(** Properties of TraversalBreadthFirst: C01, C02, C03, C04, C06, C51. *)
From Coq Require Import List ZArith Bool Arith Lia Sorted.
From Verif Require Import Machine GearSpec Spec TraversalSpec Common PathsModel PathsSpec
  BFSModel BFSProofs BFSMore GoModel GoProofs Examples.
Import ListNotations.

(** C01. For every graph, gear, options (not is_tree), start vertices, limit and number [n] of
    passes: no id is reported twice; each reported vertex is reachable and no start vertex;
    when the traversal has ended, each reachable vertex has been reported or is a start
    vertex, and [visited] holds exactly start vertices and reported vertices; without limit, each
    reachable vertex is reported after finitely many passes (also in infinite graphs), and the
    traversal ends if only finitely many vertices are reachable. *)
Theorem C01_bfs_reports_reachable_once :
  forall {V I L : Type} (I_dec : forall a b : I, {a = b} + {a <> b}) (vid : V -> I)
    (VS : VSet I) (PM : PMap I V) (LM : PMap I L) (next : V -> list (V * L)) (cfg : bfs_cfg)
    (E : I -> I -> Prop) (starts : list V),
  bc_is_tree cfg = false -> bc_report_depth_increase cfg = false -> presents vid next E ->
  (forall lim n os r, bfs_run vid VS PM LM next cfg starts None lim n = (os, r) ->
     NoDup (bfs_ids vid os) /\
     (forall rep, In rep os -> ~ is_start vid starts (vid (br_vertex rep)) /\
                               reachable E (is_start vid starts) (vid (br_vertex rep))) /\
     (forall s', r = Ended s' ->
        (forall i, reachable E (is_start vid starts) i ->
                   is_start vid starts i \/ In i (bfs_ids vid os)) /\
        (forall i, vs_mem VS i (b_visited s') = true <->
                   is_start vid starts i \/ In i (bfs_ids vid os)))) /\
  (forall i, reachable E (is_start vid starts) i -> ~ is_start vid starts i ->
     exists n, In i (bfs_ids vid (fst (bfs_run vid VS PM LM next cfg starts None None n)))) /\
  (forall l, (forall i, reachable E (is_start vid starts) i -> In i l) ->
     exists n os s', bfs_run vid VS PM LM next cfg starts None None n = (os, Ended s')).
Proof.
  intros V I L I_dec vid VS PM LM next cfg E starts Ht Hr HE.
  exact (conj (bfs_none_reported I_dec vid VS PM LM next cfg Ht Hr E HE starts)
        (conj (bfs_none_live I_dec vid VS PM LM next cfg Ht Hr E HE starts)
              (bfs_none_terminates I_dec vid VS PM LM next cfg Ht Hr E HE starts))).
Qed.
Print Assumptions C01_bfs_reports_reachable_once.

Example C01_example :
  presents (fun v => v) g_next (graph_of g_next) /\
  let p := bfs_run (fun v => v) bVS bPM bPM g_next bfs_default [0] None None 40 in
  bfs_ids (fun v => v) (fst p) = [1; 2; 3; 4] /\
  match snd p with Ended _ => True | _ => False end.
Proof. split; [apply presents_graph_of|]. vm_compute. auto. Qed.

Example C01_example_infinite :
  presents (fun v => v) inf_next (graph_of inf_next) /\
  bfs_ids (fun v => v) (fst (bfs_run (fun v => v) hVS hPM hPM inf_next bfs_default [0] None None 20))
  = [1; 2; 3; 4; 5; 6; 7; 8].
Proof. split; [apply presents_graph_of|]. vm_compute. auto. Qed.

(** C02. The depth at a report is the minimal number of edges from a start vertex; depths
    do not decrease; after the end, the attribute [depth] is the depth of the last reported vertex
    (0 if there is none). *)
Theorem C02_bfs_depth_minimal :
  forall {V I L : Type} (I_dec : forall a b : I, {a = b} + {a <> b}) (vid : V -> I)
    (VS : VSet I) (PM : PMap I V) (LM : PMap I L) (next : V -> list (V * L)) (cfg : bfs_cfg)
    (E : I -> I -> Prop) (starts : list V) lim n os r,
  bc_is_tree cfg = false -> bc_report_depth_increase cfg = false -> presents vid next E ->
  bfs_run vid VS PM LM next cfg starts None lim n = (os, r) ->
  (forall rep, In rep os -> exists k, br_depth rep = Z.of_nat k /\
     min_depth E (is_start vid starts) (vid (br_vertex rep)) k) /\
  StronglySorted (fun a b => br_depth a <= br_depth b)%Z os /\
  (forall s', r = Ended s' ->
     match rev os with
     | last :: _ => b_depth s' = br_depth last
     | [] => starts <> [] -> b_depth s' = 0%Z
     end).
Proof.
  intros V I L I_dec vid VS PM LM next cfg E starts lim n os r Ht Hr HE.
  exact (bfs_none_depth I_dec vid VS PM LM next cfg Ht Hr E HE starts lim n os r).
Qed.
Print Assumptions C02_bfs_depth_minimal.

Example C02_example :
  map (fun rep => (br_vertex rep, br_depth rep))
    (fst (bfs_run (fun v => v) hVS hPM hPM g_next bfs_default [5; 1] None None 60))
  = [(0, 1%Z); (3, 1%Z); (2, 2%Z); (4, 2%Z)].
Proof. vm_compute. reflexivity. Qed.

(** C03. With build_paths: at each report, and ever after, the paths container delivers
    one and the same path [l] for the reported vertex: it leads from a start vertex to it
    along edges of the neighbor function, with correct labels, and has [depth] edges. Start
    vertices have the empty path. Exactly start vertices and reported vertices have a path. *)
Theorem C03_bfs_paths :
  forall {V I L : Type} (V_dec : forall a b : V, {a = b} + {a <> b})
    (I_dec : forall a b : I, {a = b} + {a <> b}) (vid : V -> I)
    (VS : VSet I) (PM : PMap I V) (LM : PMap I L) (next : V -> list (V * L)) (cfg : bfs_cfg)
    (E : I -> I -> Prop) (starts : list V) lim n os r,
  bc_is_tree cfg = false -> bc_report_depth_increase cfg = false -> presents vid next E ->
  bc_build_paths cfg = true -> starts_distinct vid starts ->
  bfs_run vid VS PM LM next cfg starts None lim n = (os, r) ->
  (forall rep, In rep os ->
   exists l, path_list (next_edge next) (fun u => In u starts) l (br_vertex rep) /\
     Z.of_nat (length l) = (br_depth rep + 1)%Z /\
     delivers V_dec vid PM LM (br_pred rep) (br_labels rep) (bc_labeled cfg) (next_label next)
              (br_vertex rep) l /\
     delivers V_dec vid PM LM (b_pred (outcome_state r)) (b_labels (outcome_state r)) (bc_labeled cfg)
              (next_label next) (br_vertex rep) l) /\
  (forall v, In v starts ->
     delivers V_dec vid PM LM (b_pred (outcome_state r)) (b_labels (outcome_state r)) (bc_labeled cfg)
              (next_label next) v [v]) /\
  (forall v, paths_contains vid PM (b_pred (outcome_state r)) v = true <->
             is_start vid starts (vid v) \/ In (vid v) (bfs_ids vid os)).
Proof.
  intros V I L V_dec I_dec vid VS PM LM next cfg E starts lim n os r Ht Hr HE Hb Hd HR.
  exact (bfs_none_paths V_dec I_dec vid VS PM LM next cfg Ht Hr E HE starts lim n os r HR Hb Hd).
Qed.
Print Assumptions C03_bfs_paths.

Example C03_example :
  starts_distinct (fun v : nat => v) [0] /\ bc_build_paths bfs_default = true /\
  map (fun rep => iter_labeled_edges_from_start Nat.eq_dec (fun v => v) bPM bPM
                    (br_pred rep) (br_labels rep) 10 (br_vertex rep))
    (fst (bfs_run (fun v => v) bVS bPM bPM g_next bfs_default [0] None None 40))
  = [POk [(0, 1, 10)]; POk [(0, 2, 20)]; POk [(0, 1, 10); (1, 3, 13)];
     POk [(0, 1, 10); (1, 3, 13); (3, 4, 34)]].
Proof. split; [|split; [reflexivity|vm_compute; reflexivity]]. intros a b _ _ H. exact H. Qed.

(** C04 for breadth first search. [avoiding E P] is the graph without the edges into
    preloaded vertices; [b_calls] are the vertices the neighbor function has been asked about. *)
Theorem C04_bfs_already_visited :
  forall {V I L : Type} (I_dec : forall a b : I, {a = b} + {a <> b}) (vid : V -> I)
    (VS : VSet I) (PM : PMap I V) (LM : PMap I L) (next : V -> list (V * L)) (cfg : bfs_cfg)
    (E : I -> I -> Prop) (starts : list V) (av : option (vs_t VS)),
  bc_is_tree cfg = false -> bc_report_depth_increase cfg = false -> presents vid next E ->
  (forall lim n os r, bfs_run vid VS PM LM next cfg starts av lim n = (os, r) ->
     NoDup (bfs_ids vid os) /\
     (forall rep, In rep os ->
        ~ is_start vid starts (vid (br_vertex rep)) /\
        ~ in_already_visited VS av (vid (br_vertex rep)) /\
        reachable (avoiding E (in_already_visited VS av)) (is_start vid starts) (vid (br_vertex rep))) /\
     (forall v, In v (b_calls (outcome_state r)) ->
        is_start vid starts (vid v) \/ ~ in_already_visited VS av (vid v)) /\
     (forall s', r = Ended s' ->
        (forall i, reachable (avoiding E (in_already_visited VS av)) (is_start vid starts) i ->
                   is_start vid starts i \/ In i (bfs_ids vid os)) /\
        (forall i, vs_mem VS i (b_visited s') = true <->
                   in_already_visited VS av i \/ is_start vid starts i \/ In i (bfs_ids vid os)))) /\
  (forall i, reachable (avoiding E (in_already_visited VS av)) (is_start vid starts) i ->
     ~ is_start vid starts i ->
     exists n, In i (bfs_ids vid (fst (bfs_run vid VS PM LM next cfg starts av None n)))) /\
  (forall l, (forall i, reachable (avoiding E (in_already_visited VS av)) (is_start vid starts) i -> In i l) ->
     exists n os s', bfs_run vid VS PM LM next cfg starts av None n = (os, Ended s')).
Proof.
  intros V I L I_dec vid VS PM LM next cfg E starts av Ht Hr HE.
  exact (conj (bfs_av_reported I_dec vid VS PM LM next cfg Ht Hr E HE starts av)
        (conj (bfs_av_live I_dec vid VS PM LM next cfg Ht Hr E HE starts av)
              (bfs_av_terminates I_dec vid VS PM LM next cfg Ht Hr E HE starts av))).
Qed.
Print Assumptions C04_bfs_already_visited.

Example C04_bfs_example :
  bfs_ids (fun v => v)
    (fst (bfs_run (fun v => v) bVS bPM bPM g_next bfs_default [0] (Some (vs_add bVS 3 (vs_empty bVS))) None 40))
  = [1; 2].
Proof. vm_compute. reflexivity. Qed.

(** C06. [l] are the reports from the current position on (after [k] reports have been
    consumed), [go_for_range] the loop of go_for_depth_range: it reports exactly the vertices of
    the range, in order; if it stops by itself, it has consumed at most two vertices beyond them,
    and exactly one if something has been reported. *)
Theorem C06_depth_range :
  forall {V I L : Type} (I_dec : forall a b : I, {a = b} + {a <> b}) (vid : V -> I)
    (VS : VSet I) (PM : PMap I V) (LM : PMap I L) (next : V -> list (V * L)) (cfg : bfs_cfg)
    (E : I -> I -> Prop) (starts : list V) lim n os r (k : nat) (start stop : Z) e,
  bc_is_tree cfg = false -> bc_report_depth_increase cfg = false -> presents vid next E ->
  bfs_run vid VS PM LM next cfg starts None lim n = (os, r) ->
  let l := skipn k os in
  let in_range := filter (fun rep => (start <=? br_depth rep)%Z && (br_depth rep <? stop)%Z) l in
  let res := go_for_range (fun rep => (start <=? br_depth rep)%Z)
                          (fun rep => (br_depth rep <? stop)%Z) l e in
  fst res = in_range /\
  (forall rest, snd res = Stopped rest -> exists below lost,
      l = below ++ in_range ++ lost ++ rest /\
      (forall rep, In rep below -> (br_depth rep < start)%Z) /\
      (forall rep, In rep (lost ++ rest) -> (stop <= br_depth rep)%Z) /\
      1 <= length lost <= 2 /\ (in_range <> [] -> length lost = 1)).
Proof.
  intros V I L I_dec vid VS PM LM next cfg E starts lim n os r k start stop e Ht Hr HE HR.
  exact (bfs_depth_range I_dec vid VS PM LM next cfg Ht Hr E HE starts lim n os r HR k start stop e).
Qed.
Print Assumptions C06_depth_range.

Example C06_example :
  let os := fst (bfs_run (fun v => v) hVS hPM hPM inf_next bfs_default [0] None None 100) in
  bfs_ids (fun v => v) (fst (go_for_range (fun rep => (2 <=? br_depth rep)%Z)
                          (fun rep => (br_depth rep <? 4)%Z) os SMore)) = [3; 4; 5; 6; 7; 8; 9; 10; 11; 12; 13; 14].
Proof. vm_compute. reflexivity. Qed.

(** C51 (claimed by the documentation of go_for_depth_range, refuted): only one vertex beyond the range is
    consumed.  On the path 0 -> 1 -> 2 -> 3 and the empty range 1..1, the vertices 1 and 2 are
    consumed; the iteration goes on with vertex 3. *)
Theorem C51_depth_range_consumes_one_refuted :
  exists (next : nat -> list (nat * unit)) (start stop : Z) (n : nat),
    let os := fst (bfs_run (fun v => v) hVS hPM hPM next bfs_default [0] None None n) in
    bfs_ids (fun v => v) os = [1; 2; 3] /\
    map br_depth os = [1; 2; 3]%Z /\
    match go_for_range (fun rep => (start <=? br_depth rep)%Z)
                       (fun rep => (br_depth rep <? stop)%Z) os SEnd with
    | (reported, Stopped rest) => reported = [] /\ bfs_ids (fun v => v) rest = [3]
    | _ => False
    end.
Proof.
  exists (fun v => if v <? 3 then [(v + 1, tt)] else []), 1%Z, 1%Z, 40.
  vm_compute. auto.
Qed.
Print Assumptions C51_depth_range_consumes_one_refuted.
