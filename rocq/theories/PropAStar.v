(** Properties of TraversalAStar: C26, C27, C24, C54, C55, C56. Sums of weights are exact here (see AStarSpec.v). *)
From Coq Require Import List ZArith Bool Arith Lia.
From Verif Require Import Machine GearSpec Spec TraversalSpec Common PathsModel PathsSpec PathsExact Weight WeightSpec
  HeapModel DijkstraModel AStarModel AStarSpec AStarFinal Examples AStarExamples.
Import ListNotations.

(** C26. For all graphs with non-negative weights, gears, options (not is_tree), start vertices, limits and numbers [n] of
    passes: if the heuristic (a function [h] of the vertex id) never overestimates and is zero for goals, and no start vertex is a
    goal, then the first goal vertex that is reported is reported with path_length being the least weight of a walk from
    a start vertex to a goal. With build_paths (and finite estimations), the paths container then delivers a chain of
    edges of the neighbor function, from a start vertex to the goal, with the labels of these edges, with weight
    path_length, that has [depth] edges. *)
Theorem C26_astar_goal_optimal :
  forall {V I L : Type} (V_dec : forall a b : V, {a = b} + {a <> b}) (I_dec : forall a b : I, {a = b} + {a <> b})
    (vid : V -> I) (WT : Weights)
    (DM : DMap I (w_t WT) (w_inf WT)) (PM : PMap I V) (LM : PMap I L)
    (next : V -> list (V * w_t WT * L)) (cfg : ast_cfg) (E : I -> w_t WT -> I -> Prop)
    (heuristic : V -> w_t WT) (h : I -> w_t WT) (Goal : I -> Prop) (starts : list V) lim n os r,
  ac_is_tree cfg = false -> presents_weighted WT vid next E -> nonnegative WT E -> exact WT ->
  (forall v, heuristic v = h (vid v)) ->
  admissible WT E h Goal -> (forall g, Goal g -> h g = w_zero WT) ->
  (forall g, Goal g -> ~ is_start vid starts g) ->
  ast_run vid WT DM PM LM next cfg heuristic starts None None lim n = (os, r) ->
  forall o1 rep o2, os = o1 ++ rep :: o2 -> Goal (vid (ar_vertex rep)) ->
  (forall rep', In rep' o1 -> ~ Goal (vid (ar_vertex rep'))) ->
  is_goal_distance WT E (is_start vid starts) Goal (ar_path_length rep) /\
  (ac_build_paths cfg = true -> starts_distinct vid starts -> finite_estimates WT h ->
   exists s0 p, In s0 starts /\ chain next s0 p (ar_vertex rep) /\
     chain_weight WT (w_zero WT) p = ar_path_length rep /\ length p = ar_depth rep /\
     delivers_exactly V_dec vid PM LM (ar_pred rep) (ar_labels rep) (ac_labeled cfg) (ar_vertex rep)
       (chain_vertices s0 p) (chain_edges s0 p)).
Proof.
  intros V I L V_dec I_dec vid WT DM PM LM next cfg E heuristic h Goal starts lim n os r Ht HE Hn Hx Hh Ha Hz Hg HR.
  exact (ast_goal_all V_dec I_dec vid WT DM PM LM next cfg Ht E HE Hn Hx heuristic h Hh starts lim n os r HR Goal Ha Hz Hg).
Qed.
Print Assumptions C26_astar_goal_optimal.

(** An admissible, but not consistent heuristic: vertex 2 is expanded twice, the goal 4 is reported with the optimum 6. *)
Example C26_example :
  presents_weighted ZI id_nat as_next (wgraph_of (WT := ZI) as_next) /\ nonnegative ZI (@wgraph_of nat ZI as_next) /\
  exact ZI /\ admissible ZI (@wgraph_of nat ZI as_next) as_h (fun i => i = 4) /\ as_h 4 = w_zero ZI /\
  finite_estimates ZI as_h /\ starts_distinct id_nat [0] /\ ~ is_start id_nat [0] 4 /\
  let p := ast_run id_nat ZI hDMZ bPM bPM as_next ast_default as_h [0] None None None 60 in
  map (fun rep => (ar_vertex rep, ar_path_length rep, ar_depth rep)) (fst p)
  = [(2, Some 4%Z, 1); (3, Some 6%Z, 2); (1, Some 1%Z, 1); (2, Some 2%Z, 2); (3, Some 4%Z, 3); (4, Some 6%Z, 4)] /\
  map (fun rep => iter_labeled_edges_from_start Nat.eq_dec id_nat bPM bPM (ar_pred rep) (ar_labels rep) 10 (ar_vertex rep))
    (skipn 5 (fst p)) = [POk [(0, 1, 1); (1, 2, 12); (2, 3, 23); (3, 4, 34)]].
Proof.
  split; [apply presents_wgraph_of|]. split; [apply as_next_nonneg|]. split; [apply exact_ZInfWeights|].
  split; [exact as_h_admissible|]. split; [reflexivity|]. split; [exact as_h_finite|].
  split; [intros a b _ _ Hab; exact Hab|]. split; [intros [Hab|[]]; discriminate|]. vm_compute. auto.
Qed.

(** C27. If the heuristic is consistent, and all its values are finite: each vertex is reported at most once, and
    path_length is its minimal distance from the start vertices; with build_paths, the paths container delivers a path
    with this weight and [depth] edges. *)
Theorem C27_astar_consistent :
  forall {V I L : Type} (V_dec : forall a b : V, {a = b} + {a <> b}) (I_dec : forall a b : I, {a = b} + {a <> b})
    (vid : V -> I) (WT : Weights)
    (DM : DMap I (w_t WT) (w_inf WT)) (PM : PMap I V) (LM : PMap I L)
    (next : V -> list (V * w_t WT * L)) (cfg : ast_cfg) (E : I -> w_t WT -> I -> Prop)
    (heuristic : V -> w_t WT) (h : I -> w_t WT) (starts : list V) lim n os r,
  ac_is_tree cfg = false -> presents_weighted WT vid next E -> nonnegative WT E -> exact WT ->
  (forall v, heuristic v = h (vid v)) -> consistent WT E h -> finite_estimates WT h ->
  ast_run vid WT DM PM LM next cfg heuristic starts None None lim n = (os, r) ->
  NoDup (ast_ids vid os) /\
  (forall rep, In rep os -> is_distance WT E (is_start vid starts) (vid (ar_vertex rep)) (ar_path_length rep)) /\
  (ac_build_paths cfg = true -> starts_distinct vid starts ->
   forall rep, In rep os -> exists s0 p, In s0 starts /\ chain next s0 p (ar_vertex rep) /\
     chain_weight WT (w_zero WT) p = ar_path_length rep /\ length p = ar_depth rep /\
     delivers_exactly V_dec vid PM LM (ar_pred rep) (ar_labels rep) (ac_labeled cfg) (ar_vertex rep)
       (chain_vertices s0 p) (chain_edges s0 p)).
Proof.
  intros V I L V_dec I_dec vid WT DM PM LM next cfg E heuristic h starts lim n os r Ht HE Hn Hx Hh Hc Hf HR.
  exact (ast_consistent_all V_dec I_dec vid WT DM PM LM next cfg Ht E HE Hn Hx heuristic h Hh starts lim n os r HR Hc Hf).
Qed.
Print Assumptions C27_astar_consistent.

Example C27_example :
  consistent ZI (@wgraph_of nat ZI as_next) as_hc /\ finite_estimates ZI as_hc /\
  let p := ast_run id_nat ZI hDMZ bPM bPM as_next ast_default as_hc [0] None None None 60 in
  map (fun rep => (ar_vertex rep, ar_path_length rep, ar_depth rep)) (fst p)
  = [(1, Some 1%Z, 1); (2, Some 2%Z, 2); (3, Some 4%Z, 3); (4, Some 6%Z, 4)].
Proof. split; [exact as_hc_consistent|]. split; [exact as_hc_finite|]. vm_compute. auto. Qed.

(** C24 for A*. No reported path length and no stored distance reaches infinity; an OverflowError is raised
    only if an edge extends a walk from a start vertex to weight infinity or more, or the (finite) estimation added to this
    sum gives infinity or more; and if an edge extends a shortest path to infinity or more, the traversal does not end without
    the exception. *)
Theorem C24_astar_overflow :
  forall {V I L : Type} (I_dec : forall a b : I, {a = b} + {a <> b}) (vid : V -> I) (WT : Weights)
    (DM : DMap I (w_t WT) (w_inf WT)) (PM : PMap I V) (LM : PMap I L)
    (next : V -> list (V * w_t WT * L)) (cfg : ast_cfg) (E : I -> w_t WT -> I -> Prop)
    (heuristic : V -> w_t WT) (h : I -> w_t WT) (starts : list V) lim n os r,
  ac_is_tree cfg = false -> presents_weighted WT vid next E -> nonnegative WT E -> exact WT ->
  (forall v, heuristic v = h (vid v)) ->
  ast_run vid WT DM PM LM next cfg heuristic starts None None lim n = (os, r) ->
  let St := is_start vid starts in
  (forall rep, In rep os -> w_ltb WT (ar_path_length rep) (w_inf WT) = true /\
     forall i, dm_get DM i (ar_distances rep) = w_inf WT \/ w_ltb WT (dm_get DM i (ar_distances rep)) (w_inf WT) = true) /\
  (forall s', r = Raised OverflowErrorDistance s' ->
     exists s p i w j, St s /\ wwalk WT E s p i /\ E i w j /\
       (w_leb WT (w_inf WT) (w_add WT w (walk_weight WT p)) = true \/
        (h j <> w_inf WT /\ w_leb WT (w_inf WT) (w_add WT (w_add WT w (walk_weight WT p)) (h j)) = true))) /\
  (forall s', r = Ended s' ->
     forall i d w j, is_distance WT E St i d -> E i w j -> w_ltb WT (w_add WT w d) (w_inf WT) = true).
Proof.
  intros V I L I_dec vid WT DM PM LM next cfg E heuristic h starts lim n os r Ht HE Hn Hx Hh HR.
  exact (ast_overflow_all I_dec vid WT DM PM LM next cfg Ht E HE Hn Hx heuristic h Hh starts lim n os r HR).
Qed.
Print Assumptions C24_astar_overflow.

Example C24_astar_example :
  let next := fun v => match v with 0 => [(1, 100%Z, tt)] | 1 => [(2, 100%Z, tt)] | 2 => [(3, 54%Z, tt)] | _ => [] end in
  let B255 := ZWeights 255 eq_refl in
  let p := ast_run id_nat B255 (hDM 255%Z) hPM hPM next ast_default (fun v => match v with 3 => 1%Z | _ => 0%Z end)
             [0] None None None 40 in
  ast_ids id_nat (fst p) = [1; 2] /\ match snd p with Raised OverflowErrorDistance _ => True | _ => False end.
Proof. vm_compute. auto. Qed.

(** C54. For every heuristic, admissible or not: only reachable vertices that are no start vertices are reported, with the
    weight of some walk as path_length. If finitely many vertices are reachable, the traversal without limit
    ends or raises OverflowError. When it has ended, all reachable vertices have been reported (or are
    start vertices), at some time with their minimal distance as path_length, and [distances] holds the
    minimal distance of all reachable vertices, and infinity for the others. *)
Theorem C54_astar_any_heuristic :
  forall {V I L : Type} (I_dec : forall a b : I, {a = b} + {a <> b}) (vid : V -> I) (WT : Weights)
    (DM : DMap I (w_t WT) (w_inf WT)) (PM : PMap I V) (LM : PMap I L)
    (next : V -> list (V * w_t WT * L)) (cfg : ast_cfg) (E : I -> w_t WT -> I -> Prop)
    (heuristic : V -> w_t WT) (h : I -> w_t WT) (starts : list V),
  ac_is_tree cfg = false -> presents_weighted WT vid next E -> nonnegative WT E -> exact WT ->
  (forall v, heuristic v = h (vid v)) ->
  let St := is_start vid starts in
  (forall lim n os r, ast_run vid WT DM PM LM next cfg heuristic starts None None lim n = (os, r) ->
     (forall rep, In rep os -> ~ St (vid (ar_vertex rep)) /\
        exists s p, St s /\ wwalk WT E s p (vid (ar_vertex rep)) /\ walk_weight WT p = ar_path_length rep) /\
     (forall s', r = Ended s' ->
        (forall i, wreachable WT E St i -> is_distance WT E St i (dm_get DM i (a_distances s')) /\
           (St i \/ exists rep, In rep os /\ vid (ar_vertex rep) = i /\ ar_path_length rep = dm_get DM i (a_distances s'))) /\
        (forall i, ~ wreachable WT E St i -> dm_get DM i (a_distances s') = w_inf WT))) /\
  (forall ids, (forall i, wreachable WT E St i -> In i ids) ->
     exists n os s, ast_run vid WT DM PM LM next cfg heuristic starts None None None n = (os, Ended s) \/
       ast_run vid WT DM PM LM next cfg heuristic starts None None None n = (os, Raised OverflowErrorDistance s)).
Proof.
  intros V I L I_dec vid WT DM PM LM next cfg E heuristic h starts Ht HE Hn Hx Hh.
  exact (ast_any_all I_dec vid WT DM PM LM next cfg Ht E HE Hn Hx heuristic h Hh starts).
Qed.
Print Assumptions C54_astar_any_heuristic.

(** Not admissible: the goal 4 is reported first with a path length that is not minimal. *)
Example C54_example :
  match ast_run id_nat ZI hDMZ bPM bPM as_next ast_default (fun v => match v with 1 => Some 100%Z | _ => Some 0%Z end)
          [0] None None None 80 with
  | (os, Ended s) => map (fun rep => (ar_vertex rep, ar_path_length rep)) os =
      [(2, Some 4%Z); (3, Some 6%Z); (4, Some 8%Z); (1, Some 1%Z); (2, Some 2%Z); (3, Some 4%Z); (4, Some 6%Z)] /\
      map (fun i => dm_get hDMZ i (a_distances s)) [0; 1; 2; 3; 4; 5] = [Some 0; Some 1; Some 2; Some 4; Some 6; None]%Z
  | _ => False
  end.
Proof. vm_compute. auto. Qed.

(** C55, refuted. The documentation promises for consistent heuristics that each vertex is visited only once, and that
    [depth] belongs to the shortest path. With infinite estimations (admissible for vertices that do not
    reach the goal, and consistent), a vertex is reported twice, the second time with a depth that is not the length of
    the stored path. *)
Theorem C55_astar_infinite_estimates_refuted :
  exists (next : nat -> list (nat * w_t ZI * unit)) (h : nat -> w_t ZI) (n : nat) s,
  let E := wgraph_of (WT := ZI) next in
  nonnegative ZI E /\ consistent ZI E h /\ admissible ZI E h (fun i => i = 9) /\
  map (fun rep => (ar_vertex rep, ar_path_length rep, ar_depth rep))
    (fst (ast_run id_nat ZI hDMZ hPM hPM next ast_default h [0] None None None n))
  = [(1, Some 1%Z, 1); (2, Some 2%Z, 2); (2, Some 2%Z, 1)] /\
  snd (ast_run id_nat ZI hDMZ hPM hPM next ast_default h [0] None None None n) = Ended s /\
  iter_vertices_from_start Nat.eq_dec id_nat hPM (a_pred s) 5 2 = POk [0; 1; 2].
Proof. exact ast_infinite_estimates. Qed.
Print Assumptions C55_astar_infinite_estimates_refuted.

(** C56, refuted. The documentation promises that vertices are reported ordered by increasing path length. With a
    consistent (and finite) heuristic, a vertex with path length 2 is reported before one with path length 1. *)
Theorem C56_astar_order_refuted :
  exists (next : nat -> list (nat * w_t ZI * unit)) (h : nat -> w_t ZI) (n : nat),
  let E := wgraph_of (WT := ZI) next in
  nonnegative ZI E /\ consistent ZI E h /\ finite_estimates ZI h /\ admissible ZI E h (fun i => i = 2) /\
  map (fun rep => (ar_vertex rep, ar_path_length rep))
    (fst (ast_run id_nat ZI hDMZ hPM hPM next ast_default h [0] None None None n))
  = [(2, Some 2%Z); (1, Some 1%Z)].
Proof. exact ast_order. Qed.
Print Assumptions C56_astar_order_refuted.
