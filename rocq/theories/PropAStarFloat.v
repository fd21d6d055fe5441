(** C98, C99: TraversalAStar with floating point numbers as weights. *)
From Coq Require Import List ZArith Bool Arith Lia.
From Verif Require Import Machine GearSpec Spec TraversalSpec Common Weight WeightSpec
  HeapModel DijkstraModel AStarModel Examples AStarExamples FloatModel FloatSpec FloatProofs AStarRounded AStarFloat AStarFloatExamples.
Import ListNotations.
Local Open Scope Z_scope.

(** C98, goals. For all graphs with non-negative floats as weights, gears, options (not is_tree), start vertices, limits and numbers [n] of passes: if the heuristic (a function of
    the vertex id) never is larger than the exact sum of the weights of a walk to a goal, and no start vertex is a goal, then the first goal vertex that is reported has a finite
    path_length that is the float sum of a walk to it (so, with m edges, at least its exact sum times (1 - 2^-prec)^(m-1)), and for all walks from a start vertex to any goal,
    with k edges, path_length is at most the exact sum of the weights times (1 + 2^-prec)^(k-1): no rounding error of the estimations adds to that. *)
Theorem C98_float_goal_nearly_optimal :
  forall {V I L : Type} (I_dec : forall a b : I, {a = b} + {a <> b}) (vid : V -> I) prec largest (Hprec : 1 <= prec) (Hlarge : 0 <= largest),
  let FW := FloatWeights prec largest Hprec Hlarge in
  forall (DM : DMap I (w_t FW) (w_inf FW)) (PM : PMap I V) (LM : PMap I L)
    (next : V -> list (V * w_t FW * L)) (cfg : ast_cfg) (E : I -> w_t FW -> I -> Prop)
    (heuristic : V -> w_t FW) (h : I -> w_t FW) (Goal : I -> Prop) (starts : list V) lim n os r,
  ac_is_tree cfg = false -> presents_weighted FW vid next E ->
  (forall v, heuristic v = h (vid v)) -> float_admissible prec largest Hprec Hlarge E h Goal ->
  (forall i, is_start vid starts i -> ~ Goal i) ->
  ast_run vid FW DM PM LM next cfg heuristic starts None None lim n = (os, r) ->
  forall o1 rep o2, os = o1 ++ rep :: o2 -> Goal (vid (ar_vertex rep)) ->
  (forall rep', In rep' o1 -> ~ Goal (vid (ar_vertex rep'))) ->
  exists f, ar_path_length rep = Some f /\
  (exists s p x, is_start vid starts s /\ wwalk FW E s p (vid (ar_vertex rep)) /\ walk_weight FW p = Some f /\
     exact_sum prec largest p = Some x /\ at_most_down prec (pred (length p)) x (fin_value prec largest f)) /\
  (forall s q g x, is_start vid starts s -> Goal g -> wwalk FW E s q g -> exact_sum prec largest q = Some x ->
     at_most_up prec (pred (length q)) (fin_value prec largest f) x).
Proof.
  intros V I L I_dec vid prec largest Hprec Hlarge FW DM PM LM next cfg E heuristic h Goal starts lim n os r Ht HE Hh Ha Hg HR o1 rep o2 Hos Hgoal Hf.
  exact (float_first_goal I_dec vid prec largest Hprec Hlarge DM PM LM next cfg Ht E HE heuristic h Hh starts Goal Hg Ha lim n os r o1 rep o2 HR Hos Hf Hgoal).
Qed.
Print Assumptions C98_float_goal_nearly_optimal.

(** C98, completeness. With floats and any heuristic: when the traversal has ended, all vertices that can be reached from a start vertex, and are no start vertices,
    have been reported. *)
Theorem C98_float_all_reported :
  forall {V I L : Type} (I_dec : forall a b : I, {a = b} + {a <> b}) (vid : V -> I) prec largest (Hprec : 1 <= prec) (Hlarge : 0 <= largest),
  let FW := FloatWeights prec largest Hprec Hlarge in
  forall (DM : DMap I (w_t FW) (w_inf FW)) (PM : PMap I V) (LM : PMap I L)
    (next : V -> list (V * w_t FW * L)) (cfg : ast_cfg) (E : I -> w_t FW -> I -> Prop)
    (heuristic : V -> w_t FW) (h : I -> w_t FW) (starts : list V) lim n os s',
  ac_is_tree cfg = false -> presents_weighted FW vid next E -> (forall v, heuristic v = h (vid v)) ->
  ast_run vid FW DM PM LM next cfg heuristic starts None None lim n = (os, Ended s') ->
  forall s p i, is_start vid starts s -> wwalk FW E s p i -> ~ is_start vid starts i -> In i (ast_ids vid os).
Proof.
  intros V I L I_dec vid prec largest Hprec Hlarge FW DM PM LM next cfg E heuristic h starts lim n os s' Ht HE Hh HR.
  exact (float_all_reported I_dec vid prec largest Hprec Hlarge DM PM LM next cfg Ht E HE heuristic h Hh starts lim n os s' HR).
Qed.
Print Assumptions C98_float_all_reported.

(** The graph of C96 (weights 0.1, 0.2 and 0.3), with the exact distances to the goal 3 as estimations: the goal is reported second, with path_length 0.6 *)
Example C98_example :
  presents_weighted PyFloat id_nat fa_next (wgraph_of (WT := PyFloat) fa_next) /\
  float_admissible 53 py_largest py_prec py_largest_nonneg (wgraph_of (WT := PyFloat) fa_next) fa_h (fun i => i = 3%nat) /\ ~ is_start id_nat [0%nat] 3%nat /\
  fshow (fst (frun fa_next fa_h 40))
  = [(2%nat, Some (5404319552844595 * 2 ^ 1020), 1%nat); (3%nat, Some (5404319552844595 * 2 ^ 1021), 2%nat); (1%nat, Some (3602879701896397 * 2 ^ 1019), 1%nat)] /\
  match snd (frun fa_next fa_h 40) with Ended _ => True | _ => False end.
Proof.
  split; [apply presents_wgraph_of|]. split; [exact fa_admissible|]. split; [intros [H|[]]; discriminate|]. vm_compute. split; [reflexivity|exact Logic.I].
Qed.

(** C99, refuted. With a consistent heuristic, each vertex is reported only once (documentation; C27 for exact sums): not with floats. The estimation 2^60 hides the weights
    1 and 0.25. Vertex 2 is reported twice; the second time, with a depth that is not the number of edges of its path. *)
Theorem C99_float_astar_repeats_vertex_refuted :
  exists (next : nat -> list (nat * w_t PyFloat * unit)) (h : nat -> w_t PyFloat) (n : nat),
  float_consistent 53 py_largest (wgraph_of (WT := PyFloat) next) h /\
  float_admissible 53 py_largest py_prec py_largest_nonneg (wgraph_of (WT := PyFloat) next) h (fun i => i = 3%nat) /\
  fshow (fst (frun next h n)) = [(1%nat, Some (2 ^ 1072), 1%nat); (2%nat, Some (2 ^ 1073), 2%nat); (3%nat, Some (2 ^ 1134), 3%nat); (2%nat, Some (2 ^ 1073), 1%nat)] /\
  match snd (frun next h n) with Ended _ => True | _ => False end.
Proof.
  exists ft_next, ft_h, 40%nat. split; [exact ft_consistent|]. split; [exact ft_admissible|]. vm_compute. split; [reflexivity|exact Logic.I].
Qed.
Print Assumptions C99_float_astar_repeats_vertex_refuted.

(** C99, refuted. With a consistent heuristic, the path_length of a reported vertex is minimal (documentation; C27 for exact sums): not with floats, not even nearly.
    Vertex 2 is reported with path_length 1, and later with path_length 0.5. *)
Theorem C99_float_astar_not_minimal_refuted :
  exists (next : nat -> list (nat * w_t PyFloat * unit)) (h : nat -> w_t PyFloat) (n : nat),
  float_consistent 53 py_largest (wgraph_of (WT := PyFloat) next) h /\
  float_admissible 53 py_largest py_prec py_largest_nonneg (wgraph_of (WT := PyFloat) next) h (fun i => i = 3%nat) /\
  fshow (fst (frun next h n)) = [(2%nat, Some (2 ^ 1074), 1%nat); (3%nat, Some (2 ^ 1134), 2%nat); (1%nat, Some (2 ^ 1072), 1%nat); (2%nat, Some (2 ^ 1073), 2%nat)] /\
  match snd (frun next h n) with Ended _ => True | _ => False end.
Proof.
  exists fl_next, ft_h, 40%nat. split; [exact fl_consistent|]. split; [exact fl_admissible|]. vm_compute. split; [reflexivity|exact Logic.I].
Qed.
Print Assumptions C99_float_astar_not_minimal_refuted.

(** C99, what remains. If the heuristic is consistent (and finite): when a vertex is reported for the first time, the sum of its path_length and its estimation is nearly minimal:
    it is at most (1 + 2^-prec)^k / (1 - 2^-prec) times the exact sum of the weights of each walk with k edges to it plus the estimation.
    So, path_length is minimal up to an error relative to path_length plus estimation. Missing: an error relative to path_length, and one report only; both are false, see above. *)
Theorem C99_float_first_report_partial :
  forall {V I L : Type} (I_dec : forall a b : I, {a = b} + {a <> b}) (vid : V -> I) prec largest (Hprec : 1 <= prec) (Hlarge : 0 <= largest),
  let FW := FloatWeights prec largest Hprec Hlarge in
  forall (DM : DMap I (w_t FW) (w_inf FW)) (PM : PMap I V) (LM : PMap I L)
    (next : V -> list (V * w_t FW * L)) (cfg : ast_cfg) (E : I -> w_t FW -> I -> Prop)
    (heuristic : V -> w_t FW) (h : I -> w_t FW) (starts : list V) lim n os r,
  ac_is_tree cfg = false -> presents_weighted FW vid next E ->
  (forall v, heuristic v = h (vid v)) -> float_consistent prec largest E h ->
  ast_run vid FW DM PM LM next cfg heuristic starts None None lim n = (os, r) ->
  forall o1 rep o2, os = o1 ++ rep :: o2 -> ~ In (vid (ar_vertex rep)) (ast_ids vid o1) -> ~ is_start vid starts (vid (ar_vertex rep)) ->
  exists f e, ar_path_length rep = Some f /\ h (vid (ar_vertex rep)) = Some e /\
  (exists s p x, is_start vid starts s /\ wwalk FW E s p (vid (ar_vertex rep)) /\ walk_weight FW p = Some f /\
     exact_sum prec largest p = Some x /\ at_most_down prec (pred (length p)) x (fin_value prec largest f)) /\
  (forall s q x, is_start vid starts s -> wwalk FW E s q (vid (ar_vertex rep)) -> exact_sum prec largest q = Some x ->
     (2 ^ prec - 1) * (2 ^ prec) ^ Z.of_nat (length q) * (fin_value prec largest f + fin_value prec largest e)
     <= 2 ^ prec * (2 ^ prec + 1) ^ Z.of_nat (length q) * (x + fin_value prec largest e)).
Proof.
  intros V I L I_dec vid prec largest Hprec Hlarge FW DM PM LM next cfg E heuristic h starts lim n os r Ht HE Hh Hc HR o1 rep o2 Hos Hf Hs.
  exact (float_first_report I_dec vid prec largest Hprec Hlarge DM PM LM next cfg Ht E HE heuristic h Hh starts Hc lim n os r o1 rep o2 HR Hos Hf Hs).
Qed.
Print Assumptions C99_float_first_report_partial.

(** For the graph of the counterexample, the hypotheses hold for the first report of vertex 2 *)
Example C99_example :
  presents_weighted PyFloat id_nat fl_next (wgraph_of (WT := PyFloat) fl_next) /\ float_consistent 53 py_largest (wgraph_of (WT := PyFloat) fl_next) ft_h /\
  map (fun rep => ar_vertex rep) (fst (frun fl_next ft_h 40)) = [2; 3; 1; 2]%nat /\ ~ is_start id_nat [0%nat] 2%nat.
Proof.
  split; [apply presents_wgraph_of|]. split; [exact fl_consistent|]. split; [vm_compute; reflexivity|]. intros [H|[]]; discriminate.
Qed.
