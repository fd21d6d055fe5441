(** C96: floating point numbers as weights. *)
From Coq Require Import List ZArith Bool Arith Lia SpecFloat.
From Verif Require Import Machine GearSpec Spec TraversalSpec Common PathsModel PathsSpec PathsExact Weight WeightSpec
  HeapModel DijkstraModel DijkstraPlain Examples FloatModel FloatSpec FloatProofs FloatIEEE.
Import ListNotations.
Local Open Scope Z_scope.

(** C96, numbers. The numbers, comparison and sum that are used below are those of the non-negative IEEE floats of the specification in Coq's standard library
    (Coq.Floats.SpecFloat; Python: [prec] = 53, [emax] = 1024): each non-negative float other than NaN is a number, each number is such a float, and comparison and sum agree. *)
Theorem C96_floats_are_ieee :
  forall prec emax (Hprec : 1 <= prec) (Hemax : prec < emax),
  let FW := FloatWeights prec (sf_largest prec emax) Hprec (largest_nonneg prec emax Hprec) in
  (forall x, valid_binary prec emax x = true -> sf_nonneg x = true -> exists a, is_number prec emax x a) /\
  (forall a, exists x, is_number prec emax x a) /\
  (forall x y a b, is_number prec emax x a -> is_number prec emax y b ->
     SFleb x y = w_leb FW a b /\ is_number prec emax (SFadd prec emax x y) (w_add FW a b)).
Proof. intros prec emax Hprec Hemax. exact (ieee_agrees prec emax Hprec Hemax). Qed.
Print Assumptions C96_floats_are_ieee.

(** C96, distances. For all graphs whose weights are non-negative floats, gears, options (not is_tree), start vertices, limits and numbers [n] of passes: a reported distance is a
    finite float [f]; for each walk with finite weights from a start vertex to the vertex, [f] is at most the exact sum of the weights, times (1 + 2^-prec) for
    each edge but the first; and there is such a walk whose exact sum, times (1 - 2^-prec) for each edge but the first, is at most [f]. *)
Theorem C96_float_distances_nearly_minimal :
  forall {V I L : Type} (I_dec : forall a b : I, {a = b} + {a <> b}) (vid : V -> I) prec largest (Hprec : 1 <= prec) (Hlarge : 0 <= largest),
  let FW := FloatWeights prec largest Hprec Hlarge in
  forall (DM : DMap I (w_t FW) (w_inf FW)) (PM : PMap I V) (LM : PMap I L)
    (next : V -> list (V * w_t FW * L)) (cfg : dij_cfg) (E : I -> w_t FW -> I -> Prop) (starts : list V) lim n os r,
  dc_is_tree cfg = false -> presents_weighted FW vid next E ->
  dij_run vid FW DM PM LM next cfg starts None lim n = (os, r) ->
  forall rep, In rep os -> exists f, dr_distance rep = Some f /\
  (exists s p x, is_start vid starts s /\ wwalk FW E s p (vid (dr_vertex rep)) /\ exact_sum prec largest p = Some x /\
     at_most_down prec (pred (length p)) x (fin_value prec largest f)) /\
  (forall s p x, is_start vid starts s -> wwalk FW E s p (vid (dr_vertex rep)) -> exact_sum prec largest p = Some x ->
     at_most_up prec (pred (length p)) (fin_value prec largest f) x).
Proof.
  intros V I L I_dec vid prec largest Hprec Hlarge FW DM PM LM next cfg E starts lim n os r Ht HE HR rep Hr.
  exact (float_dijkstra_errors I_dec vid prec largest Hprec Hlarge DM PM LM next cfg Ht E HE starts lim n os r HR rep Hr).
Qed.
Print Assumptions C96_float_distances_nearly_minimal.

(** C96, paths. With build_paths, the exact sum [x] of the weights of the path that is delivered for a reported vertex is at most the exact sum [y] of the weights of any other walk [q] from a start vertex,
    up to the factor (1 + 2^-prec)^(length q - 1) / (1 - 2^-prec)^(length p - 1). *)
Theorem C96_float_paths_nearly_shortest :
  forall {V I L : Type} (V_dec : forall a b : V, {a = b} + {a <> b}) (I_dec : forall a b : I, {a = b} + {a <> b}) (vid : V -> I)
    prec largest (Hprec : 1 <= prec) (Hlarge : 0 <= largest),
  let FW := FloatWeights prec largest Hprec Hlarge in
  forall (DM : DMap I (w_t FW) (w_inf FW)) (PM : PMap I V) (LM : PMap I L)
    (next : V -> list (V * w_t FW * L)) (cfg : dij_cfg) (E : I -> w_t FW -> I -> Prop) (starts : list V) lim n os r,
  dc_is_tree cfg = false -> presents_weighted FW vid next E ->
  dij_run vid FW DM PM LM next cfg starts None lim n = (os, r) ->
  dc_build_paths cfg = true -> starts_distinct vid starts ->
  forall rep, In rep os -> exists s0 p x, In s0 starts /\ chain next s0 p (dr_vertex rep) /\ length p = dr_depth rep /\
     delivers_exactly V_dec vid PM LM (dr_pred rep) (dr_labels rep) (dc_labeled cfg) (dr_vertex rep) (chain_vertices s0 p) (chain_edges s0 p) /\
     exact_sum prec largest (map (fun e => (snd (fst e), fst (fst e))) p) = Some x /\
     forall s q y, is_start vid starts s -> wwalk FW E s q (vid (dr_vertex rep)) -> exact_sum prec largest q = Some y ->
     (2 ^ prec - 1) ^ Z.of_nat (pred (length p)) * (2 ^ prec) ^ Z.of_nat (pred (length q)) * x
     <= (2 ^ prec) ^ Z.of_nat (pred (length p)) * (2 ^ prec + 1) ^ Z.of_nat (pred (length q)) * y.
Proof.
  intros V I L V_dec I_dec vid prec largest Hprec Hlarge FW DM PM LM next cfg E starts lim n os r Ht HE HR Hb Hd rep Hr.
  exact (float_dijkstra_path I_dec vid prec largest Hprec Hlarge DM PM LM next cfg Ht E HE starts lim n os r HR V_dec Hb Hd rep Hr).
Qed.
Print Assumptions C96_float_paths_nearly_shortest.

(** C96, exact sums. If all weights are multiples of a power of two 2^j (for example, whole numbers: j = 1074), then a reported distance smaller than 2^prec times this power of two
    (for whole numbers and Python's float: 2^53) is the exact minimum. *)
Theorem C96_float_distances_exact :
  forall {V I L : Type} (I_dec : forall a b : I, {a = b} + {a <> b}) (vid : V -> I) prec largest (Hprec : 1 <= prec) (Hlarge : 0 <= largest),
  let FW := FloatWeights prec largest Hprec Hlarge in
  forall (DM : DMap I (w_t FW) (w_inf FW)) (PM : PMap I V) (LM : PMap I L)
    (next : V -> list (V * w_t FW * L)) (cfg : dij_cfg) (E : I -> w_t FW -> I -> Prop) (starts : list V) lim n os r,
  dc_is_tree cfg = false -> presents_weighted FW vid next E ->
  dij_run vid FW DM PM LM next cfg starts None lim n = (os, r) ->
  forall j, 0 <= j -> (forall a w b, E a (Some w) b -> (2 ^ j | fin_value prec largest w)) ->
  forall rep, In rep os -> exists f, dr_distance rep = Some f /\
  (fin_value prec largest f < 2 ^ (prec + j) ->
   (exists s p, is_start vid starts s /\ wwalk FW E s p (vid (dr_vertex rep)) /\ exact_sum prec largest p = Some (fin_value prec largest f)) /\
   (forall s p x, is_start vid starts s -> wwalk FW E s p (vid (dr_vertex rep)) -> exact_sum prec largest p = Some x -> fin_value prec largest f <= x)).
Proof.
  intros V I L I_dec vid prec largest Hprec Hlarge FW DM PM LM next cfg E starts lim n os r Ht HE HR j Hj Hm.
  exact (float_dijkstra_exact I_dec vid prec largest Hprec Hlarge DM PM LM next cfg Ht E HE starts lim n os r HR j Hj Hm).
Qed.
Print Assumptions C96_float_distances_exact.

(** Python's floats 0.1 (edge 0 - 1), 0.2 (edge 1 - 2) and 0.3 (edges 0 - 2 and 2 - 3): the sum of 0.1 and 0.2 is 0.30000000000000004, so vertex 2 has the distance 0.3, and
    vertex 3 has the distance 0.6. The sum is also the one of the standard library; sums of large numbers are infinite; 2^53 + 1 is rounded. *)
Definition pf (m k : Z) : w_t PyFloat := float_of 53 py_largest (m * 2 ^ k).
Definition f_next (v : nat) : list (nat * w_t PyFloat * nat) :=
  match v with
  | 0 => [(1, pf 3602879701896397 1019, 1); (2, pf 5404319552844595 1020, 2)]
  | 1 => [(2, pf 3602879701896397 1020, 12)]
  | 2 => [(3, pf 5404319552844595 1020, 23)]
  | _ => []
  end%nat.
Definition f_value (a : w_t PyFloat) : option Z := option_map (fin_value 53 py_largest) a.
Definition sf_of (m k : Z) : spec_float := binary_normalize 53 1024 m (k - 1074) false.

Example C96_example :
  presents_weighted PyFloat (fun v : nat => v) f_next (wgraph_of (WT := PyFloat) f_next) /\ starts_distinct (fun v : nat => v) [0%nat] /\
  let p := dij_run (fun v : nat => v) PyFloat (hDM (W := w_t PyFloat) None) bPM bPM f_next dij_default [0%nat] None None 40 in
  map (fun rep => (dr_vertex rep, f_value (dr_distance rep), dr_depth rep)) (fst p)
  = [(1%nat, Some (3602879701896397 * 2 ^ 1019), 1%nat); (2%nat, Some (5404319552844595 * 2 ^ 1020), 1%nat); (3%nat, Some (5404319552844595 * 2 ^ 1021), 2%nat)] /\
  f_value (w_add PyFloat (pf 3602879701896397 1020) (pf 3602879701896397 1019)) = Some (5404319552844596 * 2 ^ 1020) /\
  sf_value 53 1024 (SFadd 53 1024 (sf_of 3602879701896397 1020) (sf_of 3602879701896397 1019)) = Some (5404319552844596 * 2 ^ 1020) /\
  f_value (w_add PyFloat (pf 1 2097) (pf 1 2097)) = None /\ SFadd 53 1024 (sf_of 1 2097) (sf_of 1 2097) = S754_infinity false /\
  f_value (w_add PyFloat (pf 1 (53 + 1074)) (pf 1 1074)) = f_value (pf 1 (53 + 1074)).
Proof. split; [apply presents_wgraph_of|]. split; [intros a b _ _ H; exact H|]. vm_compute. repeat split; reflexivity. Qed.
