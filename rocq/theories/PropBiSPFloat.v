(** C118: the bidirectional search of shortest paths with floating point numbers. *)
From Coq Require Import List ZArith Bool Arith Lia.
From Verif Require Import Machine GearSpec Spec TraversalSpec Common PathsModel PathModel PathSpec Weight WeightSpec HeapModel DijkstraModel FloatModel FloatSpec
  BiSPModel BiSPSpec BiSPRoundSpec BiSPFloat Examples PropFloat BiSPFloatExamples.
Import ListNotations.
Local Open Scope Z_scope.

(** C118, rounded sums. For all weights whose sum is commutative, has zero as neutral element and may be rounded (monotonically): a returned length is the length of a path from a start
    vertex to a goal vertex, summed up from both of its ends to some place in it; for each path, it is at most twice the length of that path, summed up in the same way from both ends to some place in it; without path, the search fails; and the search ends
    if finitely many vertices can be reached, or reached within the length of some path, from the start vertices or backwards from the goal vertices. *)
Theorem C118_rounded_length :
  forall {V I L : Type} (V_dec : forall a b : V, {a = b} + {a <> b}) (I_dec : forall a b : I, {a = b} + {a <> b}) (vid : V -> I)
    (WT : Weights) (DM : DMap I (w_t WT) (w_inf WT)) (PM : PMap I V) (LM : PMap I L) (next_f next_b : V -> list (V * w_t WT * L)) (labeled build_path fail_silently : bool)
    (E : I -> w_t WT -> I -> Prop) (starts goals : list V) (lim : option Z),
  rounded_addition WT -> presents_weighted WT vid next_f E -> presents_weighted WT vid next_b (fun i w j => E j w i) -> nonnegative WT E ->
  let search := b2_run V_dec I_dec vid WT DM PM LM next_f next_b labeled build_path fail_silently starts goals lim in
  let no_path := forall s p g, is_start vid starts s -> is_start vid goals g -> ~ wwalk WT E s p g in
  (forall n os r, search n = (os, r) ->
     match r with
     | Running _ => os = []
     | Ended _ => exists x, os = [x] /\
         ((w_ltb WT (b2_length x) (w_inf WT) = true /\
           (exists s p g, is_start vid starts s /\ is_start vid goals g /\ wwalk WT E s p g /\ length_from_both_ends WT p (b2_length x)) /\
           (forall s p g, is_start vid starts s -> is_start vid goals g -> wwalk WT E s p g ->
              exists c, length_from_both_ends WT p c /\ w_leb WT (b2_length x) (w_add WT c c) = true)) \/
          (fail_silently = true /\ b2_length x = w_inf WT /\ no_path))
     | Raised e _ => os = [] /\
         ((e = KeyErrorNotFound /\ fail_silently = false /\ no_path) \/
          (e = RuntimeErrorLimit /\ lim <> None) \/
          (e = OverflowErrorDistance /\ too_long vid WT E starts goals))
     end) /\
  ((exists l, forall i, wreachable WT E (is_start vid starts) i -> In i l) \/
   (exists l, forall i, wreachable WT (fun i w j => E j w i) (is_start vid goals) i -> In i l) \/
   (exists s0 q g0 l, is_start vid starts s0 /\ is_start vid goals g0 /\ wwalk WT E s0 q g0 /\
      forall c s p i, length_from_both_ends WT q c -> is_start vid starts s -> wwalk WT E s p i -> w_leb WT (walk_weight WT p) c = true -> In i l) \/
   (exists s0 q g0 l, is_start vid starts s0 /\ is_start vid goals g0 /\ wwalk WT E s0 q g0 /\
      forall c g p i, length_from_both_ends WT q c -> is_start vid goals g -> wwalk WT (fun i w j => E j w i) g p i -> w_leb WT (walk_weight WT p) c = true -> In i l) ->
   exists n os r, search n = (os, r) /\ forall s, r <> Running s).
Proof.
  intros V I L V_dec I_dec vid WT DM PM LM next_f next_b labeled build_path fail_silently E starts goals lim Hra Hf Hb Hnn.
  exact (conj (rounded_says V_dec I_dec vid WT Hra DM PM LM next_f next_b labeled build_path fail_silently E Hf Hb Hnn starts goals lim)
              (rounded_ends V_dec I_dec vid WT Hra DM PM LM next_f next_b labeled build_path fail_silently E Hf Hb Hnn starts goals lim)).
Qed.
Print Assumptions C118_rounded_length.

(** C118, floats. For all graphs whose weights are non-negative floats: a returned length is a finite float [f]; there is a path from a start vertex to a goal vertex with exact length [y],
    and [f] is [y] up to a factor between (1 - 2^-prec) and (1 + 2^-prec) for each edge but the first; [f] is at most twice the exact length of each such path, up to the same factor; there is
    no such path if the search fails; and an OverflowError means that a sum of weights along a walk from a start vertex, or backwards from a goal vertex, is infinite, or above the largest
    float up to the same factor. *)
Theorem C118_float_length :
  forall {V I L : Type} (V_dec : forall a b : V, {a = b} + {a <> b}) (I_dec : forall a b : I, {a = b} + {a <> b}) (vid : V -> I)
    prec largest (Hprec : 1 <= prec) (Hlarge : 0 <= largest),
  let FW := FloatWeights prec largest Hprec Hlarge in
  forall (DM : DMap I (w_t FW) (w_inf FW)) (PM : PMap I V) (LM : PMap I L)
    (next_f next_b : V -> list (V * w_t FW * L)) (labeled build_path fail_silently : bool) (E : I -> w_t FW -> I -> Prop) (starts goals : list V) (lim : option Z),
  presents_weighted FW vid next_f E -> presents_weighted FW vid next_b (fun i w j => E j w i) ->
  let no_path := forall s p g, is_start vid starts s -> is_start vid goals g -> ~ wwalk FW E s p g in
  forall n os r, b2_run V_dec I_dec vid FW DM PM LM next_f next_b labeled build_path fail_silently starts goals lim n = (os, r) ->
  match r with
  | Running _ => os = []
  | Ended _ => exists x, os = [x] /\
      ((exists f, b2_length x = Some f /\
         (exists s p g y, is_start vid starts s /\ is_start vid goals g /\ wwalk FW E s p g /\ exact_sum prec largest p = Some y /\
            at_most_up prec (pred (length p)) (fin_value prec largest f) y /\ at_most_down prec (pred (length p)) y (fin_value prec largest f)) /\
         (forall s p g y, is_start vid starts s -> is_start vid goals g -> wwalk FW E s p g -> exact_sum prec largest p = Some y ->
            at_most_up prec (pred (length p)) (fin_value prec largest f) (2 * y))) \/
       (fail_silently = true /\ b2_length x = None /\ no_path))
  | Raised e _ => os = [] /\
      ((e = KeyErrorNotFound /\ fail_silently = false /\ no_path) \/
       (e = RuntimeErrorLimit /\ lim <> None) \/
       (e = OverflowErrorDistance /\
        ((exists s p i, is_start vid starts s /\ wwalk FW E s p i /\
            forall y, exact_sum prec largest p = Some y -> at_most_up prec (pred (length p)) (largest + 1) y) \/
         (exists g p i, is_start vid goals g /\ wwalk FW (fun a w b => E b w a) g p i /\
            forall y, exact_sum prec largest p = Some y -> at_most_up prec (pred (length p)) (largest + 1) y))))
  end.
Proof.
  intros V I L V_dec I_dec vid prec largest Hprec Hlarge FW DM PM LM next_f next_b labeled build_path fail_silently E starts goals lim Hf Hb.
  exact (float_says V_dec I_dec vid prec largest Hprec Hlarge DM PM LM next_f next_b labeled build_path fail_silently E Hf Hb starts goals lim).
Qed.
Print Assumptions C118_float_length.

(** C118, the path. If building a path is demanded and different vertices have different ids: all methods of the returned path object agree on a path along edges of the graph from a start vertex
    to a goal vertex, and the returned length is its exact length [y] up to the same factor. *)
Theorem C118_float_path :
  forall {V I L : Type} (V_dec : forall a b : V, {a = b} + {a <> b}) (I_dec : forall a b : I, {a = b} + {a <> b}) (vid : V -> I)
    prec largest (Hprec : 1 <= prec) (Hlarge : 0 <= largest),
  let FW := FloatWeights prec largest Hprec Hlarge in
  forall (DM : DMap I (w_t FW) (w_inf FW)) (PM : PMap I V) (LM : PMap I L)
    (next_f next_b : V -> list (V * w_t FW * L)) (labeled fail_silently : bool) (E : I -> w_t FW -> I -> Prop) (starts goals : list V) (lim : option Z),
  presents_weighted FW vid next_f E -> presents_weighted FW vid next_b (fun i w j => E j w i) -> (forall u w, vid u = vid w -> u = w) ->
  forall n x r f, b2_run V_dec I_dec vid FW DM PM LM next_f next_b labeled true fail_silently starts goals lim n = ([x], r) -> b2_length x = Some f ->
  exists s p g es y, In s starts /\ In g goals /\ wwalk FW (fun u w v => E (vid u) w (vid v)) s p g /\ exact_sum prec largest p = Some y /\
    at_most_up prec (pred (length p)) (fin_value prec largest f) y /\ at_most_down prec (pred (length p)) y (fin_value prec largest f) /\
    shows (b2_path x) (S (length p)) (s :: map snd p) es /\ po_labeled (b2_path x) = labeled /\
    (labeled = true -> Forall2 (fun a e => snd a = snd (fst e) /\
       (In (snd a, fst a, snd e) (next_f (fst (fst e))) \/ In (fst (fst e), fst a, snd e) (next_b (snd a)))) p es).
Proof.
  intros V I L V_dec I_dec vid prec largest Hprec Hlarge FW DM PM LM next_f next_b labeled fail_silently E starts goals lim Hf Hb Hinj.
  exact (float_path V_dec I_dec vid prec largest Hprec Hlarge DM PM LM next_f next_b labeled fail_silently E Hf Hb starts goals lim Hinj).
Qed.
Print Assumptions C118_float_path.

(** C118, exact sums. If all weights are multiples of a power of two 2^j (for example, whole numbers), then a returned length below 2^prec times this power of two is the exact
    length of a path, and at most twice the exact length of each path. *)
Theorem C118_float_exact :
  forall {V I L : Type} (V_dec : forall a b : V, {a = b} + {a <> b}) (I_dec : forall a b : I, {a = b} + {a <> b}) (vid : V -> I)
    prec largest (Hprec : 1 <= prec) (Hlarge : 0 <= largest),
  let FW := FloatWeights prec largest Hprec Hlarge in
  forall (DM : DMap I (w_t FW) (w_inf FW)) (PM : PMap I V) (LM : PMap I L)
    (next_f next_b : V -> list (V * w_t FW * L)) (labeled build_path fail_silently : bool) (E : I -> w_t FW -> I -> Prop) (starts goals : list V) (lim : option Z),
  presents_weighted FW vid next_f E -> presents_weighted FW vid next_b (fun i w j => E j w i) ->
  forall j, 0 <= j -> (forall a w b, E a (Some w) b -> (2 ^ j | fin_value prec largest w)) ->
  forall n x r f, b2_run V_dec I_dec vid FW DM PM LM next_f next_b labeled build_path fail_silently starts goals lim n = ([x], r) ->
  b2_length x = Some f -> fin_value prec largest f < 2 ^ (prec + j) ->
  (exists s p g, is_start vid starts s /\ is_start vid goals g /\ wwalk FW E s p g /\ exact_sum prec largest p = Some (fin_value prec largest f)) /\
  (forall s p g y, is_start vid starts s -> is_start vid goals g -> wwalk FW E s p g -> exact_sum prec largest p = Some y -> fin_value prec largest f <= 2 * y).
Proof.
  intros V I L V_dec I_dec vid prec largest Hprec Hlarge FW DM PM LM next_f next_b labeled build_path fail_silently E starts goals lim Hf Hb j Hj Hm.
  exact (float_exact_length V_dec I_dec vid prec largest Hprec Hlarge DM PM LM next_f next_b labeled build_path fail_silently E Hf Hb starts goals lim j Hj Hm).
Qed.
Print Assumptions C118_float_exact.

(** Python's floats 0.1, 0.2 and 0.3 along 0 - 1 - 2 - 3: TraversalShortestPaths sums up from the start, to 0.6000000000000001; the bidirectional search sums up from both ends, to 0.6.
    Both are lengths of the path up to the given factors. *)
Example C118_example :
  rounded_addition PyFloat /\ nonnegative PyFloat bf_graph /\
  presents_weighted PyFloat (fun v : nat => v) bf_next bf_graph /\ presents_weighted PyFloat (fun v : nat => v) bf_prev (fun i w j => bf_graph j w i) /\
  map (fun rep => f_value (dr_distance rep)) (fst (dij_run (fun v : nat => v) PyFloat (hDM (W := w_t PyFloat) None) bPM bPM bf_next dij_default [0%nat] None None 40))
  = [Some (3602879701896397 * 2 ^ 1019); Some (5404319552844596 * 2 ^ 1020); Some (5404319552844596 * 2 ^ 1021)] /\
  let p := b2_run Nat.eq_dec Nat.eq_dec (fun v : nat => v) PyFloat (hDM (W := w_t PyFloat) None) hPM hPM bf_next bf_prev true true false [0%nat] [3%nat] None 40 in
  map (fun x => f_value (b2_length x)) (fst p) = [Some (5404319552844595 * 2 ^ 1021)] /\
  map (fun x => path_labeled_edges_from_start (b2_path x) 10) (fst p) = [POk [(0, 1, 1); (1, 2, 12); (2, 3, 23)]%nat] /\
  match snd (b2_run Nat.eq_dec Nat.eq_dec (fun v : nat => v) PyFloat (hDM (W := w_t PyFloat) None) hPM hPM bf_next bf_prev true true false [3%nat] [0%nat] None 40) with
  | Raised e _ => e = KeyErrorNotFound
  | _ => False
  end.
Proof.
  split; [apply float_rounded|]. split; [apply FloatProofs.float_nonnegative|]. split; [apply presents_wgraph_of|]. split; [exact bf_conv|].
  split; [vm_compute; reflexivity|]. split; [vm_compute; reflexivity|]. split; vm_compute; reflexivity.
Qed.
