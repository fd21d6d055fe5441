(** Properties of the bidirectional search of shortest paths: C24 (this strategy), C32, C33, C70. *)
From Coq Require Import List ZArith Bool Arith.
From Verif Require Import Machine Spec TraversalSpec GearSpec Common Weight WeightSpec PathsModel PathModel PathSpec HeapModel DijkstraModel BiSPModel BiSPSpec BiSPPaths BiSPRun BiSPOver Examples BiSPExamples.
Import ListNotations.

(** C32, negated. There is a graph with positive weights where the search returns length 150 and a path of this length, although there is a path of length 121. *)
Theorem C32_bidirectional_shortest_path_refuted :
  exists (next_f next_b : nat -> list (nat * option Z * nat)) (E : nat -> option Z -> nat -> Prop) (starts goals : list nat),
  presents_weighted ZI (fun v => v) next_f E /\ presents_weighted ZI (fun v => v) next_b (fun i w j => E j w i) /\ nonnegative ZI E /\
  exists n x r, b2_run Nat.eq_dec Nat.eq_dec (fun v => v) ZI hDMZ hPM hPM next_f next_b true true false starts goals None n = ([x], r) /\
    b2_length x = Some 150%Z /\ path_vertices_from_start (b2_path x) 10 = POk [0; 4; 6; 7; 1] /\ wconnection (fun v => v) ZI E starts goals (Some 121%Z).
Proof. exact missed_shortest. Qed.
Print Assumptions C32_bidirectional_shortest_path_refuted.

(** C32, the part that holds.  The returned length is the length of a shortest path if all edges have the same weight; and it is, if the weight of a path depends only on
    its ends, e.g., in trees.  (Sums are exact, i.e., free of rounding.) *)
Theorem C32_bidirectional_shortest_path_exact_partial :
  forall {V I L : Type} (V_dec : forall a b : V, {a = b} + {a <> b}) (I_dec : forall a b : I, {a = b} + {a <> b}) (vid : V -> I)
    (WT : Weights) (DM : DMap I (w_t WT) (w_inf WT)) (PM : PMap I V) (LM : PMap I L) (next_f next_b : V -> list (V * w_t WT * L)) (labeled build_path fail_silently : bool)
    (E : I -> w_t WT -> I -> Prop) (starts goals : list V) (lim : option Z),
  exact_addition WT -> presents_weighted WT vid next_f E -> presents_weighted WT vid next_b (fun i w j => E j w i) -> nonnegative WT E ->
  equal_weights WT E \/ (path_independent WT E (is_start vid starts) /\ path_independent WT (fun i w j => E j w i) (is_start vid goals)) ->
  forall n x r c, b2_run V_dec I_dec vid WT DM PM LM next_f next_b labeled build_path fail_silently starts goals lim n = ([x], r) ->
  wconnection vid WT E starts goals c -> w_leb WT (b2_length x) c = true.
Proof.
  intros V I L V_dec I_dec vid WT DM PM LM next_f next_b labeled build_path fail_silently E starts goals lim Hex Hf Hb Hnn Hst n x r c.
  exact (b2_run_shortest V_dec I_dec vid WT Hex DM PM LM next_f next_b labeled build_path fail_silently E Hf Hb Hnn starts goals lim n x r c Hst).
Qed.
Print Assumptions C32_bidirectional_shortest_path_exact_partial.

Example C32_example :
  exact_addition ZI /\ presents_weighted ZI (fun v => v) (el_forth steps_edges) (el_graph steps_edges) /\
  presents_weighted ZI (fun v => v) (el_back steps_edges) (fun i w j => el_graph steps_edges j w i) /\ nonnegative ZI (el_graph steps_edges) /\
  equal_weights ZI (el_graph steps_edges) /\
  map b2_length (fst (b2_example steps_edges [0] [1] 60)) = [Some 12%Z].
Proof.
  split; [exact ZInfWeights_exact|]. split; [apply el_forth_presents|]. split; [apply el_back_presents|]. split; [apply el_nonnegative; reflexivity|].
  split; [exact steps_equal|]. vm_compute. reflexivity.
Qed.

(** C70.  The returned length is at most twice the length of a shortest path. *)
Theorem C70_bidirectional_shortest_path_at_most_double :
  forall {V I L : Type} (V_dec : forall a b : V, {a = b} + {a <> b}) (I_dec : forall a b : I, {a = b} + {a <> b}) (vid : V -> I)
    (WT : Weights) (DM : DMap I (w_t WT) (w_inf WT)) (PM : PMap I V) (LM : PMap I L) (next_f next_b : V -> list (V * w_t WT * L)) (labeled build_path fail_silently : bool)
    (E : I -> w_t WT -> I -> Prop) (starts goals : list V) (lim : option Z),
  exact_addition WT -> presents_weighted WT vid next_f E -> presents_weighted WT vid next_b (fun i w j => E j w i) -> nonnegative WT E ->
  forall n x r c, b2_run V_dec I_dec vid WT DM PM LM next_f next_b labeled build_path fail_silently starts goals lim n = ([x], r) ->
  wconnection vid WT E starts goals c -> w_leb WT (b2_length x) (w_add WT c c) = true.
Proof.
  intros V I L V_dec I_dec vid WT DM PM LM next_f next_b labeled build_path fail_silently E starts goals lim Hex Hf Hb Hnn n x r c.
  exact (b2_run_double V_dec I_dec vid WT Hex DM PM LM next_f next_b labeled build_path fail_silently E Hf Hb Hnn starts goals lim n x r c).
Qed.
Print Assumptions C70_bidirectional_shortest_path_at_most_double.

Example C70_example :
  exact_addition ZI /\ presents_weighted ZI (fun v => v) (el_forth missed_edges) (el_graph missed_edges) /\
  presents_weighted ZI (fun v => v) (el_back missed_edges) (fun i w j => el_graph missed_edges j w i) /\ nonnegative ZI (el_graph missed_edges) /\
  map b2_length (fst (b2_example missed_edges [0] [1] 60)) = [Some 150%Z].
Proof.
  split; [exact ZInfWeights_exact|]. split; [apply el_forth_presents|]. split; [apply el_back_presents|]. split; [apply el_nonnegative; reflexivity|].
  vm_compute. reflexivity.
Qed.

(** C33.  Whatever the search has done after [n] passes: it returns at most one result; a returned length is finite and the length of a path from a start vertex to a goal
    vertex, or infinite, if silent failing is demanded and there is no such path; KeyError is raised only if there is no such path, RuntimeError only if a limit is given,
    OverflowError only if there is a path from a start vertex or to a goal vertex with a length that is infinite for the gear.
    The search ends if only finitely many vertices can be reached from the start vertices, or if the goal vertices can be reached from finitely many vertices only; or if
    there is a path, and, in one of the two directions, only finitely many vertices can be reached by paths that are not longer than it. *)
Theorem C33_bidirectional_shortest_path_real :
  forall {V I L : Type} (V_dec : forall a b : V, {a = b} + {a <> b}) (I_dec : forall a b : I, {a = b} + {a <> b}) (vid : V -> I)
    (WT : Weights) (DM : DMap I (w_t WT) (w_inf WT)) (PM : PMap I V) (LM : PMap I L) (next_f next_b : V -> list (V * w_t WT * L)) (labeled build_path fail_silently : bool)
    (E : I -> w_t WT -> I -> Prop) (starts goals : list V) (lim : option Z),
  exact_addition WT -> presents_weighted WT vid next_f E -> presents_weighted WT vid next_b (fun i w j => E j w i) -> nonnegative WT E ->
  let search := b2_run V_dec I_dec vid WT DM PM LM next_f next_b labeled build_path fail_silently starts goals lim in
  (forall n os r, search n = (os, r) ->
     match r with
     | Running _ => os = []
     | Ended _ => exists x, os = [x] /\
         ((w_ltb WT (b2_length x) (w_inf WT) = true /\ wconnection vid WT E starts goals (b2_length x)) \/
          (fail_silently = true /\ b2_length x = w_inf WT /\ forall c, ~ wconnection vid WT E starts goals c))
     | Raised e _ => os = [] /\
         ((e = KeyErrorNotFound /\ fail_silently = false /\ forall c, ~ wconnection vid WT E starts goals c) \/
          (e = RuntimeErrorLimit /\ lim <> None) \/
          (e = OverflowErrorDistance /\ too_long vid WT E starts goals))
     end) /\
  ((exists l, forall i, wreachable WT E (is_start vid starts) i -> In i l) \/
   (exists l, forall i, wreachable WT (fun i w j => E j w i) (is_start vid goals) i -> In i l) \/
   (exists c l, wconnection vid WT E starts goals c /\
      forall s p i, is_start vid starts s -> wwalk WT E s p i -> w_leb WT (walk_weight WT p) c = true -> In i l) \/
   (exists c l, wconnection vid WT E starts goals c /\
      forall g p i, is_start vid goals g -> wwalk WT (fun i w j => E j w i) g p i -> w_leb WT (walk_weight WT p) c = true -> In i l) ->
   exists n os r, search n = (os, r) /\ forall s, r <> Running s).
Proof.
  intros V I L V_dec I_dec vid WT DM PM LM next_f next_b labeled build_path fail_silently E starts goals lim Hex Hf Hb Hnn.
  exact (conj (b2_run_says V_dec I_dec vid WT Hex DM PM LM next_f next_b labeled build_path fail_silently E Hf Hb Hnn starts goals lim)
              (b2_run_ends V_dec I_dec vid WT Hex DM PM LM next_f next_b labeled build_path fail_silently E Hf Hb Hnn starts goals lim)).
Qed.
Print Assumptions C33_bidirectional_shortest_path_real.

(** C33, the path.  If building a path is demanded and different vertices have different ids: when a finite length is returned, all methods of the returned path object
    agree on a path; it leads from a start vertex to a goal vertex along edges of the graph, its weight is the returned length, and its labels are labels of edges with the
    weights counted. *)
Theorem C33_bidirectional_shortest_path_path :
  forall {V I L : Type} (V_dec : forall a b : V, {a = b} + {a <> b}) (I_dec : forall a b : I, {a = b} + {a <> b}) (vid : V -> I)
    (WT : Weights) (DM : DMap I (w_t WT) (w_inf WT)) (PM : PMap I V) (LM : PMap I L) (next_f next_b : V -> list (V * w_t WT * L)) (labeled fail_silently : bool)
    (E : I -> w_t WT -> I -> Prop) (starts goals : list V) (lim : option Z),
  exact_addition WT -> presents_weighted WT vid next_f E -> presents_weighted WT vid next_b (fun i w j => E j w i) -> nonnegative WT E ->
  (forall u w, vid u = vid w -> u = w) ->
  forall n x r, b2_run V_dec I_dec vid WT DM PM LM next_f next_b labeled true fail_silently starts goals lim n = ([x], r) ->
  b2_length x <> w_inf WT ->
  exists s p g es, In s starts /\ In g goals /\ wwalk WT (fun u w v => E (vid u) w (vid v)) s p g /\ walk_weight WT p = b2_length x /\
    shows (b2_path x) (S (length p)) (s :: map snd p) es /\ po_labeled (b2_path x) = labeled /\
    (labeled = true -> Forall2 (fun a e => snd a = snd (fst e) /\
       (In (snd a, fst a, snd e) (next_f (fst (fst e))) \/ In (fst (fst e), fst a, snd e) (next_b (snd a)))) p es).
Proof.
  intros V I L V_dec I_dec vid WT DM PM LM next_f next_b labeled fail_silently E starts goals lim Hex Hf Hb Hnn Hinj.
  exact (b2_run_path V_dec I_dec vid WT Hex DM PM LM next_f next_b labeled fail_silently E Hf Hb Hnn starts goals lim Hinj).
Qed.
Print Assumptions C33_bidirectional_shortest_path_path.

Example C33_example :
  exact_addition ZI /\ presents_weighted ZI (fun v => v) (el_forth plain_edges) (el_graph plain_edges) /\
  presents_weighted ZI (fun v => v) (el_back plain_edges) (fun i w j => el_graph plain_edges j w i) /\ nonnegative ZI (el_graph plain_edges) /\
  (let p := b2_example plain_edges [0] [1] 60 in
   map b2_length (fst p) = [Some 9%Z] /\ map (fun x => path_labeled_edges_from_start (b2_path x) 10) (fst p) = [POk [(0, 3, 3); (3, 2, 302); (2, 4, 204); (4, 1, 401)]]) /\
  (exists s, snd (b2_example plain_edges [1] [0] 60) = Raised KeyErrorNotFound s).
Proof.
  split; [exact ZInfWeights_exact|]. split; [apply el_forth_presents|]. split; [apply el_back_presents|]. split; [apply el_nonnegative; reflexivity|].
  split; [split; vm_compute; reflexivity|]. eexists. vm_compute. reflexivity.
Qed.

(** C24 for this search. A returned length is below infinity (unless the search has failed silently, and there is no path), and so is every distance that is stored for one
    of the directions; an OverflowError is raised only if there is a path with infinite length; and if the search ends regularly, no edge of an expanded vertex has led to
    an infinite length. *)
Theorem C24_bidirectional_shortest_path_overflow :
  forall {V I L : Type} (V_dec : forall a b : V, {a = b} + {a <> b}) (I_dec : forall a b : I, {a = b} + {a <> b}) (vid : V -> I)
    (WT : Weights) (DM : DMap I (w_t WT) (w_inf WT)) (PM : PMap I V) (LM : PMap I L) (next_f next_b : V -> list (V * w_t WT * L)) (labeled build_path fail_silently : bool)
    (E : I -> w_t WT -> I -> Prop) (starts goals : list V) (lim : option Z),
  exact_addition WT -> presents_weighted WT vid next_f E -> presents_weighted WT vid next_b (fun i w j => E j w i) -> nonnegative WT E ->
  forall n os r, b2_run V_dec I_dec vid WT DM PM LM next_f next_b labeled build_path fail_silently starts goals lim n = (os, r) ->
  (forall x, In x os -> w_ltb WT (b2_length x) (w_inf WT) = true \/
     (fail_silently = true /\ b2_length x = w_inf WT /\ forall c, ~ wconnection vid WT E starts goals c)) /\
  (forall s f i, outcome_state r = Some s ->
     dm_get DM i (b2_dist (b2_direction f s)) = w_inf WT \/ w_ltb WT (dm_get DM i (b2_dist (b2_direction f s))) (w_inf WT) = true) /\
  (forall s, r = Raised OverflowErrorDistance s -> too_long vid WT E starts goals) /\
  (forall s f v w n ew l, r = Ended (Some s) -> In (v, w) (b2_calls (b2_direction f s)) -> In (n, ew, l) ((if f : bool then next_f else next_b) v) ->
     w_ltb WT (w_add WT ew w) (w_inf WT) = true).
Proof.
  intros V I L V_dec I_dec vid WT DM PM LM next_f next_b labeled build_path fail_silently E starts goals lim Hex Hf Hb Hnn.
  exact (b2_overflow V_dec I_dec vid WT DM PM LM next_f next_b labeled build_path fail_silently E Hex Hf Hb Hnn starts goals lim).
Qed.
Print Assumptions C24_bidirectional_shortest_path_overflow.

(** Distances in bytes: infinity is 255. *)
Example C24_bidirectional_example :
  let WT := ZWeights 255 eq_refl in
  let next_f := fun v => match v with 0 => [(1, 100%Z, tt)] | 1 => [(2, 200%Z, tt)] | _ => [] end in
  let next_b := fun v => match v with 1 => [(0, 100%Z, tt)] | 2 => [(1, 200%Z, tt)] | _ => [] end in
  exact_addition WT /\
  exists s, snd (b2_run Nat.eq_dec Nat.eq_dec (fun v => v) WT (hDM 255%Z) hPM hPM next_f next_b false false false [0] [2] None 40) = Raised OverflowErrorDistance s.
Proof. split; [apply ZWeights_exact|]. eexists. vm_compute. reflexivity. Qed.
