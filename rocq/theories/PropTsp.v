(** Properties of traveling_salesman: C34, C35, C36. *)
From Coq Require Import List ZArith Bool Arith Lia Permutation.
From Verif Require Import GearSpec GearProofs Common TspModel TspSpec TspMain TspMore.
Import ListNotations.
Local Open Scope Z_scope.

(** Gears and weight tables of the examples *)
Definition exDM : DMap Z (option Z) None := HashDMap Z.eq_dec (None : option Z).
Definition exPM : PMap Z Z := HashPMap Z.eq_dec.
Definition exLM : PMap Z unit := HashPMap Z.eq_dec.
Definition table (rows : list (list (option Z))) (v : nat) : option (nat -> option Z) :=
  match nth_error rows v with None => None | Some row => Some (fun w => match nth_error row w with None => None | Some x => x end) end.

(** C34.  A returned tour starts and ends at the first vertex, visits all vertices once, uses existing edges, and has the returned length as the sum of its original
    weights.  The table of weights may be of any form (missing vertices and missing edges, negative weights), [find_longest] may be used, and the gear is arbitrary. *)
Theorem C34_tour : forall {T : Type} (DM : DMap Z (option Z) None) (PM : PMap Z Z) (LM : PMap Z unit) (vertices : list T) (weights : T -> option (T -> option Z))
    (first : T) (rest : list T) (find_longest : bool) (passes : nat) (len : Z) (tour : list T),
  vertices = first :: rest ->
  traveling_salesman DM PM LM vertices weights find_longest passes = Some (inl (len, tour)) ->
  is_tour (weight_of weights) vertices first tour len.
Proof. intros T DM PM LM vertices weights first rest longest passes len tour Hv HR. exact (proj1 (tsp_tour DM PM LM vertices weights first rest Hv longest passes len tour HR)). Qed.
Print Assumptions C34_tour.

(** C34, the other outcomes.  The search always comes to an end.  RuntimeError occurs exactly if there are less than two vertices, and KeyError is the only other error. *)
Theorem C34_outcome : forall {T : Type} (DM : DMap Z (option Z) None) (PM : PMap Z Z) (LM : PMap Z unit) (vertices : list T) (weights : T -> option (T -> option Z)) (find_longest : bool),
  (exists passes result, forall passes', (passes <= passes')%nat -> traveling_salesman DM PM LM vertices weights find_longest passes' = Some result) /\
  (forall passes result, traveling_salesman DM PM LM vertices weights find_longest passes = Some result ->
     if (length vertices <? 2)%nat then result = inr RuntimeErrorProblem
     else result = inr KeyErrorNotFound \/ exists len tour, result = inl (len, tour)).
Proof.
  intros T DM PM LM vertices weights longest.
  exact (conj (tsp_some DM PM LM vertices weights longest) (tsp_results DM PM LM vertices weights longest)).
Qed.
Print Assumptions C34_outcome.

Example C34_example :
  traveling_salesman exDM exPM exLM [0; 1; 2]%nat (table [[None; Some 1; Some 5]; [Some 7; None; Some 1]; [Some 1; Some 1; None]]) false 100 = Some (inl (3, [0; 1; 2; 0]%nat)) /\
  traveling_salesman exDM exPM exLM [0; 1; 2]%nat (table [[None; Some 1; Some 5]; [Some 7; None; Some 1]; [Some 1; Some 1; None]]) true 100 = Some (inl (13, [0; 2; 1; 0]%nat)) /\
  traveling_salesman exDM exPM exLM [2; 0; 1]%nat (table [[None; Some (-1); Some 5]; [Some 7; None; Some (-2)]; [Some 1; Some 1; None]]) false 100 = Some (inl (-2, [2; 0; 1; 2]%nat)) /\
  traveling_salesman exDM exPM exLM [0; 1; 2]%nat (table [[None; Some 1; Some 5]; [Some 7]]) false 100 = Some (inr KeyErrorNotFound) /\
  traveling_salesman exDM exPM exLM [0]%nat (table []) false 100 = Some (inr RuntimeErrorProblem).
Proof. vm_compute. repeat split. Qed.

(** C35 is refuted in two ways.  First, KeyError is raised although there is a tour: the search from the goal knows no edges to the start state, thus some tours can only be
    found from the start, and the search may give up before. *)
Theorem C35_finds_existing_tour_refuted : exists (weights : nat -> option (nat -> option Z)) (tour : list nat) (passes : nat),
  traveling_salesman exDM exPM exLM [0; 1; 2; 3; 4]%nat weights false passes = Some (inr KeyErrorNotFound) /\
  is_tour (weight_of weights) [0; 1; 2; 3; 4]%nat 0%nat tour 1004.
Proof.
  exists (table [[None; Some 1000; Some 1; Some 1; Some 1]; [None; None; Some 1; None; None]; [None; None; None; Some 1; None]; [None; None; None; None; Some 1]; [Some 1; None; None; None; None]]),
    [0; 1; 2; 3; 4; 0]%nat, 200%nat.
  split; [vm_compute; reflexivity|]. exists [1; 2; 3; 4]%nat. repeat split. apply Permutation_refl.
Qed.
Print Assumptions C35_finds_existing_tour_refuted.

(** Second, the returned tour may be longer than another one, even if there are edges between all vertices. *)
Theorem C35_shortest_tour_refuted : exists (weights : nat -> option (nat -> option Z)) (tour tour' : list nat) (passes : nat),
  (forall a b, In a [0; 1; 2; 3; 4]%nat -> In b [0; 1; 2; 3; 4]%nat -> exists x, weight_of weights a b = Some x /\ 0 < x) /\
  traveling_salesman exDM exPM exLM [0; 1; 2; 3; 4]%nat weights false passes = Some (inl (4835, tour)) /\
  is_tour (weight_of weights) [0; 1; 2; 3; 4]%nat 0%nat tour' 3162.
Proof.
  exists (table (map (map Some) [[8649; 9216; 10; 4225; 38]; [3025; 3249; 6084; 4761; 7744]; [21; 22; 21; 26; 47]; [2916; 6889; 44; 11; 35]; [7; 5329; 22; 33; 1]])), [0; 2; 1; 3; 4; 0]%nat, [0; 4; 3; 2; 1; 0]%nat, 3000%nat.
  split; [|split; [vm_compute; reflexivity|]].
  - intros a b Ha Hb. repeat (destruct Ha as [<-|Ha]; [repeat (destruct Hb as [<-|Hb]; [eexists; split; [reflexivity|lia]|]); destruct Hb|]). destruct Ha.
  - exists [4; 3; 2; 1]%nat. repeat split. constructor. symmetry. apply (Permutation_rev [1; 2; 3; 4]%nat).
Qed.
Print Assumptions C35_shortest_tour_refuted.

(** C35, what holds: the length of the returned tour is at most twice as far away from a trivial bound (number of edges times smallest edge weight or 0; for longest tours:
    times the greatest) as that of any other tour.  Missing is optimality, and that a tour is found at all, see above. *)
Theorem C35_near_optimal_partial : forall {T : Type} (DM : DMap Z (option Z) None) (PM : PMap Z Z) (LM : PMap Z unit) (vertices : list T) (weights : T -> option (T -> option Z))
    (first : T) (rest : list T) (find_longest : bool) (passes : nat) (len : Z) (tour : list T),
  vertices = first :: rest -> NoDup vertices ->
  traveling_salesman DM PM LM vertices weights find_longest passes = Some (inl (len, tour)) ->
  forall tour' len', is_tour (weight_of weights) vertices first tour' len' ->
  near find_longest (Z.of_nat (length vertices)) (edge_weight (weight_of weights) vertices) len len'.
Proof.
  intros T DM PM LM vertices weights first rest longest passes len tour Hv Hnd HR.
  exact (proj2 (tsp_tour DM PM LM vertices weights first rest Hv longest passes len tour HR) Hnd).
Qed.
Print Assumptions C35_near_optimal_partial.

(** In particular: with non-negative weights, the returned tour is at most twice as long as a shortest tour. *)
Theorem C35_twice_shortest_partial : forall {T : Type} (DM : DMap Z (option Z) None) (PM : PMap Z Z) (LM : PMap Z unit) (vertices : list T) (weights : T -> option (T -> option Z))
    (first : T) (rest : list T) (passes : nat) (len : Z) (tour : list T),
  vertices = first :: rest -> NoDup vertices -> (forall x, edge_weight (weight_of weights) vertices x -> 0 <= x) ->
  traveling_salesman DM PM LM vertices weights false passes = Some (inl (len, tour)) ->
  forall tour' len', is_tour (weight_of weights) vertices first tour' len' -> len <= 2 * len'.
Proof. intros T DM PM LM vertices weights. exact (tsp_twice DM PM LM vertices weights). Qed.
Print Assumptions C35_twice_shortest_partial.

(** C35 holds in full, if all edges have the same weight (which may be negative): the function decides whether there is a tour (a Hamiltonian cycle), and returns an optimal one. *)
Theorem C35_equal_weights_partial : forall {T : Type} (DM : DMap Z (option Z) None) (PM : PMap Z Z) (LM : PMap Z unit) (vertices : list T) (weights : T -> option (T -> option Z))
    (first : T) (rest : list T) (find_longest : bool) (weight : Z),
  vertices = first :: rest -> rest <> [] -> NoDup vertices ->
  (forall a b x, In a vertices -> In b vertices -> a <> b -> weight_of weights a b = Some x -> x = weight) ->
  exists passes, forall passes', (passes <= passes')%nat ->
    (exists len tour, traveling_salesman DM PM LM vertices weights find_longest passes' = Some (inl (len, tour)) /\
       is_tour (weight_of weights) vertices first tour len /\
       forall tour' len', is_tour (weight_of weights) vertices first tour' len' -> len' = len) \/
    (traveling_salesman DM PM LM vertices weights find_longest passes' = Some (inr KeyErrorNotFound) /\
       forall tour' len', ~ is_tour (weight_of weights) vertices first tour' len').
Proof. intros T DM PM LM vertices weights. exact (tsp_hamiltonian DM PM LM vertices weights). Qed.
Print Assumptions C35_equal_weights_partial.

Example C35_equal_weights_example :
  traveling_salesman exDM exPM exLM [0; 1; 2; 3]%nat
    (table [[None; Some 2; Some 2; None]; [None; None; None; Some 2]; [Some 2; Some 2; None; None]; [None; None; Some 2; None]]) false 200 = Some (inl (8, [0; 1; 3; 2; 0]%nat)) /\
  traveling_salesman exDM exPM exLM [0; 1; 2; 3]%nat
    (table [[None; Some 2; Some 2; None]; [Some 2; None; None; Some 2]; [Some 2; Some 2; None; None]; [None; Some 2; None; None]]) false 200 = Some (inr KeyErrorNotFound).
Proof. vm_compute. split; reflexivity. Qed.

(** C36, negative weights.  The changed weights are not negative; nothing is changed exactly if no weight is negative; paths with the same number of edges are ordered by
    their total weight as before; and the original total weight is recovered. *)
Theorem C36_negative_weights : forall (weights : list Z) (negate : bool) (offset : Z) (changed : bool),
  weight_changes_for_negative_weights weights 0 = (negate, offset, changed) ->
  (forall w, In w weights -> 0 <= changed_weight negate offset w) /\
  (changed = false <-> forall w, In w weights -> 0 <= w) /\
  (changed = false -> forall w, changed_weight negate offset w = w) /\
  (forall path path', length path = length path' ->
     total (map (changed_weight negate offset) path) <= total (map (changed_weight negate offset) path') <-> total path <= total path') /\
  (forall path, undo_weight_changes_in_travel_length (total (map (changed_weight negate offset) path)) (length path) 0 negate offset = total path).
Proof. exact negative_changes. Qed.
Print Assumptions C36_negative_weights.

(** C36, longest tours: the same, where the order is reversed. *)
Theorem C36_find_longest : forall (weights : list Z) (negate : bool) (offset : Z),
  weight_changes_for_find_longest weights 0 = (negate, offset) ->
  (forall w, In w weights -> 0 <= changed_weight negate offset w) /\
  (forall path path', length path = length path' ->
     total (map (changed_weight negate offset) path) <= total (map (changed_weight negate offset) path') <-> total path' <= total path) /\
  (forall path, undo_weight_changes_in_travel_length (total (map (changed_weight negate offset) path)) (length path) 0 negate offset = total path).
Proof. exact longest_changes. Qed.
Print Assumptions C36_find_longest.

Example C36_example :
  weight_changes_for_negative_weights [3; -2; 5] 0 = (false, 2, true) /\ map (changed_weight false 2) [3; -2; 5] = [5; 0; 7] /\
  undo_weight_changes_in_travel_length 12 3 0 false 2 = 6 /\
  weight_changes_for_negative_weights [3; 2; 5] 0 = (false, 0, false) /\
  weight_changes_for_find_longest [3; -2; 5] 0 = (true, 5) /\ map (changed_weight true 5) [3; -2; 5] = [2; 7; 0] /\ undo_weight_changes_in_travel_length 9 3 0 true 5 = 6.
Proof. vm_compute. repeat split. Qed.
