(** Properties of TraversalShortestPathsInfBranchingSorted with neighbor functions that look at the traversal: C115. *)
From Coq Require Import List ZArith Bool Arith Lia Sorted.
From Verif Require Import Machine GearSpec GearProofs Common Weight WeightSpec DijkstraModel InfModel InfSpec InfGraph InfLazyModel InfLazyProofs InfAwareModel Examples.
Import ListNotations.

(** C115.  Let the answers that the traversal reads from the iterators depend on the state of the traversal at the time of reading, such that no weight is negative and the weights that
    an iterator gives are ascending ([answers_ok]).  Then, no element is read twice, and the traversal is the one for the graph [e] whose edges are the answers. *)
Theorem C115_graph_of_answers :
  forall {V : Type} (V_dec : forall a b : V, {a = b} + {a <> b})
    (DM : DMap V (option Z) None) (PM : PMap V V) (DMi : DMap (V * nat) (option Z) None) (PMi : PMap (V * nat) (V * nat)) (LMi : PMap (V * nat) unit)
    (build_paths store_distances : bool) (starts : list V) (lim : option Z)
    (g : @inf_state V DM PM DMi PMi LMi -> V -> nat -> option (V * option Z)) (n : nat),
  NoDup starts ->
  let A := linf_answers_of V_dec DM PM DMi PMi LMi g build_paths store_distances starts lim n in
  answers_ok A ->
  NoDup (map fst A) /\
  exists e, edge_sequences e /\ edges_sorted e /\ edges_nonnegative e /\
    (forall v k a, In ((v, k), a) A -> e v k = a) /\ (forall v k x, e v k = Some x -> In ((v, k), Some x) A) /\
    linf_run V_dec DM PM DMi PMi LMi g build_paths store_distances starts lim n = inf_run V_dec e DM PM DMi PMi LMi build_paths store_distances starts lim n.
Proof. exact (fun V V_dec DM PM DMi PMi LMi bp sd starts lim g n Hnd => lazy_is_inf V_dec DM PM DMi PMi LMi bp sd starts Hnd lim g n). Qed.
Print Assumptions C115_graph_of_answers.

(** C115, continued.  So, each vertex is reported at most once, with its distance in the graph of the answers, in the order of the distances; when the traversal has ended, all vertices
    that can be reached in this graph have been reported; and the value of [distance] when the neighbor function is called for a vertex, which happens once, is the distance of the vertex. *)
Theorem C115_distances_in_graph_of_answers :
  forall {V : Type} (V_dec : forall a b : V, {a = b} + {a <> b})
    (DM : DMap V (option Z) None) (PM : PMap V V) (DMi : DMap (V * nat) (option Z) None) (PMi : PMap (V * nat) (V * nat)) (LMi : PMap (V * nat) unit)
    (build_paths store_distances : bool) (starts : list V) (lim : option Z)
    (g : @inf_state V DM PM DMi PMi LMi -> V -> nat -> option (V * option Z)) (n : nat) os r,
  NoDup starts ->
  let A := linf_answers_of V_dec DM PM DMi PMi LMi g build_paths store_distances starts lim n in
  let E := fun v w u => exists k, In ((v, k), Some (u, w)) A in
  answers_ok A -> linf_run V_dec DM PM DMi PMi LMi g build_paths store_distances starts lim n = (os, r) ->
  NoDup (map nr_vertex os) /\
  StronglySorted (fun a b => w_leb ZInfWeights (nr_distance a) (nr_distance b) = true) os /\
  (forall rep, In rep os -> ~ In (nr_vertex rep) starts /\ is_distance ZInfWeights E (fun s => In s starts) (nr_vertex rep) (nr_distance rep)) /\
  (forall s, r = Ended s -> forall v, wreachable ZInfWeights E (fun s => In s starts) v -> In v starts \/ In v (map nr_vertex os)) /\
  (forall v d, In (v, d) (n_calls (outcome_state r)) -> is_distance ZInfWeights E (fun s => In s starts) v d) /\
  NoDup (map fst (n_calls (outcome_state r))).
Proof. exact (fun V V_dec DM PM DMi PMi LMi bp sd starts lim g n os r Hnd => lazy_reports V_dec DM PM DMi PMi LMi bp sd starts Hnd lim g n os r). Qed.
Print Assumptions C115_distances_in_graph_of_answers.

(** Iterators whose elements depend on the parity of the number of elements that have been read from all iterators so far *)
Definition ldec := @state_dec nat Nat.eq_dec.
Definition lDM : DMap (nat * nat) (option Z) None := HashDMap ldec (None : option Z).
Definition lPM : PMap (nat * nat) (nat * nat) := HashPMap ldec.
Definition lLM : PMap (nat * nat) unit := HashPMap ldec.
Definition parity_edges (s : @inf_state nat hDMZ hPM lDM lPM lLM) (v k : nat) : option (nat * option Z) :=
  let b := if Nat.even (length (n_reads s)) then 1 else 2 in Some (v + 5 * b + 3 * k, Some (Z.of_nat (2 * k + b))).
Lemma parity_ok bp sd starts lim n : answers_ok (linf_answers_of Nat.eq_dec hDMZ hPM lDM lPM lLM parity_edges bp sd starts lim n).
Proof.
  split.
  - intros v k u w H. apply answers_from in H. destruct H as (s & H). injection H as _ ->. apply Z.leb_le. destruct (Nat.even _); lia.
  - intros v k u a u' b H1 H2. apply answers_from in H1, H2. destruct H1 as (s & H1), H2 as (s' & H2). injection H1 as _ ->. injection H2 as _ ->. apply Z.leb_le.
    destruct (Nat.even (length (n_reads s))), (Nat.even (length (n_reads s'))); lia.
Qed.
Example C115_example :
  answers_ok (linf_answers_of Nat.eq_dec hDMZ hPM lDM lPM lLM parity_edges true true [0] None 90) /\
  map (fun rep => (nr_vertex rep, nr_distance rep)) (fst (linf_run Nat.eq_dec hDMZ hPM lDM lPM lLM parity_edges true true [0] None 90)) =
  [(5, Some 1%Z); (10, Some 2%Z); (15, Some 3%Z); (20, Some 4%Z); (13, Some 4%Z); (25, Some 5%Z); (18, Some 5%Z); (16, Some 6%Z); (23, Some 6%Z)].
Proof. split; [apply parity_ok|]. vm_compute. reflexivity. Qed.

(** A neighbor function that looks at [distance] when it is called is a special case. *)
Example C115_called_distance {V} V_dec (f : V -> option Z -> nat -> option (V * option Z)) DM PM DMi PMi LMi bp sd starts lim n :
  ainf_run V_dec f DM PM DMi PMi LMi bp sd starts lim n =
  linf_run V_dec DM PM DMi PMi LMi (fun s v k => f v (called_distance V_dec DM PM DMi PMi LMi s v) k) bp sd starts lim n.
Proof. reflexivity. Qed.
