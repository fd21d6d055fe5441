(** Properties of the documented function traversal_shortest_paths_inf_branching_sorted: C117. *)
From Coq Require Import List ZArith Bool Arith Lia Sorted Znumtheory.
From Verif Require Import Machine GearSpec GearProofs Common WeightSpec Weight InfModel InfSpec InfGraph InfAwareModel PrimesModel PrimesProofs PrimesUpTo ReduceModel ReduceProofs.
Import ListNotations.
Open Scope nat_scope.

(** C117.  For each graph with finitely or infinitely many edges per vertex, sorted by non-negative weights, where the function of the graph gives the edges of a vertex when it gets
    the true distance of the vertex: the function of the documentation yields the vertices and distances that the class TraversalShortestPathsInfBranchingSorted reports,
    in the same order, after the same numbers of passes, and it ends or fails exactly when the traversal of the class does. *)
Theorem C117_like_the_class :
  forall {V : Type} (V_dec : forall a b : V, {a = b} + {a <> b}) (next_edges_inf : V -> option Z -> nat -> option (V * option Z)) (edge : V -> nat -> option (V * option Z))
    (DM : DMap V (option Z) None) (PM : PMap V V) (DMi : DMap (V * nat) (option Z) None) (PMi : PMap (V * nat) (V * nat)) (LMi : PMap (V * nat) unit) (start : V) n,
  edge_sequences edge -> edges_sorted edge -> edges_nonnegative edge ->
  (forall v d, is_distance ZInfWeights (inf_edge edge) (fun s => In s [start]) v d -> forall k, next_edges_inf v d k = edge v k) ->
  let '(values, r) := red_run V_dec next_edges_inf DMi PMi LMi start n in
  let '(os, r') := inf_run V_dec edge DM PM DMi PMi LMi false false [start] None n in
  values = map (fun rep => (nr_vertex rep, nr_distance rep)) os /\
  match r, r' with Running _, Running _ => True | Ended _, Ended _ => True | Raised x _, Raised y _ => x = y | _, _ => False end.
Proof.
  intros V V_dec f edge DM PM DMi PMi LMi start n H1 H2 H3 Hf. pose proof (red_is_inf V_dec f edge H1 H2 H3 DM PM DMi PMi LMi start Hf n) as H.
  destruct (red_run _ _ _ _ _ _ _), (inf_run _ _ _ _ _ _ _ _ _ _ _ _). exact H.
Qed.
Print Assumptions C117_like_the_class.

(** C117, continued.  No vertex comes twice, the start vertex does not come, the distances come in ascending order, and each of them is finite and the minimal weight of a walk from the start vertex.
    When the generator has ended, all vertices that can be reached have come. *)
Theorem C117_distances :
  forall {V : Type} (V_dec : forall a b : V, {a = b} + {a <> b}) (next_edges_inf : V -> option Z -> nat -> option (V * option Z)) (edge : V -> nat -> option (V * option Z))
    (DMi : DMap (V * nat) (option Z) None) (PMi : PMap (V * nat) (V * nat)) (LMi : PMap (V * nat) unit) (start : V) n values r,
  edge_sequences edge -> edges_sorted edge -> edges_nonnegative edge ->
  let E := inf_edge edge in
  let St := fun s => In s [start] in
  (forall v d, is_distance ZInfWeights E St v d -> forall k, next_edges_inf v d k = edge v k) ->
  red_run V_dec next_edges_inf DMi PMi LMi start n = (values, r) ->
  NoDup (map fst values) /\ StronglySorted (fun a b => w_leb ZInfWeights a b = true) (map snd values) /\
  (forall v d, In (v, d) values -> v <> start /\ is_distance ZInfWeights E St v d /\ d <> None) /\
  (forall s, r = Ended s -> forall v, wreachable ZInfWeights E St v -> v = start \/ In v (map fst values)).
Proof.
  intros V V_dec f edge DMi PMi LMi start n values r H1 H2 H3 E St Hf HR. exact (red_reports V_dec f edge H1 H2 H3 DMi PMi LMi start Hf n values r HR).
Qed.
Print Assumptions C117_distances.

(** C117, continued.  A vertex at a finite distance comes after finitely many passes if only finitely many vertices and edges are within this distance and the weights are finite. *)
Theorem C117_every_vertex :
  forall {V : Type} (V_dec : forall a b : V, {a = b} + {a <> b}) (next_edges_inf : V -> option Z -> nat -> option (V * option Z)) (edge : V -> nat -> option (V * option Z))
    (DMi : DMap (V * nat) (option Z) None) (PMi : PMap (V * nat) (V * nat)) (LMi : PMap (V * nat) unit) (start : V) v d lv le,
  edge_sequences edge -> edges_sorted edge -> edges_nonnegative edge ->
  let E := inf_edge edge in
  let St := fun s => In s [start] in
  (forall v d, is_distance ZInfWeights E St v d -> forall k, next_edges_inf v d k = edge v k) ->
  is_distance ZInfWeights E St v d -> d <> None -> v <> start ->
  (forall q u, wwalk ZInfWeights E start q u -> w_leb ZInfWeights (walk_weight ZInfWeights q) d = true -> In u lv) ->
  (forall q u k t w, wwalk ZInfWeights E start q u -> edge u k = Some (t, w) -> w_leb ZInfWeights (w_add ZInfWeights w (walk_weight ZInfWeights q)) d = true -> In (u, k) le) ->
  edges_finite edge ->
  exists n, In (v, d) (fst (red_run V_dec next_edges_inf DMi PMi LMi start n)).
Proof.
  intros V V_dec f edge DMi PMi LMi start v d lv le H1 H2 H3 E St Hf. exact (red_live V_dec f edge H1 H2 H3 DMi PMi LMi start Hf v d lv le).
Qed.
Print Assumptions C117_every_vertex.

(** C117, continued.  With the graph of the documentation, the values that equal their distance are the primes, in ascending order, with none left out;
    read up to the first one above [b], they are exactly the primes up to [b]. *)
Theorem C117_primes :
  forall (DMi : DMap (Z * nat) (option Z) None) (PMi : PMap (Z * nat) (Z * nat)) (LMi : PMap (Z * nat) unit),
  (forall n, StronglySorted Z.lt (red_primes DMi PMi LMi n) /\ (forall p, In p (red_primes DMi PMi LMi n) -> prime p) /\
     (forall p q, In p (red_primes DMi PMi LMi n) -> prime q -> (q < p)%Z -> In q (red_primes DMi PMi LMi n))) /\
  (forall b, exists n l p l', red_primes DMi PMi LMi n = l ++ p :: l' /\ (b < p)%Z /\ forall q, In q l <-> prime q /\ (q <= b)%Z).
Proof.
  intros DMi PMi LMi. split.
  - intros n. rewrite red_primes_same. destruct (prime_search _ _ DMi PMi LMi false false n) as [os r] eqn:HR. destruct (primes_generated _ _ _ _ _ _ _ n os r HR) as (_ & A & B & C & _). exact (conj A (conj B C)).
  - intros b. destruct (primes_up_to (HashDMap Z.eq_dec None) (HashPMap Z.eq_dec) DMi PMi LMi false false b) as (n & H). exists n. rewrite red_primes_same. exact H.
Qed.
Print Assumptions C117_primes.

(** The result that the documentation shows (reduction_of_other_problems.rst:372-374), and a search with distances *)
Definition c117_dec := @state_dec Z Z.eq_dec.
Definition c117_D := HashDMap c117_dec (None : option Z).
Definition c117_P := HashPMap (A := Z * nat) c117_dec.
Definition c117_L := HashPMap (A := unit) c117_dec.
Example C117_example : firstn 9 (red_primes c117_D c117_P c117_L 320) = [2; 3; 5; 7; 11; 13; 17; 19; 23]%Z.
Proof. vm_compute. reflexivity. Qed.
Definition c117_edge (v : Z) (k : nat) : option (Z * option Z) := if Z.eqb v 0 then Some ((Z.of_nat k + 1)%Z, Some (Z.of_nat k * Z.of_nat k + 5)%Z) else if (Nat.eqb k 0) then Some ((v + 1)%Z, Some 2%Z) else None.
Example C117_example_distances :
  edge_sequences c117_edge /\ edges_sorted c117_edge /\ edges_nonnegative c117_edge /\ edges_finite c117_edge /\
  firstn 5 (fst (red_run Z.eq_dec (fun v _ => c117_edge v) c117_D c117_P c117_L 0%Z 60)) = [(1, Some 5); (2, Some 6); (3, Some 8); (4, Some 10); (5, Some 12)]%Z.
Proof.
  split; [|split; [|split; [|split]]].
  - intros v k. unfold c117_edge. destruct (Z.eqb v 0); [discriminate|]. destruct k as [|k]; simpl; congruence.
  - intros v k u a u' b. unfold c117_edge. destruct (Z.eqb v 0); [intros [= <- <-] [= <- <-]; apply Z.leb_le; nia|]. destruct k as [|k]; cbn [Nat.eqb]; discriminate.
  - intros v k u w. unfold c117_edge. destruct (Z.eqb v 0); [intros [= <- <-]; apply Z.leb_le; nia|]. destruct k as [|k]; cbn [Nat.eqb]; [intros [= <- <-]; reflexivity|discriminate].
  - intros v k u w. unfold c117_edge. destruct (Z.eqb v 0); [intros [= <- <-]; discriminate|]. destruct k as [|k]; cbn [Nat.eqb]; [intros [= <- <-]; discriminate|discriminate].
  - vm_compute. reflexivity.
Qed.
