(** Properties of the documented programs that generate primes: C113, C114. *)
From Coq Require Import List ZArith Bool Arith Lia Sorted Znumtheory.
From Verif Require Import Machine GearSpec GearProofs Common PathsModel Weight DijkstraModel InfModel InfGraph InfAwareModel SieveModel SieveProofs PrimesModel PrimesProofs PrimesUpTo.
Import ListNotations.
Open Scope Z_scope.

(** C113.  The search with a search-aware graph yields only primes, in ascending order, leaves none out, and never ends and never fails;
    [sieve_yields] are the values that the program of the documentation generates. *)
Theorem C113_sieve_yields_primes :
  forall (DM : DMap (Z * Z) (option Z) None) (PM : PMap (Z * Z) (Z * Z)) (LM : PMap (Z * Z) unit) cfg n os r,
  dc_is_tree cfg = false -> sieve_run DM PM LM cfg n = (os, r) ->
  (exists s, r = Running s) /\ StronglySorted Z.lt (sieve_yields os) /\ (forall p, In p (sieve_yields os) -> prime p) /\
  (forall p q, In p (sieve_yields os) -> prime q -> q < p -> In q (sieve_yields os)).
Proof. intros DM PM LM cfg n os r Ht. exact (sieve_primes DM PM LM cfg Ht n os r). Qed.
Print Assumptions C113_sieve_yields_primes.

(** C113, continued.  Read up to the first value above [b], the generator gives exactly the primes up to [b]; and that value comes after finitely many passes. *)
Theorem C113_sieve_up_to :
  forall (DM : DMap (Z * Z) (option Z) None) (PM : PMap (Z * Z) (Z * Z)) (LM : PMap (Z * Z) unit) cfg b,
  dc_is_tree cfg = false ->
  exists n l p l', sieve_yields (fst (sieve_run DM PM LM cfg n)) = l ++ p :: l' /\ b < p /\ forall q, In q l <-> prime q /\ q <= b.
Proof. exact sieve_up_to. Qed.
Print Assumptions C113_sieve_up_to.

(** The result that the documentation shows (search_aware_graphs.rst:159) *)
Example C113_example :
  firstn 15 (sieve_yields (fst (sieve_run (HashDMap vertex_dec (None : option Z)) (HashPMap vertex_dec) (HashPMap vertex_dec) {| dc_build_paths := false; dc_labeled := false; dc_is_tree := false; dc_keep_distances := false |} 400)))
  = [2; 3; 5; 7; 11; 13; 17; 19; 23; 29; 31; 37; 41; 43; 47].
Proof. vm_compute. reflexivity. Qed.

(** C114.  The search with infinitely many edges per vertex: the numbers that equal their distance are the primes, in ascending order, with none left out,
    and the others are the numbers that are not prime, likewise; the search never ends and never fails. *)
Theorem C114_primes_and_others :
  forall (DM : DMap Z (option Z) None) (PM : PMap Z Z) (DMi : DMap (Z * nat) (option Z) None) (PMi : PMap (Z * nat) (Z * nat)) (LMi : PMap (Z * nat) unit) bp sd n os r,
  prime_search DM PM DMi PMi LMi bp sd n = (os, r) ->
  (exists s, r = Running s) /\
  StronglySorted Z.lt (primes_of os) /\ (forall p, In p (primes_of os) -> prime p) /\ (forall p q, In p (primes_of os) -> prime q -> q < p -> In q (primes_of os)) /\
  StronglySorted Z.lt (map nr_vertex (non_primes_of os)) /\ (forall i, In i (map nr_vertex (non_primes_of os)) -> 1 < i /\ ~ prime i) /\
  (forall i j, In i (map nr_vertex (non_primes_of os)) -> 1 < j < i -> ~ prime j -> In j (map nr_vertex (non_primes_of os))).
Proof. exact primes_generated. Qed.
Print Assumptions C114_primes_and_others.

(** C114, continued.  Each number is generated after finitely many passes. *)
Theorem C114_every_number :
  forall (DM : DMap Z (option Z) None) (PM : PMap Z Z) (DMi : DMap (Z * nat) (option Z) None) (PMi : PMap (Z * nat) (Z * nat)) (LMi : PMap (Z * nat) unit) bp sd i,
  1 < i -> exists n, (prime i -> In i (primes_of (fst (prime_search DM PM DMi PMi LMi bp sd n)))) /\
    (~ prime i -> In i (map nr_vertex (non_primes_of (fst (prime_search DM PM DMi PMi LMi bp sd n))))).
Proof. exact primes_live. Qed.
Print Assumptions C114_every_number.

(** C114, continued.  Read up to the first value above [b], the generator of the primes gives exactly the primes up to [b]. *)
Theorem C114_up_to :
  forall (DM : DMap Z (option Z) None) (PM : PMap Z Z) (DMi : DMap (Z * nat) (option Z) None) (PMi : PMap (Z * nat) (Z * nat)) (LMi : PMap (Z * nat) unit) bp sd b,
  exists n l p l', primes_of (fst (prime_search DM PM DMi PMi LMi bp sd n)) = l ++ p :: l' /\ b < p /\ forall q, In q l <-> prime q /\ q <= b.
Proof. exact primes_up_to. Qed.
Print Assumptions C114_up_to.

(** C114, continued.  With paths: for a reported number that is not prime, the second vertex that the paths container delivers on the way to the start is a proper divisor. *)
Theorem C114_divisors :
  forall (DM : DMap Z (option Z) None) (PM : PMap Z Z) (DMi : DMap (Z * nat) (option Z) None) (PMi : PMap (Z * nat) (Z * nat)) (LMi : PMap (Z * nat) unit) sd n os r rep,
  prime_search DM PM DMi PMi LMi true sd n = (os, r) -> In rep (non_primes_of os) ->
  exists p rest m, 1 < p < nr_vertex rep /\ (p | nr_vertex rep) /\
    forall fuel, (m <= fuel)%nat -> iter_vertices_to_start Z.eq_dec (fun v => v) PM (nr_pred rep) fuel (nr_vertex rep) = POk (nr_vertex rep :: p :: rest).
Proof. exact divisors_found. Qed.
Print Assumptions C114_divisors.

(** The results that the documentation shows (reduction_of_other_problems.rst:457-487) *)
Definition zsdec := @state_dec Z Z.eq_dec.
Example C114_example :
  let os := fst (prime_search (HashDMap Z.eq_dec (None : option Z)) (HashPMap Z.eq_dec) (HashDMap zsdec (None : option Z)) (HashPMap zsdec) (HashPMap zsdec) true false 320) in
  map (fun rep => (nr_vertex rep, match iter_vertices_to_start Z.eq_dec (fun v => v) (HashPMap Z.eq_dec) (nr_pred rep) 30 (nr_vertex rep) with POk (_ :: p :: _) => p | _ => 0 end))
    (firstn 11 (non_primes_of os)) = [(4, 2); (6, 2); (8, 2); (9, 3); (10, 2); (12, 3); (14, 2); (15, 3); (16, 4); (18, 3); (20, 4)] /\
  firstn 9 (primes_of os) = [2; 3; 5; 7; 11; 13; 17; 19; 23].
Proof. vm_compute. split; reflexivity. Qed.
