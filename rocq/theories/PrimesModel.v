(** Model of the documented programs that generate primes, and divisors of other numbers, by a search in an infinitely branching graph
    (docs/source/reduction_of_other_problems.rst:441-475).

    Numbers: all lengths and distances are doubled, so that the 0.5 of the program becomes 1.
    Simplification: sums and differences of the numbers are exact (the program uses floats, which are exact here up to 2^52). *)
From Coq Require Import List ZArith Bool.
From Verif Require Import Machine GearSpec Common Weight DijkstraModel InfModel InfAwareModel SieveModel.
Import ListNotations.
Open Scope Z_scope.

(** reduction_of_other_problems.rst:441-446 ([next_edges_prime_search]): element number [k] of the iterator, if t.distance has been [distance] *)
Definition prime_search_edges (i : Z) (distance : option Z) (k : nat) : option (Z * option Z) :=
  match k with
  | O => Some (i + 1, minus_distance (2 * (i + 1)) distance)
  | S j =>
      if 1 <? i then
        let i_next := i * i + Z.of_nat j * i in                        (* itertools.count(i*i, i) *)
        Some (i_next, minus_distance (2 * i_next - 1) distance)
      else None
  end.

Section Primes.
Variable DM : DMap Z (option Z) None.
Variable PM : PMap Z Z.
Variable DMi : DMap (Z * nat) (option Z) None.
Variable PMi : PMap (Z * nat) (Z * nat).
Variable LMi : PMap (Z * nat) unit.
Variables build_paths store_distances : bool.
Notation report := (@inf_report Z DM PM).

(** Lines 450-455, 465: TraversalShortestPathsInfBranchingSorted(next_edges_prime_search).start_from(1, build_paths=...), [n] passes *)
Definition prime_search (n : nat) : list report * outcome (@inf_state Z DM PM DMi PMi LMi) exn :=
  ainf_run Z.eq_dec prime_search_edges DM PM DMi PMi LMi build_paths store_distances [1] None n.

(** Line 456: (i for i in t if i == t.distance) *)
Definition primes_of (os : list report) : list Z := map nr_vertex (filter (fun rep : report => equals_distance (2 * nr_vertex rep) (nr_distance rep)) os).

(** Line 467: (i for i in t if i != t.distance) *)
Definition non_primes_of (os : list report) : list report := filter (fun rep : report => negb (equals_distance (2 * nr_vertex rep) (nr_distance rep))) os.
End Primes.
Arguments primes_of {DM PM}. Arguments non_primes_of {DM PM}.
