(** Model of the documented program that generates primes: the sieve of Eratosthenes as a search of shortest paths in a graph whose edges depend on the distances found
    (docs/source/search_aware_graphs.rst:132-158).

    Numbers: all lengths and distances are doubled, so that the 0.5 of the program becomes 1.
    Simplification: sums and differences of the numbers are exact (the program uses floats, which are exact here up to 2^52).
    Simplification: the neighbor function is a generator; its answer is taken at the time of the call, since [traversal.distance] does not change while the edges are read
    (shortest_paths.py:293-372). *)
From Coq Require Import List ZArith Bool.
From Verif Require Import Machine GearSpec Common Weight DijkstraModel AwareModel.
Import ListNotations.
Open Scope Z_scope.

Notation ZI := ZInfWeights.

(** [a - b] for a finite [a]; [math.inf] is [None].  Simplification: the case of infinite [b] does not occur, since a vertex that is expanded has a finite distance. *)
Definition minus_distance (a : Z) (b : option Z) : option Z := match b with Some x => Some (a - x) | None => None end.

(** [a == b] *)
Definition equals_distance (a : Z) (b : option Z) : bool := match b with Some x => a =? x | None => false end.

(** search_aware_graphs.rst:132-148 ([next_edges]); [distance] is traversal.distance *)
Definition sieve_edges (distance : option Z) (vertex : Z * Z) : list ((Z * Z) * option Z * unit) :=
  let '(i, increment) := vertex in
  if increment =? 1 then
    ((i + 1, 1), minus_distance (2 * (i + 1)) distance, tt) ::
    (if equals_distance (2 * i) distance then [((i * i, i), Some (2 * (i * i - i) - 1), tt)] else [])
  else [((i + increment, increment), Some (2 * increment), tt); ((i, 1), Some 0, tt)].

Section Sieve.
Variable DM : DMap (Z * Z) (option Z) None.
Variable PM : PMap (Z * Z) (Z * Z).
Variable LM : PMap (Z * Z) unit.
Variable cfg : dij_cfg.
Notation state := (@dij_state (Z * Z) (Z * Z) unit ZI DM PM LM).
Notation report := (@dij_report (Z * Z) (Z * Z) unit ZI DM PM LM).

(** shortest_paths.py:276-315: in the next pass, the vertex of the first entry of the heap is expanded, and the key of the entry becomes traversal.distance before
    the neighbor function is called. *)
Definition distance_at_call (s : state) : option Z :=
  match d_heap s with ((w, _), _) :: _ => w | [] => d_distance s end.

(** search_aware_graphs.rst:155: TraversalShortestPaths(next_edges).start_from((1, 1)), [n] passes *)
Definition sieve_run (n : nat) : list report * outcome state exn :=
  aware_run (fun f => dij_step (fun v => v) ZI DM PM LM f cfg) (dij_asks (fun v => v) ZI cfg) []
    (fun _ s v => inr (sieve_edges (distance_at_call s) v)) 0 n
    (dij_init (fun v => v) ZI DM PM LM cfg [(1, 1)] None None).

(** search_aware_graphs.rst:157-158: (i for i, factor in traversal if i == traversal.distance) *)
Definition sieve_yields (os : list report) : list Z :=
  map (fun rep : report => fst (dr_vertex rep)) (filter (fun rep : report => equals_distance (2 * fst (dr_vertex rep)) (dr_distance rep)) os).
End Sieve.
Arguments sieve_yields {DM PM LM}. Arguments distance_at_call {DM PM LM}.
