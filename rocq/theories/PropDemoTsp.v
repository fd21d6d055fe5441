(** The documented program for the traveling salesman problem: C109. *)
From Coq Require Import List ZArith Bool Arith Permutation Lia.
From Verif Require Import Machine GearSpec GearModel GearProofs Common PathsModel TspSpec DemoTspModel DemoTspProofs.
Import ListNotations.
Open Scope nat_scope.

(** C109. The program demo_traveling_salesman of the documentation, for a complete directed graph with at least two vertices, given as matrix of weights that are not negative. Frozensets may deliver their
    elements in any order. If the program has returned a result after some number of passes of the traversal, the result is a length and a path, the path is a tour of this length (it starts at vertex 0,
    visits each vertex once and returns), and no tour is shorter. The program does return a result, and it raises no exception before. *)
Theorem C109_demo_traveling_salesman :
  forall (graph : list (list Z)) (order : list nat -> list nat) (DM : DMap tstate (option Z) None) (PM : PMap tstate tstate) (LM : PMap tstate unit),
  (forall s, Permutation (order s) s) ->
  (forall row, In row graph -> length row = length graph) ->
  (forall row w, In row graph -> In w row -> (0 <= w)%Z) ->
  2 <= length graph ->
  let tour := is_tour (fun a b => Some (nth b (nth a graph []) 0%Z)) (seq 0 (length graph)) 0 in
  (forall n length path, demo_traveling_salesman graph order DM PM LM n = DFound length path ->
     exists len route, length = Some len /\ path = POk route /\ tour route len /\ forall route' len', tour route' len' -> (len <= len')%Z) /\
  (exists n length path, demo_traveling_salesman graph order DM PM LM n = DFound length path) /\
  (forall n x, demo_traveling_salesman graph order DM PM LM n <> DRaised x).
Proof.
  intros graph order DM PM LM Ho _ Hw H2 tour.
  split; [exact (demo_sound graph order Ho Hw H2 DM PM LM)|]. split; [exact (demo_ends graph order Ho Hw H2 DM PM LM)|exact (demo_no_error graph order Ho Hw H2 DM PM LM)].
Qed.
Print Assumptions C109_demo_traveling_salesman.

(** Four vertices with one-way weights; sets deliver their elements in descending order. *)
Definition demo_graph : list (list Z) := [[0; 2; 9; 10]; [1; 0; 6; 4]; [15; 7; 0; 8]; [6; 3; 12; 0]]%Z.
Example C109_example :
  (forall s : list nat, Permutation (rev s) s) /\ (forall row, In row demo_graph -> length row = length demo_graph) /\ (forall row w, In row demo_graph -> In w row -> (0 <= w)%Z) /\
  demo_traveling_salesman demo_graph (@rev nat) (HashDMap tstate_dec None) (HashPMap tstate_dec) (HashPMap tstate_dec) 120 = DFound (Some 21%Z) (POk [0; 2; 3; 1; 0]).
Proof.
  split; [intros s; symmetry; apply Permutation_rev|]. split; [cbn; intros row Hr; intuition (subst; reflexivity)|]. split; [|vm_compute; reflexivity].
  cbn. intros row w Hr. intuition (subst row; cbn in *; intuition (subst; lia)).
Qed.

(** For a single vertex, the program raises an exception. *)
Example C109_single : demo_traveling_salesman [[0%Z]] (@rev nat) (HashDMap tstate_dec None) (HashPMap tstate_dec) (HashPMap tstate_dec) 40 = DRaised RuntimeErrorNoPath.
Proof. vm_compute. reflexivity. Qed.
