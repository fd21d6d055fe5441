(** What it means that a traversal with a neighbor function that looks at the traversal, keeps a state of its own, or fails, does what it does for the graph formed by the answers. *)
From Coq Require Import List.
From Verif Require Import Machine AwareModel.
Import ListNotations.

Section AwareSpec.
Context {S O X V A : Type}.
Variable step : (V -> A) -> S -> step_result S O X.
Variable asks : S -> list V.
Variable nothing : A.
Variable answer : nat -> S -> V -> X + A.
Notation aware_run := (aware_run step asks nothing answer).

(** In pass [i] of a run of [n] passes from [s], the function has been asked for [v], and its answer were the edges [es]. *)
Definition answered (s : S) (n i : nat) (v : V) (es : A) : Prop :=
  exists os s', i < n /\ aware_run 0 i s = (os, Running s') /\ first_exception (map (answer i s') (asks s')) = None /\ In v (asks s') /\ answer i s' v = inr es.

(** In pass [i] of a run of [n] passes from [s], the function has raised the exception [x] when it was asked for one of the vertices [vs]. *)
Definition failed (s : S) (n i : nat) (vs : list V) (x : X) : Prop :=
  exists os s', i < n /\ aware_run 0 i s = (os, Running s') /\ vs = asks s' /\ first_exception (map (answer i s') (asks s')) = Some x.

(** The run is that of a traversal with the neighbor function [next]; or the function raises an exception, and up to then, it is one of a traversal where the vertex in question has no edges. *)
Definition runs_like (next : V -> A) (n : nat) (s : S) : Prop :=
  aware_run 0 n s = run (step next) n s \/
  exists i vs x, failed s n i vs x /\ (forall v, In v vs -> next v = nothing) /\
    aware_run 0 n s = (fst (run (step next) (Datatypes.S i) s), Raised x (outcome_state (snd (run (step next) (Datatypes.S i) s)))).

(** [T] is the table of all answers given in the run. *)
Definition table_of_answers {I} (vid : V -> I) (n : nat) (s : S) (T : I -> A) : Prop :=
  (forall i v es, answered s n i v es -> T (vid v) = es) /\
  (forall j, T j = nothing \/ exists i v, vid v = j /\ answered s n i v (T j)) /\
  (forall i v es i' v' es', answered s n i v es -> answered s n i' v' es' -> vid v = vid v' -> i = i' /\ v = v').   (* asked once *)
End AwareSpec.

(** The edges that have been reported by the function in the run, between ids of vertices. *)
Definition edge_of_answers {S O X V I L} (step : (V -> list (V * L)) -> S -> step_result S O X) asks (answer : nat -> S -> V -> X + list (V * L)) (vid : V -> I) n (s : S) (i j : I) : Prop :=
  exists k v es u l, answered step asks [] answer s n k v es /\ vid v = i /\ In (u, l) es /\ vid u = j.

Definition weighted_edge_of_answers {S O X V I W L} (step : (V -> list (V * W * L)) -> S -> step_result S O X) asks (answer : nat -> S -> V -> X + list (V * W * L)) (vid : V -> I) n (s : S)
    (i : I) (w : W) (j : I) : Prop :=
  exists k v es u l, answered step asks [] answer s n k v es /\ vid v = i /\ In (u, w, l) es /\ vid u = j.
