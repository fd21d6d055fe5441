(** Specification vocabulary shared by the traversals: how a neighbor function presents a
    graph, start vertices, preloaded vertices.  Only standard notions; nothing here
    refers to the loops of the code. *)
From Coq Require Import List.
From Verif Require Import GearSpec Spec.
Import ListNotations.

Section TraversalSpec.
Context {V I L : Type}.

(** The neighbor function [next] presents the graph [E] on vertex ids: the ids of the
    neighbors of a vertex are exactly the [E]-successors of its id.  (So vertices with equal
    id have the same neighbors, up to id.) *)
Definition presents (vid : V -> I) (next : V -> list (V * L)) (E : I -> I -> Prop) : Prop :=
  forall u j, In j (map (fun e => vid (fst e)) (next u)) <-> E (vid u) j.

(** [i] is the id of a start vertex. *)
Definition is_start (vid : V -> I) (starts : list V) (i : I) : Prop := In i (map vid starts).

(** Different start vertices have different ids. *)
Definition starts_distinct (vid : V -> I) (starts : list V) : Prop :=
  forall a b, In a starts -> In b starts -> vid a = vid b -> a = b.

(** [i] is in the set given as option [already_visited]. *)
Definition in_already_visited (VS : VSet I) (av : option (vs_t VS)) (i : I) : Prop :=
  match av with Some s => vs_mem VS i s = true | None => False end.

(** The graph without the edges that lead into [P]. *)
Definition avoiding (E : I -> I -> Prop) (P : I -> Prop) (i j : I) : Prop := E i j /\ ~ P j.

(** Edge between two vertices, as returned by the neighbor function. *)
Definition next_edge (next : V -> list (V * L)) (u w : V) : Prop := In w (map fst (next u)).

(** [d] labels an edge from [u] to [w]. *)
Definition next_label (next : V -> list (V * L)) (u w : V) (d : L) : Prop := In (w, d) (next u).
End TraversalSpec.
