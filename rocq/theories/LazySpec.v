(** What it means that a traversal that reads the answers of the neighbor function step by step does what it does for the graph formed by the edges that have been read. *)
From Coq Require Import List.
From Verif Require Import Machine.
Import ListNotations.

Section LazySpec.
Context {S O X V I Ed : Type}.
Variable I_dec : forall a b : I, {a = b} + {a <> b}.
Variable vid : V -> I.

(** The edges read for the vertices with id [j], in the order they have been read *)
Definition edges_read (log : list (V * Ed)) (j : I) : list Ed := map snd (filter (fun p => if I_dec (vid (fst p)) j then true else false) log).

(** The states are equal, except for edges that have not been processed. *)
Definition same_but_unread (set_unread : list Ed -> S -> S) (s t : S) : Prop := set_unread [] s = set_unread [] t.
Definition same_outcome (set_unread : list Ed -> S -> S) (r r' : outcome S X) : Prop :=
  match r, r' with
  | Running s, Running t | Ended s, Ended t => same_but_unread set_unread s t
  | Raised x s, Raised y t => x = y /\ same_but_unread set_unread s t
  | _, _ => False
  end.

(** The run is one of the ordinary neighbor function [next]; or, in some pass, the iterator raises an exception, and up to then, it is one of [next]. *)
Definition reads_like (step : (V -> list Ed) -> S -> step_result S O X) (reading : S -> option V) (set_unread : list Ed -> S -> S) (read : nat -> S -> V -> X + option Ed)
    (next : V -> list Ed) (n : nat) (init : S) (os : list O) (r : outcome S X) : Prop :=
  (exists r', run (step next) n init = (os, r') /\ same_outcome set_unread r r') \/
  (exists m x s t v, m < n /\ r = Raised x s /\ reading s = Some v /\ read m s v = inl x /\ run (step next) m init = (os, Running t) /\ same_but_unread set_unread s t).
End LazySpec.

(** The edges that have been read, between ids of vertices *)
Definition edge_read {V I L} (vid : V -> I) (log : list (V * (V * L))) (i j : I) : Prop := exists v u l, In (v, (u, l)) log /\ vid v = i /\ vid u = j.
Definition weighted_edge_read {V I W L} (vid : V -> I) (log : list (V * (V * W * L))) (i : I) (w : W) (j : I) : Prop := exists v u l, In (v, (u, w, l)) log /\ vid v = i /\ vid u = j.
