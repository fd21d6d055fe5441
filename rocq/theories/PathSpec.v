(** What it means that a path object shows a path. *)
From Coq Require Import List Arith.
From Verif Require Import Spec Common PathsModel PathModel.
Import ListNotations.

(** All methods of the path object agree on the path with the vertices [l] (first to last) and, if edges are labeled, the labeled edges [es]. Each method delivers its result
    if at least [bound] predecessors may be followed. *)
Record shows {V L : Type} (p : path_obj V L) (bound : nat) (l : list V) (es : list (V * V * L)) : Prop := {
  sh_vertices : forall f, bound <= f -> path_vertices_from_start p f = POk l;
  sh_vertices_back : forall f, bound <= f -> path_vertices_to_start p f = POk (rev l);
  sh_edges : forall f, bound <= f -> path_edges_from_start p f = POk (pairs l);
  sh_edges_back : forall f, bound <= f -> path_edges_to_start p f = POk (rev (pairs l));
  sh_labeled : po_labeled p = true -> map fst es = pairs l /\
    forall f, bound <= f -> path_labeled_edges_from_start p f = POk es /\ path_labeled_edges_to_start p f = POk (rev es);
  sh_iter : forall f, bound <= f -> path_iter p f = if po_labeled p then inr (POk es) else inl (POk l)
}.
