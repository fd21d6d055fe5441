(** Model of [_path.py]: path objects, as returned by the bidirectional searches. *)
From Coq Require Import List Arith.
From Verif Require Import GearSpec Spec Common PathsModel.
Import ListNotations.

(** itertools.chain of two iterators; simplification: an error of the second one hides the elements of the first one. *)
Definition pres_app {A} (a b : pres (list A)) : pres (list A) :=
  match a, b with
  | POk x, POk y => POk (x ++ y)
  | POk _, PErr e => PErr e
  | POk _, PFuel => PFuel
  | PErr e, _ => PErr e
  | PFuel, _ => PFuel
  end.

(** _path.py:24-32 ([_take_except_for_last]) *)
Definition take_except_for_last {A} (l : list A) : list A := removelast l.

(** _path.py:40-44 ([reverse_edges]) *)
Definition reverse_edges {V L} (l : list (V * V * L)) : list (V * V * L) := map (fun e => (snd (fst e), fst (fst e), snd e)) l.

(** _path.py:50-99 ([Path]): the functions that create the iterators; the argument bounds the number of predecessors that are followed. [po_labeled]: the object is a
    PathOfLabeledEdges, and not a PathOfUnlabeledEdges (_path.py:229-258). *)
Record path_obj (V L : Type) := {
  po_labeled : bool;
  po_vertex_forwards : nat -> pres (list V);
  po_vertex_backwards : nat -> pres (list V);
  po_edge_forwards : nat -> pres (list (V * V * L));
  po_edge_backwards : nat -> pres (list (V * V * L))
}.
Arguments po_labeled {V L}. Arguments po_vertex_forwards {V L}. Arguments po_vertex_backwards {V L}.
Arguments po_edge_forwards {V L}. Arguments po_edge_backwards {V L}.

Section Path.
Context {V I L : Type}.
Variable V_dec : forall a b : V, {a = b} + {a <> b}.
Variable vid : V -> I.
Variable PM : PMap I V.
Variable LM : PMap I L.

(** The methods iter_labeled_edges_... of a paths container raise RuntimeError if the edges are not labeled (_paths.py:211-239). *)
Definition labeled_edges_from_start (labeled : bool) (pred : pm_t PM) (labels : pm_t LM) (fuel : nat) (v : V) : pres (list (V * V * L)) :=
  if labeled then iter_labeled_edges_from_start V_dec vid PM LM pred labels fuel v else PErr RuntimeErrorNoPath.
Definition labeled_edges_to_start (labeled : bool) (pred : pm_t PM) (labels : pm_t LM) (fuel : nat) (v : V) : pres (list (V * V * L)) :=
  if labeled then iter_labeled_edges_to_start V_dec vid PM LM pred labels fuel v else PErr RuntimeErrorNoPath.

(** _path.py:101-155 ([from_bidirectional_search]) *)
Definition from_bidirectional_search (labeled : bool) (pred_f : pm_t PM) (labels_f : pm_t LM) (pred_b : pm_t PM) (labels_b : pm_t LM)
    (connecting : V) : path_obj V L :=
  {| po_labeled := labeled;
     po_vertex_forwards := fun fuel =>
       pres_app (pres_map take_except_for_last (iter_vertices_from_start V_dec vid PM pred_f fuel connecting))
                (iter_vertices_to_start V_dec vid PM pred_b fuel connecting);
     po_vertex_backwards := fun fuel =>
       pres_app (iter_vertices_from_start V_dec vid PM pred_b fuel connecting)
                (pres_map (@tl V) (iter_vertices_to_start V_dec vid PM pred_f fuel connecting));
     po_edge_forwards := fun fuel =>
       pres_app (labeled_edges_from_start labeled pred_f labels_f fuel connecting)
                (pres_map reverse_edges (labeled_edges_to_start labeled pred_b labels_b fuel connecting));
     po_edge_backwards := fun fuel =>
       pres_app (pres_map reverse_edges (labeled_edges_from_start labeled pred_b labels_b fuel connecting))
                (labeled_edges_to_start labeled pred_f labels_f fuel connecting) |}.
End Path.

Section PathObject.
Context {V L : Type}.

(** _path.py:157-159 ([of_nothing]) *)
Definition of_nothing (labeled : bool) : path_obj V L :=
  {| po_labeled := labeled; po_vertex_forwards := fun _ => POk []; po_vertex_backwards := fun _ => POk [];
     po_edge_forwards := fun _ => POk []; po_edge_backwards := fun _ => POk [] |}.

(** _path.py:161-171 ([from_vertex]) *)
Definition from_vertex (labeled : bool) (v : V) : path_obj V L :=
  {| po_labeled := labeled; po_vertex_forwards := fun _ => POk [v]; po_vertex_backwards := fun _ => POk [v];
     po_edge_forwards := fun _ => POk []; po_edge_backwards := fun _ => POk [] |}.

Variable p : path_obj V L.

(** _path.py:173-204: the methods *)
Definition path_vertices_from_start (fuel : nat) : pres (list V) := po_vertex_forwards p fuel.
Definition path_vertices_to_start (fuel : nat) : pres (list V) := po_vertex_backwards p fuel.
Definition path_edges_from_start (fuel : nat) : pres (list (V * V)) := pres_map pairs (po_vertex_forwards p fuel).
Definition path_edges_to_start (fuel : nat) : pres (list (V * V)) :=
  pres_map (fun l => map (fun e => (snd e, fst e)) (pairs l)) (po_vertex_backwards p fuel).
Definition path_labeled_edges_from_start (fuel : nat) : pres (list (V * V * L)) := po_edge_forwards p fuel.
Definition path_labeled_edges_to_start (fuel : nat) : pres (list (V * V * L)) := po_edge_backwards p fuel.

(** _path.py:229-258 ([__iter__]): vertices, or labeled edges *)
Definition path_iter (fuel : nat) : pres (list V) + pres (list (V * V * L)) :=
  if po_labeled p then inr (po_edge_forwards p fuel) else inl (po_vertex_forwards p fuel).
End PathObject.
