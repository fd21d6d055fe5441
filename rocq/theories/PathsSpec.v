(** What it means that a paths container delivers a path. *)
From Coq Require Import List Arith.
From Verif Require Import GearSpec Spec Common PathsModel.
Import ListNotations.

Section PathsSpec.
Context {V I L : Type}.
Variable V_dec : forall a b : V, {a = b} + {a <> b}.
Variable vid : V -> I.
Variable PM : PMap I V.
Variable LM : PMap I L.

(** All access methods of the container [paths] with predecessors [pred] and edge labels
    [labels] deliver, for vertex [v], the path with the vertices [l] (first to last):
    [v in paths], [iter_vertices_from_start], [iter_vertices_to_start],
    [iter_edges_from_start], [iter_edges_to_start] and, if edges are labeled,
    [iter_labeled_edges_from_start] and [iter_labeled_edges_to_start].
    [Q u w d] tells which labels [d] are correct for an edge from [u] to [w]. *)
Definition delivers (pred : pm_t PM) (labels : pm_t LM) (labeled : bool)
    (Q : V -> V -> L -> Prop) (v : V) (l : list V) : Prop :=
  paths_contains vid PM pred v = true /\
  forall fuel, length l <= fuel ->
    iter_vertices_from_start V_dec vid PM pred fuel v = POk l /\
    iter_vertices_to_start V_dec vid PM pred fuel v = POk (rev l) /\
    iter_edges_from_start V_dec vid PM pred fuel v = POk (pairs l) /\
    iter_edges_to_start V_dec vid PM pred fuel v = POk (rev (pairs l)) /\
    (labeled = true -> exists es,
       iter_labeled_edges_from_start V_dec vid PM LM pred labels fuel v = POk es /\
       iter_labeled_edges_to_start V_dec vid PM LM pred labels fuel v = POk (rev es) /\
       map fst es = pairs l /\
       forall u w d, In (u, w, d) es -> Q u w d).
End PathsSpec.

(** [l] is a path (first to last vertex) to [v] stored by the predecessors [pred]: the first vertex is
    its own predecessor, each other vertex has the vertex before it as predecessor. *)
Definition stored_path {V I} (vid : V -> I) (PM : PMap I V) (pred : pm_t PM) (l : list V) (v : V) : Prop :=
  exists s p, l = s :: p /\ last l s = v /\ pm_get PM (vid s) pred = Some s /\
    forall u w, In (u, w) (pairs l) -> pm_get PM (vid w) pred = Some u /\ w <> u.

(** Each edge of the path [l] carries a label stored for its end vertex. *)
Definition stored_labels {V I L} (vid : V -> I) (LM : PMap I L) (labels : pm_t LM) (l : list V) : Prop :=
  forall u w, In (u, w) (pairs l) -> pm_get LM (vid w) labels <> None.
