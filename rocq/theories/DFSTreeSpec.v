(** Vocabulary for the properties of depth-first search, in terms of what the user sees: the sequence of entered vertices,
    each with the path to it, and how a sequence of reports shows it. *)
From Coq Require Import List Bool Arith ZArith.
From Verif Require Import GearSpec Spec DFSModel DFSSpec.
Import ListNotations.

(** A vertex [en_vertex] is entered; [en_above]: the path to it, first to last, without the vertex itself ([[]] for a start vertex);
    [en_expanded]: are its edges followed? *)
Record entry (V : Type) := { en_above : list V; en_vertex : V; en_expanded : bool }.
Arguments en_above {V}. Arguments en_vertex {V}. Arguments en_expanded {V}.

Definition en_path {V} (e : entry V) : list V := en_above e ++ [en_vertex e].

(** The entry for a walk of DFSSpec (last step first). *)
Definition entry_of {V} (b : bool) (p : node V) : list (entry V) :=
  match p with [] => [] | (_, v) :: q => [{| en_above := rev (verts q); en_vertex := v; en_expanded := b |}] end.

(** A start vertex is entered without a path, a successor is entered along a path. *)
Definition entry_event {V} (e : entry V) : dfs_event :=
  match en_above e with [] => ENTERING_START | _ => ENTERING_SUCCESSOR end.

Definition entering (ev : option dfs_event) : bool :=
  match ev with Some ENTERING_START | Some ENTERING_SUCCESSOR => true | _ => false end.

Section Shows.
Context {V I L : Type} {VS : VSet I} {PM : PMap I V} {LM : PMap I L} {XM : DMap I Z 0%Z}.
Notation report := (@dfs_report V I L VS PM LM XM).
(** Requested events; the decisions of the consumer to skip the expansion; the event of an entry; what is seen at a report: first argument the
    entries so far (including the reported one), second argument the reported entry, if entering it is the event. *)
Variable requested : dfs_event -> bool.
Variable skip : nat -> bool.
Variable event : entry V -> dfs_event.
Variable look : list (entry V) -> option (entry V) -> report -> Prop.

(** [shows m before es os]: [os] are the reports from number [m] on. They report the entries [es], each if its event is requested;
    reports of other events may be mixed in. The edges of a vertex are followed, unless it is reported and the
    consumer decides at the report to skip them. [before]: the entries before [es]. *)
Inductive shows : nat -> list (entry V) -> list (entry V) -> list report -> Prop :=
| sh_nil m before : shows m before [] []
| sh_hidden m before e es os :
    requested (event e) = false -> en_expanded e = true ->
    shows m (before ++ [e]) es os -> shows m before (e :: es) os
| sh_entering m before e es rep os :
    requested (event e) = true -> en_expanded e = negb (skip m) ->
    fr_vertex rep = en_vertex e -> fr_event rep = Some (event e) -> look (before ++ [e]) (Some e) rep ->
    shows (S m) (before ++ [e]) es os -> shows m before (e :: es) (rep :: os)
| sh_other m before es rep os :
    entering (fr_event rep) = false -> look before None rep ->
    shows (S m) before es os -> shows m before es (rep :: os).
End Shows.

(** The entries form a depth-first tree: each vertex is entered either as start vertex, when all edges of the vertices entered before have been explored, or from
    the most recently entered vertex that has an edge to a vertex not entered so far. [P]: the preloaded
    vertices, they are never entered. *)
Definition depth_first_tree {V I} (vid : V -> I) (edge : V -> V -> Prop) (starts : list V) (P : I -> Prop) (tree : list (entry V)) : Prop :=
  forall l1 e l2, tree = l1 ++ e :: l2 ->
    let E u j := en_expanded u = true /\ exists w, edge (en_vertex u) w /\ vid w = j in
    let done := map (fun x => vid (en_vertex x)) l1 in
    let explored u := forall j, E u j -> P j \/ In j done in
    ~ P (vid (en_vertex e)) /\ ~ In (vid (en_vertex e)) done /\
    ((en_above e = [] /\ In (en_vertex e) starts /\ (forall w, In w l1 -> explored w)) \/
     (exists a u b, l1 = a ++ u :: b /\ en_above e = en_path u /\ en_expanded u = true /\ edge (en_vertex u) (en_vertex e) /\
        (forall w, In w b -> explored w))).

(** Replay of the reports on a stack of vertices (innermost first): entering puts the vertex on the stack, leaving takes it away, and other reports do not change the
    stack. The attribute trace shows the stack (with the reported vertex). [strict]: entering a start vertex is the event for an empty
    stack, and only this. *)
Inductive bracket {V I L} {VS : VSet I} {PM : PMap I V} {LM : PMap I L} {XM : DMap I Z 0%Z} (strict : bool) :
  list V -> @dfs_report V I L VS PM LM XM -> list V -> Prop :=
| br_enter st rep :
    entering (fr_event rep) = true -> (strict = true -> (fr_event rep = Some ENTERING_START <-> st = [])) ->
    fr_trace rep = rev (fr_vertex rep :: st) -> bracket strict st rep (fr_vertex rep :: st)
| br_leave st rep :
    fr_event rep = Some (match st with [] => LEAVING_START | _ => LEAVING_SUCCESSOR end) ->
    fr_trace rep = rev (fr_vertex rep :: st) -> bracket strict (fr_vertex rep :: st) rep st
| br_other st rep :
    entering (fr_event rep) = false -> fr_event rep <> Some LEAVING_START -> fr_event rep <> Some LEAVING_SUCCESSOR ->
    fr_trace rep = rev (fr_vertex rep :: st) -> bracket strict st rep st.

Inductive brackets {V I L} {VS : VSet I} {PM : PMap I V} {LM : PMap I L} {XM : DMap I Z 0%Z} (strict : bool) :
  list V -> list (@dfs_report V I L VS PM LM XM) -> list V -> Prop :=
| brs_nil st : brackets strict st [] st
| brs_cons st rep st' os st'' : bracket strict st rep st' -> brackets strict st' os st'' -> brackets strict st (rep :: os) st''.

(** An event at a vertex that belongs to the current trace (entered, or to be left). *)
Definition on_walk (ev : option dfs_event) : bool :=
  match ev with Some ENTERING_START | Some ENTERING_SUCCESSOR | Some LEAVING_START | Some LEAVING_SUCCESSOR => true | _ => false end.

(** The edge that leads to the reported vertex; [pre]: the trace of its source. A back edge leads to a vertex on this trace, a forward
    edge to a vertex that has been entered before with a trace that continues [pre]. *)
Definition edge_back {V I L} {VS : VSet I} {PM : PMap I V} {LM : PMap I L} {XM : DMap I Z 0%Z} (vid : V -> I)
    (pre : list V) (rep : @dfs_report V I L VS PM LM XM) : Prop := In (vid (fr_vertex rep)) (map vid pre).
Definition edge_forward {V I L} {VS : VSet I} {PM : PMap I V} {LM : PMap I L} {XM : DMap I Z 0%Z} (vid : V -> I)
    (before : list (@dfs_report V I L VS PM LM XM)) (pre : list V) (rep : @dfs_report V I L VS PM LM XM) : Prop :=
  exists rep' d, In rep' before /\ entering (fr_event rep') = true /\ vid (fr_vertex rep') = vid (fr_vertex rep) /\ d <> [] /\ fr_trace rep' = pre ++ d.
