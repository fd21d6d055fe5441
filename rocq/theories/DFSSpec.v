(** Specification of depth-first search, independent of the loops of the code: what a depth-first
    search does is written down as a log of its events.

    A position in the search is a list of pairs (number, vertex), last step first. The last pair of the list is a
    start vertex with its number in the list of start vertices, the other pairs are neighbors of their predecessor, with the number of the edge in the
    list of neighbors. The numbers keep parallel edges and repeated start vertices apart. *)
From Coq Require Import List Bool Arith.
Import ListNotations.

Section DFSSpec.
Context {V I L : Type}.
Variable vid : V -> I.
Variable next : V -> list (V * L).
Variable starts : list V.

Definition node : Type := list (nat * V).

(** [dnode p]: [p] describes a walk from a start vertex along edges of the graph. *)
Inductive dnode : node -> Prop :=
| dn_root k s : nth_error starts k = Some s -> dnode [(k, s)]
| dn_edge i n l j u p : dnode ((j, u) :: p) -> nth_error (next u) i = Some (n, l) -> dnode ((i, n) :: (j, u) :: p).

(** The vertices and ids on the walk, last first. *)
Definition verts (p : node) : list V := map snd p.
Definition ids (p : node) : list I := map (fun e => vid (snd e)) p.

(** [q] continues the walk [p] by at least one edge. *)
Definition continues (q p : node) : Prop := exists d, d <> [] /\ q = d ++ p.

(** Kinds of edges that lead to a vertex that is not entered. *)
Inductive edge_kind := KBack | KForward | KCross.

(** Enter a vertex (and follow its edges, if [expanded]), leave it, come to a vertex by an edge
    without entering it, come to a start vertex without entering it. *)
Inductive log_event := LEnter (expanded : bool) | LLeave | LNonTree (kind : edge_kind) | LSkipStart.

(** Most recent event first. *)
Definition log_t : Type := list (log_event * node).

Definition entered (log : log_t) (p : node) : Prop := exists b, In (LEnter b, p) log.
Definition entered_id (log : log_t) (i : I) : Prop := exists j v p, entered log ((j, v) :: p) /\ vid v = i.

(** Entered positions, most recent first. *)
Definition enters (log : log_t) : list node :=
  map snd (filter (fun x => match fst x with LEnter _ => true | _ => false end) log).

(** The kind of an edge from the last vertex of [p] to [n]: back edges lead to a vertex on the current walk, forward edges to a
    vertex that has been entered as descendant of the last vertex of [p], cross edges are all the others. *)
Definition leads_back (p : node) (n : V) : Prop := In (vid n) (ids p).
Definition leads_forward (log : log_t) (p : node) (n : V) : Prop :=
  exists j v q, entered log ((j, v) :: q) /\ vid v = vid n /\ continues ((j, v) :: q) p.
Definition has_kind (log : log_t) (p : node) (n : V) (k : edge_kind) : Prop :=
  match k with
  | KBack => leads_back p n
  | KForward => ~ leads_back p n /\ leads_forward log p n
  | KCross => ~ leads_back p n /\ ~ leads_forward log p n
  end.

(** When may a vertex be entered? Depth-first tree: not in the preloaded set [P] and not entered before. All
    simple paths: not on the current walk. All walks: always. *)
Inductive policy := PTree (P : I -> Prop) | PPaths | PWalks.
Definition may_enter (pol : policy) (log : log_t) (p : node) (v : V) : Prop :=
  match pol with
  | PTree P => ~ P (vid v) /\ ~ entered_id log (vid v)
  | PPaths => ~ leads_back p v
  | PWalks => True
  end.

(** The graph is a tree (or a set of trees), seen from the start vertices: no two walks lead to the same vertex. *)
Definition tree_like : Prop := forall j v p j' v' p',
  dnode ((j, v) :: p) -> dnode ((j', v') :: p') -> vid v = vid v' -> (j, v) :: p = (j', v') :: p'.

Definition edge_count (v : V) : nat := length (next v).

(** [dfs_log pol log k open]: [log] is what a depth-first search does up to some moment. [k] start vertices have been
    taken so far. [open]: the vertices that have been entered and not left, innermost first, each with the number of
    its edges that have not been looked at. Edges are looked at from the last to the first one. *)
Inductive dfs_log (pol : policy) : log_t -> nat -> list (node * nat) -> Prop :=
| dl_init : dfs_log pol [] 0 []
| dl_enter_start log k s b :
    dfs_log pol log k [] -> nth_error starts k = Some s -> may_enter pol log [] s ->
    dfs_log pol ((LEnter b, [(k, s)]) :: log) (S k) [([(k, s)], if b then edge_count s else 0)]
| dl_skip_start log k s :
    dfs_log pol log k [] -> nth_error starts k = Some s -> ~ may_enter pol log [] s ->
    dfs_log pol ((LSkipStart, [(k, s)]) :: log) (S k) []
| dl_enter log k j u p r open n l b :
    dfs_log pol log k (((j, u) :: p, S r) :: open) -> nth_error (next u) r = Some (n, l) ->
    may_enter pol log ((j, u) :: p) n ->
    dfs_log pol ((LEnter b, (r, n) :: (j, u) :: p) :: log) k
      (((r, n) :: (j, u) :: p, if b then edge_count n else 0) :: ((j, u) :: p, r) :: open)
| dl_non_tree log k j u p r open n l kind :
    dfs_log pol log k (((j, u) :: p, S r) :: open) -> nth_error (next u) r = Some (n, l) ->
    ~ may_enter pol log ((j, u) :: p) n -> has_kind log ((j, u) :: p) n kind ->
    dfs_log pol ((LNonTree kind, (r, n) :: (j, u) :: p) :: log) k (((j, u) :: p, r) :: open)
| dl_leave log k p open :
    dfs_log pol log k ((p, 0) :: open) -> dfs_log pol ((LLeave, p) :: log) k open.

End DFSSpec.

Arguments node : clear implicits.
Arguments log_t : clear implicits.
Arguments policy : clear implicits.
Arguments PTree {I}. Arguments PPaths {I}. Arguments PWalks {I}.
