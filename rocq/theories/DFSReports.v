(** What the reports of TraversalDepthFirst show of the log of a depth-first search (DFSSpec). *)
From Coq Require Import List Bool Arith ZArith.
From Verif Require Import Machine GearSpec Common TraversalSpec DFSModel DFSSpec.
Import ListNotations.

Section DFSReports.
Context {V I L : Type}.
Variable V_dec : forall a b : V, {a = b} + {a <> b}.
Variable vid : V -> I.
Variable VS : VSet I.
Variable PM : PMap I V.
Variable LM : PMap I L.
Variable XM : DMap I Z 0%Z.
Variable next : V -> list (V * L).
Variable starts : list V.
Variable cfg : dfs_cfg.
Variable skip : nat -> bool.
Variable av : option (vs_t VS).

Notation report := (@dfs_report V I L VS PM LM XM).

(** Which vertices may be entered. *)
Definition dfs_policy : policy I :=
  if dc_is_tree cfg then PWalks
  else match dc_mode cfg with
       | DFS_TREE => PTree (in_already_visited VS av)
       | ALL_PATHS => PPaths
       | ALL_WALKS => PWalks
       end.

(** Is the vertex equal to the start vertex of the walk? *)
Definition is_own_start (p : node V) : bool :=
  match p, rev (verts p) with
  | (_, v) :: _, s :: _ => if V_dec v s then true else false
  | _, _ => false
  end.

(** The DFSEvent for an event of the log; [None]: there is none. (See DESIGN.md, findings, for back edges when BACK_EDGE is not
    requested, and for entering the start vertex again in mode ALL_WALKS.) *)
Definition event_of (e : log_event) (p : node V) : option dfs_event :=
  match e with
  | LEnter _ => Some (if is_own_start p then ENTERING_START else ENTERING_SUCCESSOR)
  | LLeave => Some (if length p =? 1 then LEAVING_START else LEAVING_SUCCESSOR)
  | LSkipStart => Some SKIPPING_START
  | LNonTree k =>
      if dc_report cfg SOME_NON_TREE_EDGE then Some SOME_NON_TREE_EDGE
      else match k with
           | KBack => if dc_report cfg BACK_EDGE then Some BACK_EDGE else Some CROSS_EDGE
           | KForward => Some FORWARD_EDGE
           | KCross => Some CROSS_EDGE
           end
  end.

(** The event, if it is requested. *)
Definition shown (e : log_event) (p : node V) : option dfs_event :=
  match event_of e p with
  | Some ev => if dc_report cfg ev then Some ev else None
  | None => None
  end.

(** The current walk: a vertex that is not entered does not belong to it. *)
Definition current (e : log_event) (p : node V) : node V :=
  match e with LEnter _ | LLeave => p | LNonTree _ | LSkipStart => tl p end.

(** Depth of the last vertex of a walk; -1 for the empty walk. *)
Definition node_depth (p : node V) : Z := (Z.of_nat (length p) - 1)%Z.

(** The stored predecessor and label of the last vertex of a walk. *)
Definition pred_node (pred : pm_t PM) (p : node V) : Prop :=
  match p with
  | [] => False
  | [(_, s)] => pm_get PM (vid s) pred = Some s
  | (_, n) :: (_, u) :: _ => pm_get PM (vid n) pred = Some u
  end.

(** Edges for which the traversal with trace gives the right label: the edge is the only one of its source, or some edge of the walk
    is not the first one of its source (see DESIGN.md, findings, for the others). *)
Definition safe_edge (p : node V) : Prop :=
  match p with
  | (_, _) :: (_, u) :: _ => length (next u) = 1 \/ exists x, In x (removelast p) /\ fst x <> 0
  | _ => True
  end.

Definition label_node (always : bool) (labels : pm_t LM) (p : node V) : Prop :=
  match p with
  | (i, n) :: (_, u) :: _ => exists l, pm_get LM (vid n) labels = Some l /\
                             (always = true \/ safe_edge p -> nth_error (next u) i = Some (n, l))
  | _ => True
  end.

(** Labels along a walk, last edge first. *)
Inductive trace_labels_ok : node V -> list L -> Prop :=
| tlo_nil : trace_labels_ok [] []
| tlo_root k s : trace_labels_ok [(k, s)] []
| tlo_edge i n j u p l ls :
    trace_labels_ok ((j, u) :: p) ls -> (safe_edge ((i, n) :: (j, u) :: p) -> nth_error (next u) i = Some (n, l)) ->
    trace_labels_ok ((i, n) :: (j, u) :: p) (l :: ls).

(** Predecessors and labels that are stored for [paths]. *)
Definition stored (always : bool) (log : log_t V) (cur : node V) (pred : pm_t PM) (labels : pm_t LM) : Prop :=
  dc_build_paths cfg = true -> marks_gaps PM ->
  match dfs_policy with
  | PTree _ => forall q, entered log q -> pred_node pred q /\ (dc_labeled cfg = true -> label_node always labels q)
  | PPaths => length starts = 1 -> forall d q, cur = d ++ q -> q <> [] ->
                pred_node pred q /\ (dc_labeled cfg = true -> label_node always labels q)
  | PWalks => tree_like vid next starts ->
              forall q, entered log q -> pred_node pred q /\ (dc_labeled cfg = true -> label_node always labels q)
  end.

(** What both implementations show at an event; [log]: the log including this event. *)
Record sees (always : bool) (log : log_t V) (e : log_event) (p : node V) (rep : report) : Prop := {
  se_depth : fr_depth rep = if dc_compute_depth cfg then node_depth (current e p) else (-1)%Z;
  se_visited : match dfs_policy with
               | PTree P => forall i, vs_mem VS i (fr_visited rep) = true <-> P i \/ entered_id vid log i
               | _ => True
               end;
  se_stored : stored always log (current e p) (fr_pred rep) (fr_labels rep)
}.

(** What the implementation with trace shows in addition. *)
Record sees_trace (log : log_t V) (e : log_event) (p : node V) (rep : report) : Prop := {
  st_trace : fr_trace rep = rev (verts p);
  st_labels : dc_labeled cfg = true -> trace_labels_ok p (rev (fr_trace_labels rep));
  st_on_trace : dc_compute_on_trace cfg = true -> forall i, vs_mem VS i (fr_on_trace rep) = true <-> In i (ids vid (current e p));
  st_index : dc_compute_index cfg = true ->
             match dfs_policy with
             | PTree _ => forall l1 b j v q l2, log = l1 ++ (LEnter b, (j, v) :: q) :: l2 ->
                 dm_get XM (vid v) (fr_index rep) = (Z.of_nat (length (enters l2)) + 1)%Z
             | _ => True
             end
}.

(** [reports see log os]: [os] (most recent first) reports exactly the requested events of [log] (most recent first). Edges of
    an entered vertex are followed, unless it is reported and the consumer decides to skip them. *)
Inductive reports (see : log_t V -> log_event -> node V -> report -> Prop) : log_t V -> list report -> Prop :=
| rs_nil : reports see [] []
| rs_hidden log os e p :
    reports see log os -> shown e p = None -> (forall b, e = LEnter b -> b = true) -> reports see ((e, p) :: log) os
| rs_shown log os e j v p rep :
    reports see log os -> shown e ((j, v) :: p) = fr_event rep -> fr_event rep <> None -> fr_vertex rep = v ->
    see ((e, (j, v) :: p) :: log) e ((j, v) :: p) rep ->
    (forall b, e = LEnter b -> b = negb (skip (length os))) -> reports see ((e, (j, v) :: p) :: log) (rep :: os).
End DFSReports.
