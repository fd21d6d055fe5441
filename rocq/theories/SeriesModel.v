(** Model of programs that use one set for the option already_visited of several traversals, one after the other (documented for option [already_visited] in breadth_first.py:209-226,
    neighbors_then_depth.py, depth_first.py: "If provided, this set is used instead of an internal one to keep vertex ids, that have already been visited").  Each traversal starts with the set in the
    state in which the one before it has left it, may be of another strategy, and need not be run to its end. *)
From Coq Require Import List Bool ZArith.
From Verif Require Import Machine Common GearSpec Spec TraversalSpec BFSModel NTDModel DFSModel.
Import ListNotations.

Section Series.
Context {V I L : Type}.
Variable V_dec : forall a b : V, {a = b} + {a <> b}.
Variable vid : V -> I.
Variable VS : VSet I.
Variable PM : PMap I V.
Variable LM : PMap I L.
Variable XM : DMap I Z 0%Z.
Variable next : V -> list (V * L).

(** A traversal: its options, the start vertices, calculation_limit, and how many passes of its loop are executed until the program leaves it. *)
Inductive round :=
| RBreadthFirst (cfg : bfs_cfg) (starts : list V) (lim : option Z) (n : nat)
| RNeighborsThenDepth (cfg : ntd_cfg) (starts : list V) (lim : option Z) (n : nat)
| RDepthFirst (cfg : dfs_cfg) (starts : list V) (n : nat).

Definition round_starts (r : round) : list V :=
  match r with RBreadthFirst _ s _ _ => s | RNeighborsThenDepth _ s _ _ => s | RDepthFirst _ s _ => s end.

(** breadth_first.py:229-262, neighbors_then_depth.py:218-256, depth_first.py:301-398 and the loops: the reported vertices, whether the traversal has come to its end, and the set
    afterwards.  Simplification: skip_expanding_entered_vertex is not called. *)
Definition round_run (shared : vs_t VS) (r : round) : list V * bool * vs_t VS :=
  match r with
  | RBreadthFirst cfg starts lim n =>
      let '(os, r) := bfs_run vid VS PM LM next cfg starts (Some shared) lim n in
      (map br_vertex os, match r with Ended _ => true | _ => false end, b_visited (outcome_state r))
  | RNeighborsThenDepth cfg starts lim n =>
      let '(os, r) := ntd_run vid VS PM LM next cfg starts (Some shared) lim n in
      (map nr_vertex os, match r with Ended _ => true | _ => false end, n_visited (outcome_state r))
  | RDepthFirst cfg starts n =>
      if dfs_uses_trace cfg
      then let '(os, r) := dfs_run V_dec vid VS PM LM XM next cfg (fun _ => false) starts (Some shared) None n in
           (map fr_vertex os, match r with Ended _ => true | _ => false end, f_visited (outcome_state r))
      else let '(os, r) := dfw_run V_dec vid VS PM LM XM next cfg (fun _ => false) starts (Some shared) None n in
           (map fr_vertex os, match r with Ended _ => true | _ => false end, w_visited (outcome_state r))
  end.

(** The reports of each of the rounds; have all traversals come to their end?; the set at the end *)
Fixpoint series (shared : vs_t VS) (rs : list round) : list (list V) * bool * vs_t VS :=
  match rs with
  | [] => ([], true, shared)
  | r :: rest =>
      let '(os, e, s1) := round_run shared r in
      let '(oss, e', s2) := series s1 rest in (os :: oss, e && e', s2)
  end.

(** Options that are covered: is_tree is not chosen; reports are entered vertices (breadth first search: report_depth_increase is not chosen; depth first search: mode DFS_TREE, the
    reported events are ENTERING_SUCCESSOR, and possibly ENTERING_START). *)
Definition round_ok (r : round) : Prop :=
  match r with
  | RBreadthFirst cfg _ _ _ => bc_is_tree cfg = false /\ bc_report_depth_increase cfg = false
  | RNeighborsThenDepth cfg _ _ _ => nc_is_tree cfg = false
  | RDepthFirst cfg _ _ => (exists o, dfs_options o true = inl cfg) /\ dc_mode cfg = DFS_TREE /\ dc_is_tree cfg = false /\
      (forall ev, dc_report cfg ev = true -> ev = ENTERING_START \/ ev = ENTERING_SUCCESSOR) /\ dc_report cfg ENTERING_SUCCESSOR = true
  end.

(** The vertices a traversal starts from.  Depth first search ignores start vertices that are already visited. *)
Definition starts_from (visited : I -> Prop) (r : round) (i : I) : Prop :=
  match r with
  | RDepthFirst _ starts _ => is_start vid starts i /\ ~ visited i
  | _ => is_start vid (round_starts r) i
  end.
End Series.
Arguments RBreadthFirst {V}. Arguments RNeighborsThenDepth {V}. Arguments RDepthFirst {V}. Arguments round : clear implicits.
