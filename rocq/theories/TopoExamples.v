(** Example graphs for topological sort. *)
From Coq Require Import List ZArith Bool Arith Lia.
From Verif Require Import Machine GearSpec Spec TraversalSpec Common DFSSpec TopoModel TopoSpec Examples.
Import ListNotations.

Definition topo_default : topo_cfg := {| tc_is_tree := false; tc_build_paths := true; tc_labeled := true |}.
Definition topo_tree : topo_cfg := {| tc_is_tree := true; tc_build_paths := true; tc_labeled := true |}.

Definition topo_try (cfg : topo_cfg) (next : nat -> list (nat * nat)) (starts : list nat) (n : nat) :=
  topo_run (fun v => v) hVS hPM hPM next cfg starts None None n.
Notation reported_vertices p := (map tr_vertex (fst p)).

(** Tasks 0 to 4, each with the tasks it depends on; 5 depends on 0. *)
Definition dag_next (v : nat) : list (nat * nat) :=
  match v with
  | 0 => [(1, 1); (2, 2)]
  | 1 => [(3, 13)]
  | 2 => [(3, 23); (4, 24)]
  | 3 => [(4, 34)]
  | 5 => [(0, 50)]
  | _ => []
  end.

Lemma dag_independent : independent (graph_of dag_next) (is_start (fun v : nat => v) [0]).
Proof. intros i j p [<-|[]] [<-|[]] H. tauto. Qed.

(** The cycle 1, 2. From 0 an edge leads to 1, and a further one to 3, and from 3 to 1. *)
Definition loop_next (v : nat) : list (nat * nat) :=
  match v with
  | 0 => [(1, 1); (3, 3)]
  | 1 => [(2, 12)]
  | 2 => [(1, 21)]
  | 3 => [(1, 31)]
  | _ => []
  end.

Lemma loop_independent : independent (graph_of loop_next) (is_start (fun v : nat => v) [0]).
Proof. intros i j p [<-|[]] [<-|[]] H. tauto. Qed.

(** 1 depends on 0, and vice versa. *)
Definition two_next (v : nat) : list (nat * nat) :=
  match v with
  | 0 => [(1, 1)]
  | 1 => [(0, 10)]
  | _ => []
  end.
(** 3 depends on 0, and 0 and 1 depend on each other; 0 depends on 4, too. *)
Definition tail_next (v : nat) : list (nat * nat) :=
  match v with
  | 0 => [(4, 4); (1, 1)]
  | 1 => [(0, 10)]
  | 3 => [(0, 30)]
  | _ => []
  end.
(** 1 depends on 0. *)
Definition dep_next (v : nat) : list (nat * nat) :=
  match v with
  | 1 => [(0, 10)]
  | _ => []
  end.

Definition topo_got {S X R : Type} (r : R * outcome S X) : option (option X) :=
  match snd r with Running _ => None | Ended _ => Some None | Raised x _ => Some (Some x) end.
