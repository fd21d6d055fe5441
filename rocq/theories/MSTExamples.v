(** Concrete graphs for minimum spanning trees. *)
From Coq Require Import List ZArith Arith Bool Lia.
From Verif Require Import Machine GearSpec Spec TraversalSpec Weight WeightSpec Common MSTModel MSTSpec Examples AStarExamples.
Import ListNotations.

Definition mst_default : mst_cfg := {| mc_build_paths := true; mc_labeled := true |}.

(** A circle 0 - 1 - 2 - 3 - 0 with a chord 0 - 2. *)
Definition mst_next (v : nat) : list (nat * option Z * nat) :=
  match v with
  | 0 => [(1, Some 1%Z, 1); (2, Some 4%Z, 2); (3, Some 5%Z, 3)]
  | 1 => [(0, Some 1%Z, 10); (2, Some 1%Z, 12)]
  | 2 => [(1, Some 1%Z, 21); (0, Some 4%Z, 20); (3, Some 2%Z, 23)]
  | 3 => [(2, Some 2%Z, 32); (0, Some 5%Z, 30)]
  | _ => []
  end.

Lemma mst_next_nonneg : nonnegative ZI (@wgraph_of nat ZI mst_next).
Proof. intros i w j H. unfold wgraph_of in H. graph_cases 4 H; reflexivity. Qed.
Lemma mst_next_undirected : undirected ZI (@wgraph_of nat ZI mst_next).
Proof. intros i w j H. unfold wgraph_of in H. graph_cases 4 H; unfold wgraph_of; simpl; tauto. Qed.

(** Equal weights. *)
Definition tie_next (v : nat) : list (nat * option Z * unit) :=
  match v with
  | 0 => [(1, Some 1%Z, tt); (2, Some 1%Z, tt)]
  | 1 => [(0, Some 1%Z, tt); (3, Some 1%Z, tt)]
  | 2 => [(0, Some 1%Z, tt)]
  | 3 => [(1, Some 1%Z, tt)]
  | _ => []
  end.

Lemma mst_ties :
  exists (next : nat -> list (nat * w_t ZI * unit)),
  undirected ZI (@wgraph_of unit ZI next) /\
  In (2, Some 1%Z, tt) (next 0) /\ In (3, Some 1%Z, tt) (next 1) /\
  match mst_run id_nat ZI hVS hPM hPM next mst_default [0] None 100 with
  | (os, Ended s) =>
      map mr_vertex os = [1; 2; 3] /\ rev (m_calls s) = [0; 1; 2; 3] /\
      map (fun rep => option_map fst (mr_edge rep)) os = [Some 0; Some 0; Some 1]
  | _ => False
  end.
Proof.
  exists tie_next. split.
  - intros i w j H. unfold wgraph_of in H. graph_cases 4 H; unfold wgraph_of; simpl; tauto.
  - split; [simpl; auto|]. split; [simpl; auto|]. vm_compute. auto.
Qed.
