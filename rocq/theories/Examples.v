(** Concrete gears and graphs, used to show that the hypotheses of the theorems can be met. *)
From Coq Require Import List ZArith Arith Bool Lia.
From Verif Require Import GearSpec GearModel GearProofs Spec TraversalSpec BFSModel.
Import ListNotations.

(** Hash based gear for natural numbers as vertices and ids. *)
Definition hVS : VSet nat := HashVSet Nat.eq_dec.
Definition hPM {A} : PMap nat A := HashPMap Nat.eq_dec.
Definition hDM {W} (inf : W) : DMap nat W inf := HashDMap Nat.eq_dec inf.

(** Bit packed gear ([GearForIntVertexIDs] with bit packing, _gears.py:541-560). *)
Definition bit_cfg : wcfg := {| w_extend_size := 128; w_by_template := true; w_pre_allocate := 0 |}.
Lemma bit_cfg_ok : wcfg_ok bit_cfg. Proof. unfold wcfg_ok; simpl; lia. Qed.
Definition bVS : VSet nat := BitVSet bit_cfg bit_cfg_ok.
Definition list_cfg : wcfg := {| w_extend_size := 1024; w_by_template := false; w_pre_allocate := 0 |}.
Lemma list_cfg_ok : wcfg_ok list_cfg. Proof. unfold wcfg_ok; simpl. apply Nat.lt_0_succ. Qed.
Definition bPM {A} : PMap nat A := SeqPMapNone list_cfg list_cfg_ok.

(** The graph of a neighbor function on natural numbers. *)
Definition graph_of {L} (next : nat -> list (nat * L)) (i j : nat) : Prop := In j (map fst (next i)).

Lemma presents_graph_of {L} (next : nat -> list (nat * L)) :
  presents (fun v : nat => v) next (graph_of next).
Proof. unfold presents, graph_of. intros. tauto. Qed.

(** A graph with a diamond, a cycle, a loop and an unreachable vertex; labels are numbers. *)
Definition g_next (v : nat) : list (nat * nat) :=
  match v with
  | 0 => [(1, 10); (2, 20); (2, 21)]
  | 1 => [(3, 13)]
  | 2 => [(3, 23); (2, 22)]
  | 3 => [(4, 34); (0, 30)]
  | 5 => [(0, 50)]
  | _ => []
  end.

(** An infinite graph: v -> 2v+1, 2v+2. *)
Definition inf_next (v : nat) : list (nat * unit) := [(2 * v + 1, tt); (2 * v + 2, tt)].

Definition bfs_default : bfs_cfg :=
  {| bc_is_tree := false; bc_build_paths := true; bc_labeled := true; bc_report_depth_increase := false |}.

(** ** Weighted graphs *)
From Verif Require Import Weight WeightSpec DijkstraModel.

(** The weighted graph of a neighbor function on natural numbers. *)
Definition wgraph_of {L} {WT : Weights} (next : nat -> list (nat * w_t WT * L)) (i : nat) (w : w_t WT) (j : nat) : Prop :=
  In (w, j) (map (fun e => (snd (fst e), fst (fst e))) (next i)).

Lemma presents_wgraph_of {L} {WT : Weights} (next : nat -> list (nat * w_t WT * L)) :
  presents_weighted WT (fun v : nat => v) next (wgraph_of next).
Proof. unfold presents_weighted, wgraph_of. intros. tauto. Qed.

(** Integers with infinity (None). *)
Definition ZI : Weights := ZInfWeights.

Lemma wgraph_nonneg {L} (next : nat -> list (nat * option Z * L)) :
  (forall i e, In e (next i) -> w_leb ZI (Some 0%Z) (snd (fst e)) = true) ->
  nonnegative ZI (@wgraph_of L ZI next).
Proof.
  intros H i w j Hin. unfold wgraph_of in Hin. apply in_map_iff in Hin.
  destruct Hin as (e & Heq & Hin). injection Heq as <- <-. exact (H i e Hin).
Qed.

(** A graph in which the vertex 3 is first found with a longer path; 5 is not reachable from 0. *)
Definition w_next (v : nat) : list (nat * option Z * nat) :=
  match v with
  | 0 => [(1, Some 4%Z, 10); (2, Some 1%Z, 20)]
  | 1 => [(3, Some 1%Z, 13)]
  | 2 => [(1, Some 2%Z, 21); (3, Some 8%Z, 23); (2, Some 0%Z, 22)]
  | 3 => [(0, Some 7%Z, 30); (4, Some 0%Z, 34)]
  | 5 => [(0, Some 1%Z, 50)]
  | _ => []
  end.
Lemma w_next_nonneg : nonnegative ZI (@wgraph_of nat ZI w_next).
Proof.
  apply wgraph_nonneg. intros i e Hin.
  do 6 (destruct i as [|i]; [simpl in Hin; intuition (subst; reflexivity)|]). contradiction.
Qed.

(** Infinite: v -> v+1 with weight 1, v -> 2v with weight 2. *)
Definition winf_next (v : nat) : list (nat * option Z * unit) := [(S v, Some 1%Z, tt); (2 * v, Some 2%Z, tt)].
Lemma winf_next_nonneg : nonnegative ZI (@wgraph_of unit ZI winf_next).
Proof. apply wgraph_nonneg. intros i e [<-|[<-|[]]]; reflexivity. Qed.

Definition hDMZ : DMap nat (option Z) None := hDM None.
Definition dij_default : dij_cfg :=
  {| dc_is_tree := false; dc_build_paths := true; dc_labeled := true; dc_keep_distances := true |}.
Definition dij_plain : dij_cfg :=
  {| dc_is_tree := false; dc_build_paths := true; dc_labeled := true; dc_keep_distances := false |}.
Notation id_nat := (fun v : nat => v).
