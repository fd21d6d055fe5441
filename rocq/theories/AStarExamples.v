(** Concrete graphs and heuristics for A*. *)
From Coq Require Import List ZArith Arith Bool Lia.
From Verif Require Import Machine GearSpec Spec TraversalSpec Weight WeightSpec Common PathsModel DijkstraModel AStarModel AStarSpec AStarProofs Examples.
Import ListNotations.

Definition ast_default : ast_cfg := {| ac_is_tree := false; ac_build_paths := true; ac_labeled := true |}.

(** The direct edge from 0 to 2 is longer than the path over 1. *)
Definition as_next (v : nat) : list (nat * option Z * nat) :=
  match v with
  | 0 => [(1, Some 1%Z, 1); (2, Some 4%Z, 2)]
  | 1 => [(2, Some 1%Z, 12)]
  | 2 => [(3, Some 2%Z, 23)]
  | 3 => [(4, Some 2%Z, 34)]
  | _ => []
  end.

Ltac graph_go H :=
  simpl in H; repeat match type of H with _ \/ _ => destruct H as [H|H] end;
  try contradiction; try discriminate; try (injection H; clear H; intros; subst); try discriminate.
Ltac graph_case H :=
  match type of H with In _ (map _ (_ ?t)) =>
    let rec var t := match t with S ?u => var u | ?u => u end in
    let i := var t in destruct i as [|?]; [graph_go H|]
  end.
Ltac graph_cases n H :=
  match n with
  | O => try (simpl in H; contradiction)
  | S ?m => graph_case H; [..|graph_cases m H]
  end.

Lemma as_next_nonneg : nonnegative ZI (@wgraph_of nat ZI as_next).
Proof. intros i w j H. unfold wgraph_of in H. graph_cases 4 H; reflexivity. Qed.

(** Admissible for goal 4, not consistent: from 1 to 2, the estimation goes down by 5. *)
Definition as_h (v : nat) : option Z := match v with 1 => Some 5%Z | _ => Some 0%Z end.

Lemma as_h_finite : finite_estimates ZI as_h.
Proof. intros i. do 2 (destruct i as [|i]; [reflexivity|]). reflexivity. Qed.

(** Consistent. *)
Definition as_hc (v : nat) : option Z :=
  match v with 0 => Some 5%Z | 1 => Some 5%Z | 2 => Some 4%Z | 3 => Some 2%Z | _ => Some 0%Z end.
Lemma as_hc_finite : finite_estimates ZI as_hc.
Proof. intros i. do 4 (destruct i as [|i]; [reflexivity|]). reflexivity. Qed.
Lemma as_hc_consistent : consistent ZI (@wgraph_of nat ZI as_next) as_hc.
Proof. intros i w j H. unfold wgraph_of in H. graph_cases 4 H; reflexivity. Qed.

Lemma as_h_admissible : admissible ZI (@wgraph_of nat ZI as_next) as_h (fun i => i = 4).
Proof.
  intros i p g Hw ->. assert (H : w_leb ZI (as_hc i) (w_add ZI (walk_weight ZI p) (Some 0%Z)) = true)
    by exact (consistent_walk _ _ exact_ZInfWeights _ as_hc_consistent i p 4 Hw).
  apply (w_leb_trans ZI _ (as_hc i)).
  - do 4 (destruct i as [|i]; [reflexivity|]). reflexivity.
  - destruct (walk_weight ZI p) as [z|]; [|destruct (as_hc i); reflexivity].
    change (w_leb ZI (as_hc i) (Some (z + 0)%Z) = true) in H. now rewrite Z.add_0_r in H.
Qed.

(** 0 -> 2 with weight 5, 0 -> 1 -> 2 with weights 1, 1; the goal cannot be reached from 2. *)
Definition ai_next (v : nat) : list (nat * w_t ZI * unit) :=
  match v with 0 => [(2, Some 5%Z, tt); (1, Some 1%Z, tt)] | 1 => [(2, Some 1%Z, tt)] | _ => [] end.
Definition ai_h (v : nat) : w_t ZI := match v with 2 => None | _ => Some 0%Z end.

Lemma ast_infinite_estimates :
  exists (next : nat -> list (nat * w_t ZI * unit)) (h : nat -> w_t ZI) (n : nat) s,
  let E := wgraph_of (WT := ZI) next in
  nonnegative ZI E /\ consistent ZI E h /\ admissible ZI E h (fun i => i = 9) /\
  map (fun rep => (ar_vertex rep, ar_path_length rep, ar_depth rep))
    (fst (ast_run id_nat ZI hDMZ hPM hPM next ast_default h [0] None None None n))
  = [(1, Some 1%Z, 1); (2, Some 2%Z, 2); (2, Some 2%Z, 1)] /\
  snd (ast_run id_nat ZI hDMZ hPM hPM next ast_default h [0] None None None n) = Ended s /\
  iter_vertices_from_start Nat.eq_dec id_nat hPM (a_pred s) 5 2 = POk [0; 1; 2].
Proof.
  exists ai_next, ai_h, 40. eexists. cbv zeta. split; [|split; [|split; [|split; [|split]]]].
  - intros i w j H. unfold wgraph_of in H. graph_cases 2 H; reflexivity.
  - intros i w j H. unfold wgraph_of in H. graph_cases 2 H; reflexivity.
  - intros i p g Hw ->.
    assert (Hi : i = 9 /\ p = [] \/ False).
    { remember 9 as g eqn:Hg. induction Hw as [i|i w j p k He Hw IH]; auto. destruct (IH Hg) as [[-> _]|[]].
      unfold wgraph_of in He. graph_cases 2 He. }
    destruct Hi as [[-> ->]|[]]. reflexivity.
  - vm_compute. reflexivity.
  - vm_compute. reflexivity.
  - vm_compute. reflexivity.
Qed.

Definition ao_next (v : nat) : list (nat * w_t ZI * unit) :=
  match v with 0 => [(1, Some 1%Z, tt); (2, Some 2%Z, tt)] | _ => [] end.
Definition ao_h (v : nat) : w_t ZI := match v with 1 => Some 5%Z | _ => Some 0%Z end.

Lemma ast_order :
  exists (next : nat -> list (nat * w_t ZI * unit)) (h : nat -> w_t ZI) (n : nat),
  let E := wgraph_of (WT := ZI) next in
  nonnegative ZI E /\ consistent ZI E h /\ finite_estimates ZI h /\ admissible ZI E h (fun i => i = 2) /\
  map (fun rep => (ar_vertex rep, ar_path_length rep))
    (fst (ast_run id_nat ZI hDMZ hPM hPM next ast_default h [0] None None None n))
  = [(2, Some 2%Z); (1, Some 1%Z)].
Proof.
  exists ao_next, ao_h, 40. cbv zeta. split; [|split; [|split; [|split]]].
  - intros i w j H. unfold wgraph_of in H. graph_cases 1 H; reflexivity.
  - intros i w j H. unfold wgraph_of in H. graph_cases 1 H; reflexivity.
  - intros i. do 2 (destruct i as [|i]; [reflexivity|]). reflexivity.
  - intros i p g Hw ->.
    assert (Hi : (i = 2 /\ p = []) \/ (i = 0 /\ p = [(Some 2%Z, 2)])).
    { remember 2 as g eqn:Hg. induction Hw as [i|i w j p k He Hw IH]; subst; auto. right.
      unfold wgraph_of in He. graph_cases 1 He.
      - destruct (IH eq_refl) as [[? _]|[? _]]; discriminate.
      - destruct (IH eq_refl) as [[_ ->]|[? _]]; [auto|discriminate]. }
    destruct Hi as [[-> ->]|[-> ->]]; reflexivity.
  - vm_compute. reflexivity.
Qed.
