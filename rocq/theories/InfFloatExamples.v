(** Example data for C119. *)
From Coq Require Import List ZArith Bool Arith Lia.
From Verif Require Import Machine GearSpec GearProofs Common Weight WeightSpec DijkstraModel InfModel InfSpec InfNumModel FloatModel SignedFloat InfFloatSpec.
Import ListNotations.
Local Open Scope nat_scope.

(** The float m * 2^k of Python; the unit of the model is 2^-1074. *)
Definition sf (m k : Z) : w_t PySigned := sfloat_of 53 py_largest (m * 2 ^ (k + 1074))%Z.
Opaque sf.
Definition sf_zero : w_t PySigned := w_zero PySigned.

(** The edges 0-1: 1.5, 0-2: 2^52 + 3, 0-3: 2^52 + 3, 1-3: 2^52 + 2 *)
Definition rounded_edge (v k : nat) : option (nat * w_t PySigned) :=
  match v, k with
  | 0, 0 => Some (1, sf 3 (-1))
  | 0, 1 => Some (2, sf 4503599627370499 0)
  | 0, 2 => Some (3, sf 4503599627370499 0)
  | 1, 0 => Some (3, sf 4503599627370498 0)
  | _, _ => None
  end.
(** Infinitely many edges: 0-1: 0.5, 0-2: 0.75, and 0-3, 0-4, ...: 2.0; 1-2: 0.125 *)
Definition many_edge (v k : nat) : option (nat * w_t PySigned) :=
  match v, k with
  | 0, 0 => Some (1, sf 1 (-1))
  | 0, 1 => Some (2, sf 3 (-2))
  | 0, _ => Some (S k, sf 2 0)
  | 1, 0 => Some (2, sf 1 (-3))
  | _, _ => None
  end.
Definition fs_dec : forall a b : nat * nat, {a = b} + {a <> b}.
Proof. decide equality; apply Nat.eq_dec. Defined.
Definition fs_DM : DMap (nat * nat) (w_t PySigned) (w_inf PySigned) := HashDMap fs_dec (w_inf PySigned).
Definition fs_PM : PMap (nat * nat) (nat * nat) := HashPMap fs_dec.
Definition fs_LM : PMap (nat * nat) unit := HashPMap fs_dec.
Definition fs_run edge (starts : list nat) n := num_run Nat.eq_dec PySigned (s_sub 53 py_largest) edge fs_DM fs_PM fs_LM starts None n.

Definition float_edges_ok (edge : nat -> nat -> option (nat * w_t PySigned)) : Prop :=
  (forall v k, edge v k = None -> edge v (S k) = None) /\
  (forall v k u a u' b, edge v k = Some (u, a) -> edge v (S k) = Some (u', b) -> w_leb PySigned a b = true) /\
  (forall v k u a, edge v k = Some (u, a) -> w_leb PySigned sf_zero a = true).
Lemma rounded_edge_ok : float_edges_ok rounded_edge.
Proof.
  assert (A0 : w_leb PySigned sf_zero (sf 3 (-1)) = true) by (vm_compute; reflexivity).
  assert (A1 : w_leb PySigned (sf 3 (-1)) (sf 4503599627370499 0) = true) by (vm_compute; reflexivity).
  assert (A2 : w_leb PySigned (sf 4503599627370499 0) (sf 4503599627370499 0) = true) by (vm_compute; reflexivity).
  assert (A3 : w_leb PySigned sf_zero (sf 4503599627370499 0) = true) by (vm_compute; reflexivity).
  assert (A4 : w_leb PySigned sf_zero (sf 4503599627370498 0) = true) by (vm_compute; reflexivity).
  unfold float_edges_ok, rounded_edge. revert A0 A1 A2 A3 A4. generalize sf_zero, (sf 3 (-1)), (sf 4503599627370499 0), (sf 4503599627370498 0). intros x0 x1 x2 x3 A0 A1 A2 A3 A4.
  split; [|split].
  - intros [|[|v]] [|[|[|k]]]; solve [discriminate | reflexivity | intros _; reflexivity].
  - intros [|[|v]] [|[|[|k]]] u a u' b; try discriminate; intros E1 E2; try discriminate; injection E1 as <- <-; injection E2 as <- <-; assumption.
  - intros [|[|v]] [|[|[|k]]] u a; try discriminate; intros E1; injection E1 as <- <-; assumption.
Qed.
Lemma many_edge_ok : float_edges_ok many_edge.
Proof.
  assert (A0 : w_leb PySigned sf_zero (sf 1 (-1)) = true) by (vm_compute; reflexivity).
  assert (A1 : w_leb PySigned (sf 1 (-1)) (sf 3 (-2)) = true) by (vm_compute; reflexivity).
  assert (A2 : w_leb PySigned (sf 3 (-2)) (sf 2 0) = true) by (vm_compute; reflexivity).
  assert (A3 : w_leb PySigned (sf 2 0) (sf 2 0) = true) by (vm_compute; reflexivity).
  assert (A4 : w_leb PySigned sf_zero (sf 3 (-2)) = true) by (vm_compute; reflexivity).
  assert (A5 : w_leb PySigned sf_zero (sf 2 0) = true) by (vm_compute; reflexivity).
  assert (A6 : w_leb PySigned sf_zero (sf 1 (-3)) = true) by (vm_compute; reflexivity).
  unfold float_edges_ok, many_edge. revert A0 A1 A2 A3 A4 A5 A6. generalize sf_zero, (sf 1 (-1)), (sf 3 (-2)), (sf 2 0), (sf 1 (-3)). intros x0 x1 x2 x3 x4 A0 A1 A2 A3 A4 A5 A6.
  split; [|split].
  - intros [|[|v]] [|[|[|k]]]; solve [discriminate | reflexivity | intros _; reflexivity].
  - intros [|[|v]] [|[|[|k]]] u a u' b; try discriminate; intros E1 E2; try discriminate; injection E1 as <- <-; injection E2 as <- <-; assumption.
  - intros [|[|v]] [|[|[|k]]] u a; try discriminate; intros E1; injection E1 as <- <-; assumption.
Qed.

(** All weights are multiples of 2^1071 units and at most 2^1075 units. *)
Definition many_weight (w : w_t PySigned) : bool := match s_value w with Some z => (z mod 2 ^ 1071 =? 0) && (z <=? 2 ^ 1075) | None => false end%Z.
Lemma many_weights v k u w : many_edge v k = Some (u, w) -> many_weight w = true /\ v <= 1.
Proof.
  assert (A0 : many_weight (sf 1 (-1)) = true) by (vm_compute; reflexivity).
  assert (A1 : many_weight (sf 3 (-2)) = true) by (vm_compute; reflexivity).
  assert (A2 : many_weight (sf 2 0) = true) by (vm_compute; reflexivity).
  assert (A3 : many_weight (sf 1 (-3)) = true) by (vm_compute; reflexivity).
  unfold many_edge. revert A0 A1 A2 A3. generalize (sf 1 (-1)), (sf 3 (-2)), (sf 2 0), (sf 1 (-3)). intros x0 x1 x2 x3 A0 A1 A2 A3.
  destruct v as [|[|v]], k as [|[|[|k]]]; try discriminate; intros E1; injection E1 as <- <-; split; auto.
Qed.
Lemma many_fin (a : sfin 53 py_largest) : many_weight (Finite 53 py_largest a) = true -> (2 ^ 1071 | sfin_value 53 py_largest a)%Z /\ (sfin_value 53 py_largest a <= 2 ^ 1075)%Z.
Proof.
  unfold many_weight. cbn [s_value]. generalize (sfin_value 53 py_largest a). intros z H. apply andb_true_iff in H. destruct H as (H1 & H2). apply Z.eqb_eq in H1. apply Z.leb_le in H2.
  split; [|exact H2]. apply Z.mod_divide; [|exact H1]. apply Z.pow_nonzero; [discriminate|]. discriminate.
Qed.
Lemma many_edge_multiple v k u a : many_edge v k = Some (u, Finite 53 py_largest a) -> (2 ^ 1071 | sfin_value 53 py_largest a)%Z.
Proof. intros E. apply many_fin. apply (many_weights v k u _ E). Qed.
Lemma many_first : exact_edge 53 py_largest many_edge 0 0 = Some (1, Some (2 ^ 1073)%Z).
Proof. vm_compute. reflexivity. Qed.
Lemma many_edge_small v k u a d : many_edge v k = Some (u, Finite 53 py_largest a) -> is_distance ZInfWeights (inf_edge (exact_edge 53 py_largest many_edge)) (fun s => In s [0]) v (Some d) ->
  (sfin_value 53 py_largest a + d < 2 ^ (53 + 1071) /\ sfin_value 53 py_largest a + d <= py_largest)%Z.
Proof.
  intros E (_ & Hm). destruct (many_weights v k u _ E) as (W & Hv). apply many_fin in W. destruct W as (_ & Ha). clear E.
  assert (Hp : (0 <= 2 ^ 1073)%Z) by (vm_compute; discriminate).
  assert (Hd : (d <= 2 ^ 1073)%Z).
  { pose proof many_first as He. revert Hp He. generalize (2 ^ 1073)%Z. intros P Hp He. destruct v as [|[|v]]; [| |lia].
    - specialize (Hm 0 [] (or_introl eq_refl) (wwalk_nil _ _ 0)). apply Z.leb_le in Hm. lia.
    - specialize (Hm 0 [(Some P, 1)] (or_introl eq_refl)). assert (Hw : w_leb ZInfWeights (Some d) (walk_weight ZInfWeights [(Some P, 1)]) = true).
      { apply Hm. eapply wwalk_cons; [exists 0; exact He|apply wwalk_nil]. }
      apply Z.leb_le in Hw. lia. }
  assert (H1 : (2 ^ 1075 + 2 ^ 1073 < 2 ^ (53 + 1071))%Z) by (vm_compute; reflexivity).
  assert (H2 : (2 ^ 1075 + 2 ^ 1073 <= py_largest)%Z) by (vm_compute; discriminate).
  clear - Ha Hd H1 H2. generalize dependent (sfin_value 53 py_largest a). intros z Ha. set (A := (2 ^ 1075)%Z) in *. set (B := (2 ^ 1073)%Z) in *. set (C := (2 ^ (53 + 1071))%Z) in *. set (D := py_largest) in *. clearbody A B C D. lia.
Qed.
