(** Proofs about the search graph of the traveling salesman problem. *)
From Coq Require Import List ZArith Bool Lia Permutation.
From Verif Require Import Machine GearSpec Common TraversalSpec PathsModel PathModel PathSpec Weight WeightSpec BiSPModel BiSPSpec BiSPSide BiSPProofs BiSPMore BiSPPaths BiSPRun
  TspModel TspSpec TspBits.
Import ListNotations.
Local Open Scope Z_scope.
Notation ZI := ZInfWeights.

Lemma zi_walk_cons {I} w (j : I) p : walk_weight ZI ((w, j) :: p) = w_add ZI w (walk_weight ZI p).
Proof. apply (walk_weight_cons ZI ZInfWeights_exact). Qed.

Section Graph.
Variables forth back : list (list (option Z)).
Variable N : nat.
Notation n := (Z.of_nat N).
Hypothesis HN : (2 <= N)%nat.
Hypothesis Hsym : forall v w, 0 <= v < n -> 0 <= w < n -> cell back v w = cell forth w v.
Hypothesis Hfpos : forall v w x, cell forth v w = Some x -> 0 <= x.
Hypothesis Hbpos : forall v w x, cell back v w = Some x -> 0 <= x.

Notation nextf := (next_edges_forwards forth N).
Notation nextb := (next_edges_backwards back N).
Definition TE (i : Z) (w : option Z) (j : Z) : Prop := In (j, w) (map fst (nextf i)).
Definition TB (i : Z) (w : option Z) (j : Z) : Prop := In (j, w) (map fst (nextb i)).

Lemma TE_presents : presents_weighted ZI (fun s => s) nextf TE.
Proof.
  intros v w j. unfold TE. rewrite !in_map_iff. split.
  - intros ([[x y] l] & Heq & Hin). simpl in Heq. injection Heq as -> ->. exists (j, w, l). auto.
  - intros ([[x y] l] & Heq & Hin). simpl in Heq. injection Heq as -> ->. exists (j, w, l). auto.
Qed.
Lemma TB_presents : presents_weighted ZI (fun s => s) nextb TB.
Proof.
  intros v w j. unfold TB. rewrite !in_map_iff. split.
  - intros ([[x y] l] & Heq & Hin). simpl in Heq. injection Heq as -> ->. exists (j, w, l). auto.
  - intros ([[x y] l] & Heq & Hin). simpl in Heq. injection Heq as -> ->. exists (j, w, l). auto.
Qed.
Lemma TE_nonneg : nonnegative ZI TE.
Proof.
  intros i w j H. unfold TE in H. apply in_map_iff in H. destruct H as ([[x y] l] & Heq & Hin). simpl in Heq. injection Heq as -> ->.
  apply edges_to_weight in Hin. destruct Hin as (u & ->). destruct (cell forth (i mod n) u) as [x|] eqn:Ec; simpl; auto. apply Hfpos in Ec. now apply Z.leb_le.
Qed.
Lemma TB_nonneg : nonnegative ZI TB.
Proof.
  intros i w j H. unfold TB in H. apply in_map_iff in H. destruct H as ([[x y] l] & Heq & Hin). simpl in Heq. injection Heq as -> ->.
  apply edges_to_weight in Hin. destruct Hin as (u & ->). destruct (cell back (i mod n) u) as [x|] eqn:Ec; simpl; auto. apply Hbpos in Ec. now apply Z.leb_le.
Qed.

(** The state for vertex [v], and [S] left to visit. *)
Definition st (S v : Z) : Z := v + S * n.
Lemma st_div S v : 0 <= v < n -> st S v / n = S.
Proof. intros Hv. unfold st. rewrite Z.div_add by lia. rewrite Z.div_small by lia. lia. Qed.
Lemma st_mod S v : 0 <= v < n -> st S v mod n = v.
Proof. intros Hv. unfold st. rewrite Z.mod_add by lia. now apply Z.mod_small. Qed.

(** States that occur: the vertex is not left to visit, the first vertex never is; at the first vertex, either everything or nothing is left. *)
Definition valid (S v : Z) : Prop :=
  0 <= v < n /\ 0 <= S < 2 ^ n /\ Z.testbit S 0 = false /\ Z.testbit S v = false /\ (v = 0 -> S = 0 \/ S = 2 ^ n - 1 - 1).
Notation S0 := (2 ^ n - 1 - 1).

Lemma S0_bit k : 0 <= k -> Z.testbit S0 k = (k <? n) && negb (k =? 0).
Proof.
  intros Hk. rewrite complement_bit by (try lia; pose proof (Z.pow_lt_mono_r 2 0 n); lia).
  rewrite <- (pow2_bit 0 k (Z.le_refl 0) Hk). reflexivity.
Qed.

Lemma S0_range : 0 <= S0 < 2 ^ n.
Proof. assert (2 ^ 1 <= 2 ^ n) by (apply Z.pow_le_mono_r; lia). simpl in H. lia. Qed.

Lemma valid_start : valid S0 0.
Proof. split; [lia|]. split; [exact S0_range|]. rewrite S0_bit by lia. rewrite andb_false_r. auto. Qed.
Lemma valid_goal : valid 0 0.
Proof. split; [lia|]. split; [|rewrite Z.bits_0; auto]. split; [lia|]. apply Z.pow_pos_nonneg; lia. Qed.
Lemma start_is : start_state N = st S0 0.
Proof. unfold start_state, st. rewrite Z.shiftl_1_l. lia. Qed.
Lemma goal_is : goal_state N = st 0 0.
Proof. reflexivity. Qed.

Lemma zero_bits S : 0 <= S -> (forall k, 0 <= k -> Z.testbit S k = false) -> S = 0.
Proof. intros HS H. apply Z.bits_inj'. intros k Hk. rewrite Z.bits_0. auto. Qed.

(** The forward edges *)
Lemma TE_shape S v w j : valid S v ->
  (TE (st S v) w j <->
   (S <> 0 /\ exists u, 0 < u < n /\ Z.testbit S u = true /\ v <> u /\ cell forth v u <> None /\ w = cell forth v u /\ j = st (S - 2 ^ u) u) \/
   (S = 0 /\ v <> 0 /\ cell forth v 0 <> None /\ w = cell forth v 0 /\ j = st 0 0)).
Proof.
  intros (Hv & HS & H0 & Hvb & _). unfold TE. rewrite in_map_iff.
  assert (Hin : (exists x, fst x = (j, w) /\ In x (nextf (st S v))) <-> In (j, w, tt) (nextf (st S v))).
  { split; [intros ([[a b] []] & Heq & Hin); simpl in Heq; injection Heq as -> ->; exact Hin|intros Hin; exists (j, w, tt); auto]. }
  rewrite Hin. unfold next_edges_forwards. rewrite st_div, st_mod by auto.
  set (tv := if S =? 0 then 1 else S).
  assert (Htv : 0 <= tv) by (unfold tv; destruct (S =? 0); lia).
  rewrite edges_to_in by (apply land_range; [lia|exact Htv|apply adjacent_range]).
  assert (Hbit : forall u, 0 <= u -> (Z.testbit (Z.land tv (adjacent forth N v)) u = true <-> Z.testbit tv u = true /\ u < n /\ v <> u /\ cell forth v u <> None)).
  { intros u Hu. rewrite Z.land_spec, andb_true_iff, adjacent_bit by auto. tauto. }
  unfold tv in *. destruct (Z.eqb_spec S 0) as [HSz|HSz].
  - split.
    + intros (u & Hu & Hb & Hj & Hw). apply Hbit in Hb; auto. destruct Hb as (Hb & H1 & H2 & H3). change 1 with (2 ^ 0) in Hb. rewrite pow2_bit in Hb by lia.
      apply Z.eqb_eq in Hb. subst u. right. split; auto.
    + intros [[C _]|(_ & H1 & H2 & H3 & H4)]; [contradiction|]. exists 0. split; [lia|]. split; [|auto]. apply Hbit; [lia|]. split; [reflexivity|]. split; [lia|auto].
  - split.
    + intros (u & Hu & Hb & Hj & Hw). apply Hbit in Hb; auto. destruct Hb as (Hb & H1 & H2 & H3). left. split; auto. exists u.
      assert (u <> 0) by (intros ->; congruence). split; [lia|]. rewrite Z.shiftl_1_l in Hj. auto.
    + intros [(_ & u & Hu & Hb & H1 & H2 & H3 & H4)|[C _]]; [|contradiction]. exists u. split; [lia|]. rewrite Z.shiftl_1_l. split; [|auto].
      apply Hbit; [lia|]. split; [auto|]. split; [lia|auto].
Qed.

Lemma valid_remove S v u : valid S v -> 0 < u < n -> Z.testbit S u = true -> valid (S - 2 ^ u) u.
Proof.
  intros (Hv & HS & H0 & Hvb & _) Hu Hb. split; [lia|]. assert (2 ^ u <= S) by (apply bit_positive; (assumption || lia)). assert (0 < 2 ^ u) by (apply Z.pow_pos_nonneg; lia).
  split; [lia|]. rewrite !remove_bit by (assumption || lia). rewrite H0, Z.eqb_refl, andb_false_r. split; auto. split; auto. lia.
Qed.

Lemma TE_valid S v w j : valid S v -> TE (st S v) w j -> exists S' v', valid S' v' /\ j = st S' v' /\ S' <> S0 /\ exists x, w = Some x /\ cell forth v v' = Some x.
Proof.
  intros HV HE. pose proof HV as (Hv & HS & H0 & Hvb & _). apply TE_shape in HE; auto. destruct HE as [(HSz & u & Hu & Hb & H1 & H2 & H3 & H4)|(HSz & H1 & H2 & H3 & H4)].
  - exists (S - 2 ^ u), u. split; [now apply (valid_remove S v)|]. split; auto. split.
    + intros C. assert (Hc : Z.testbit (S - 2 ^ u) u = Z.testbit S0 u) by (rewrite C; reflexivity).
      rewrite remove_bit, S0_bit, Z.eqb_refl, andb_false_r in Hc by (assumption || lia). destruct (Z.ltb_spec u n); [|lia]. destruct (Z.eqb_spec u 0); [lia|discriminate].
    + destruct (cell forth v u) as [x|]; [|contradiction]. eauto.
  - exists 0, 0. split; [exact valid_goal|]. split; auto. split.
    + assert (2 ^ 2 <= 2 ^ n) by (apply Z.pow_le_mono_r; lia). simpl in H. lia.
    + destruct (cell forth v 0) as [x|]; [|contradiction]. eauto.
Qed.

Lemma TE_walk_valid s p j : wwalk ZI TE s p j -> forall S v, s = st S v -> valid S v -> exists S' v', valid S' v' /\ j = st S' v' /\ exists x, walk_weight ZI p = Some x.
Proof.
  intros H. induction H as [i|i w j p k HE Hw IH]; intros S v -> HV; [exists S, v; repeat (split; auto); exists 0; reflexivity|].
  destruct (TE_valid S v w j HV HE) as (S1 & v1 & HV1 & -> & _ & x & -> & _). destruct (IH S1 v1 eq_refl HV1) as (S2 & v2 & HV2 & -> & y & Hy).
  exists S2, v2. split; auto. split; auto. rewrite zi_walk_cons, Hy. simpl. eauto.
Qed.

(** The backward edges *)
Lemma TB_shape S v w j : valid S v -> S <> S0 ->
  (TB (st S v) w j <->
   exists u, 0 < u < n /\ Z.testbit S u = false /\ v <> u /\ cell forth u v <> None /\ w = cell forth u v /\ j = st (if v =? 0 then S else S + 2 ^ v) u).
Proof.
  intros (Hv & HS & H0 & Hvb & _) HS0. unfold TB. rewrite in_map_iff.
  assert (Hin : (exists x, fst x = (j, w) /\ In x (nextb (st S v))) <-> In (j, w, tt) (nextb (st S v))).
  { split; [intros ([[a b] []] & Heq & Hin); simpl in Heq; injection Heq as -> ->; exact Hin|intros Hin; exists (j, w, tt); auto]. }
  rewrite Hin. unfold next_edges_backwards. rewrite st_div, st_mod by auto. rewrite !Z.shiftl_1_l.
  destruct (Z.eqb_spec (2 ^ n - 1 - S) 1) as [C|_]; [exfalso; lia|].
  assert (Hc0 : Z.testbit (2 ^ n - 1 - S) 0 = true). { rewrite complement_bit, H0 by lia. destruct (Z.ltb_spec 0 n); [reflexivity|lia]. }
  assert (Hcp : 1 <= 2 ^ n - 1 - S). { apply (bit_positive (2 ^ n - 1 - S) 0); [lia|lia|exact Hc0]. }
  rewrite edges_to_in by (apply land_range; [lia|lia|apply adjacent_range]).
  assert (Hbit : forall u, 0 <= u -> (Z.testbit (Z.land (2 ^ n - 1 - S - 1) (adjacent back N v)) u = true <-> u <> 0 /\ Z.testbit S u = false /\ u < n /\ v <> u /\ cell back v u <> None)).
  { intros u Hu. rewrite Z.land_spec, andb_true_iff, adjacent_bit by auto. change 1 with (2 ^ 0) at 2. rewrite remove_bit by (assumption || lia).
    rewrite complement_bit by lia. destruct (Z.ltb_spec u n), (Z.eqb_spec u 0), (Z.testbit S u); simpl; intuition (congruence || lia). }
  split.
  - intros (u & Hu & Hb & Hj & Hw). apply Hbit in Hb; auto. destruct Hb as (Hb & H1 & H2 & H3 & H4). exists u. rewrite <- (Hsym v u) by lia. split; [lia|]. auto.
  - intros (u & Hu & Hb & H1 & H2 & H3 & H4). rewrite <- (Hsym v u) in * by lia. exists u. split; [lia|]. split; [|auto]. apply Hbit; [lia|]. repeat (split; [lia || auto|]). auto.
Qed.

Lemma TB_valid S v w j : valid S v -> S <> S0 -> TB (st S v) w j -> exists S' u, valid S' u /\ S' <> S0 /\ j = st S' u /\ TE (st S' u) w (st S v) /\ exists x, w = Some x.
Proof.
  intros HV HS0 HB. pose proof HV as (Hv & HS & H0 & Hvb & Hv0). apply TB_shape in HB; auto. destruct HB as (u & Hu & Hb & H1 & H2 & H3 & ->).
  assert (Hval : forall T, 0 <= T < 2 ^ n -> Z.testbit T 0 = false -> Z.testbit T u = false -> valid T u /\ T <> S0).
  { intros T HT HT0 HTu. split; [split; [lia|]; split; auto; split; auto; split; auto; lia|]. intros ->. rewrite S0_bit in HTu by lia.
    destruct (Z.ltb_spec u n), (Z.eqb_spec u 0); try lia; discriminate. }
  assert (Hw : exists x, w = Some x) by (destruct (cell forth u v) as [x|]; [subst; eauto|contradiction]).
  destruct (Z.eqb_spec v 0) as [->|Hvz].
  - destruct Hv0 as [->|]; [reflexivity| |contradiction]. destruct (Hval 0) as [HT1 HT2]; auto.
    exists 0, u. split; auto. split; auto. split; auto. split; [|exact Hw]. apply TE_shape; auto. right. auto.
  - assert (HT : 0 <= S + 2 ^ v < 2 ^ n).
    { assert (0 < 2 ^ v) by (apply Z.pow_pos_nonneg; lia). split; [lia|]. apply bits_below; [lia|lia|]. intros k Hk. rewrite add_bit by (assumption || lia).
      rewrite (below_bit n) by lia. destruct (Z.eqb_spec k v); [lia|reflexivity]. }
    destruct (Hval (S + 2 ^ v)) as [HT1 HT2]; auto.
    { rewrite add_bit, H0 by (assumption || lia). destruct (Z.eqb_spec 0 v); [lia|reflexivity]. }
    { rewrite add_bit, Hb by (assumption || lia). destruct (Z.eqb_spec u v); [lia|reflexivity]. }
    exists (S + 2 ^ v), u. split; auto. split; auto. split; auto. split; [|exact Hw]. apply TE_shape; auto. left. split.
    + intros C. assert (0 < 2 ^ v) by (apply Z.pow_pos_nonneg; lia). lia.
    + exists v. split; [lia|]. split; [rewrite add_bit, Z.eqb_refl by (assumption || lia); apply orb_true_r|]. split; auto. split; auto. split; auto. f_equal. lia.
Qed.

Lemma TB_walk_valid s p j : wwalk ZI TB s p j -> forall S v, s = st S v -> valid S v -> S <> S0 ->
  exists S' v', valid S' v' /\ S' <> S0 /\ j = st S' v' /\ exists x, walk_weight ZI p = Some x.
Proof.
  intros H. induction H as [i|i w j p k HE Hw IH]; intros S v -> HV HS; [exists S, v; repeat (split; auto); exists 0; reflexivity|].
  destruct (TB_valid S v w j HV HS HE) as (S1 & v1 & HV1 & HS1 & -> & _ & x & ->). destruct (IH S1 v1 eq_refl HV1 HS1) as (S2 & v2 & HV2 & HS2 & -> & y & Hy).
  exists S2, v2. split; auto. split; auto. split; auto. rewrite zi_walk_cons, Hy. simpl. eauto.
Qed.

Lemma goal_not_S0 : 0 <> S0.
Proof. assert (2 ^ 2 <= 2 ^ n) by (apply Z.pow_le_mono_r; lia). simpl in H. lia. Qed.

Lemma TB_faithful : faithful (fun s => s) ZI TE TB [goal_state N].
Proof.
  intros g p j w i [Hg|[]] Hw HB. subst g. rewrite goal_is in Hw. destruct (TB_walk_valid _ _ _ Hw 0 0 eq_refl valid_goal goal_not_S0) as (S & v & HV & HS & -> & _).
  destruct (TB_valid S v w i HV HS HB) as (S' & u & _ & _ & -> & HE & _). exact HE.
Qed.

(** Forward edges are also given backwards, except for those of the start state. *)
Lemma TE_TB S v w j : valid S v -> S <> S0 -> TE (st S v) w j -> TB j w (st S v).
Proof.
  intros HV HS0 HE. pose proof HV as (Hv & HS & H0 & Hvb & Hv0). destruct (TE_valid S v w j HV HE) as (S1 & v1 & HV1 & -> & HS1 & _).
  apply TB_shape; auto. apply TE_shape in HE; auto. pose proof HV1 as (Hv1 & _).
  assert (Hst : forall a b c d, 0 <= b < n -> 0 <= d < n -> st a b = st c d -> a = c /\ b = d).
  { intros a b c d Hb Hd Heq. split; [rewrite <- (st_div a b), <- (st_div c d), Heq by auto; reflexivity|rewrite <- (st_mod a b), <- (st_mod c d), Heq by auto; reflexivity]. }
  destruct HE as [(HSz & u & Hu & Hb & H1 & H2 & H3 & H4)|(HSz & H1 & H2 & H3 & H4)].
  - apply Hst in H4; [|lia|lia]. destruct H4 as [-> ->].
    assert (Hvz : v <> 0) by (intros ->; destruct Hv0; auto).
    exists v. split; [lia|]. split; [rewrite remove_bit, Hvb by (assumption || lia); reflexivity|]. split; auto. split; auto. split; auto.
    destruct (Z.eqb_spec u 0); [lia|]. f_equal. lia.
  - apply Hst in H4; [|lia|lia]. destruct H4 as [-> ->]. subst S. exists v. split; [lia|]. split; [apply Z.bits_0|]. auto.
Qed.

(** A walk to the goal state visits what is left to visit, and the first vertex at the end. *)
Lemma walk_route s p j : wwalk ZI TE s p j -> forall S v, s = st S v -> valid S v -> j = goal_state N -> st S v <> goal_state N ->
  exists order c, map (fun e => snd e mod n) p = order ++ [0] /\ Permutation order (elements N S) /\ walk_weight ZI p = Some c /\
    route_length (fun a b => if a =? b then None else cell forth a b) (v :: order ++ [0]) = Some c.
Proof.
  intros H. induction H as [i|i w j p k HE Hw IH]; intros S v -> HV Hj Hne; [contradiction|]. subst k.
  pose proof HV as (Hv & HS & H0 & Hvb & Hv0). pose proof HE as HE'. apply TE_shape in HE; auto.
  destruct HE as [(HSz & u & Hu & Hb & H1 & H2 & H3 & ->)|(HSz & H1 & H2 & H3 & ->)].
  - pose proof (valid_remove S v u HV Hu Hb) as HV1.
    destruct (IH _ _ eq_refl HV1 eq_refl) as (order & c & Hm & HP & Hc & Hr).
    { rewrite goal_is. intros C. assert (Hm : st (S - 2 ^ u) u mod n = st 0 0 mod n) by (rewrite C; reflexivity). rewrite !st_mod in Hm by lia. lia. }
    destruct (cell forth v u) as [x|] eqn:Ec; [|contradiction]. subst w.
    exists (u :: order), (x + c). split; [|split; [|split]].
    + cbn [map snd app]. rewrite st_mod by lia. rewrite Hm. reflexivity.
    + rewrite HP. apply elements_remove; auto. lia.
    + rewrite zi_walk_cons, Hc. reflexivity.
    + cbn [app] in *. cbn [route_length] in *. destruct (Z.eqb_spec v u); [contradiction|]. rewrite Ec, Hr. reflexivity.
  - subst S. inversion Hw as [|i' w' j' p' k' HE1 Hw' E1 E2]; subst.
    + destruct (cell forth v 0) as [x|] eqn:Ec; [|contradiction]. exists [], x. split; [cbn [map snd app]; rewrite st_mod by lia; reflexivity|]. split; [rewrite elements_empty; constructor|].
      split; [unfold walk_weight; cbn [fold_left fst]; simpl; f_equal; lia|].
      cbn [app route_length]. destruct (Z.eqb_spec v 0); [contradiction|]. rewrite Ec. f_equal. lia.
    + exfalso. apply TE_shape in HE1; [|exact valid_goal]. destruct HE1 as [[C _]|(_ & C & _)]; apply C; reflexivity.
Qed.
End Graph.
