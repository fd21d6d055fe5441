(** TraversalAStar with floats (C98). *)
From Coq Require Import List ZArith Bool Lia.
From Verif Require Import Machine GearSpec Spec TraversalSpec Common PathsModel Weight WeightSpec HeapModel DijkstraModel AStarModel FloatModel FloatSpec FloatProofs AStarRounded.
Import ListNotations.
Local Open Scope Z_scope.

Section AStarFloat.
Context {V I L : Type}.
Variable I_dec : forall a b : I, {a = b} + {a <> b}.
Variable vid : V -> I.
Variables prec largest : Z.
Hypothesis Hprec : 1 <= prec.
Hypothesis Hlarge : 0 <= largest.
Notation FW := (FloatWeights prec largest Hprec Hlarge).
Notation value := (fin_value prec largest).
Notation esum := (exact_sum prec largest).
Notation B := (2 ^ prec).
Variables (DM : DMap I (w_t FW) (w_inf FW)) (PM : PMap I V) (LM : PMap I L).
Variable next : V -> list (V * w_t FW * L).
Variable cfg : ast_cfg.
Hypothesis Ht : ac_is_tree cfg = false.
Variable E : I -> w_t FW -> I -> Prop.
Hypothesis HE : presents_weighted FW vid next E.
Variable heuristic : V -> w_t FW.
Variable h : I -> w_t FW.
Hypothesis Hh : forall v, heuristic v = h (vid v).
Variable starts : list V.
Notation St := (is_start vid starts).

Lemma float_rounded : rounded FW.
Proof.
  constructor.
  - intros [a|] [b|]; try reflexivity. cbn. now rewrite Z.add_comm.
  - intros [a|]; reflexivity.
  - intros [a|]; reflexivity.
  - intros [a|]; [|reflexivity]. change (float_of prec largest (0 + value a) = Some a). rewrite Z.add_0_l. destruct (fin_spec prec largest a) as [Ha Hr].
    pose proof (float_of_spec prec largest Hprec (value a) ltac:(lia)) as HS. rewrite Hr in HS. destruct (float_of _ _ _) as [b|]; [|lia].
    f_equal. apply fin_eq. tauto.
Qed.

Lemma up_exponent k k' a x : (k <= k')%nat -> 0 <= x -> at_most_up prec k a x -> at_most_up prec k' a x.
Proof using Hprec.
  intros Hk Hx HU. induction Hk as [|k' _ IH]; [exact HU|]. unfold at_most_up in *. rewrite !pow_S. pose proof (B_pos prec Hprec) as HB.
  pose proof (pow_mono_nat B (B + 1) k' ltac:(lia)). nia.
Qed.

Lemma up_right k a x y : x <= y -> at_most_up prec k a x -> at_most_up prec k a y.
Proof using Hprec.
  intros Hk HU. unfold at_most_up in *. pose proof (B_pos prec Hprec) as HB.
  pose proof (pow_mono_nat B (B + 1) k ltac:(lia)). nia.
Qed.

Lemma esum_app (p q : list (option (fin prec largest) * I)) :
  esum (p ++ q) = match esum p, esum q with Some x, Some y => Some (x + y) | _, _ => None end.
Proof.
  induction p as [|[[a|] j] p IH]; cbn [app exact_sum].
  - destruct (esum q); reflexivity.
  - rewrite IH. destruct (esum p), (esum q); try reflexivity. f_equal. lia.
  - reflexivity.
Qed.

Lemma fh_nonneg i : w_leb FW (w_zero FW) (h i) = true.
Proof. destruct (h i) as [y|]; [|reflexivity]. cbn. apply Z.leb_le. apply value_nonneg. Qed.

Section Goal.
Variable Goal : I -> Prop.
Hypothesis Hgs : forall i, St i -> ~ Goal i.
Hypothesis Hadm : float_admissible prec largest Hprec Hlarge E h Goal.

Lemma goal_upper (f : fin prec largest) q1 q2 v s g x :
  wwalk FW E s (q1 ++ q2) g -> Goal g -> wwalk FW E s q1 v -> wwalk FW E v q2 g -> esum (q1 ++ q2) = Some x ->
  w_leb FW (Some f) (w_add FW (walk_weight FW q1) (h v)) = true ->
  at_most_up prec (pred (length (q1 ++ q2))) (value f) x.
Proof using Hadm.
  intros _ Hg Hw1 Hw2 Hx Hle. rewrite esum_app in Hx. destruct (esum q1) as [x1|] eqn:E1; [|discriminate].
  destruct (esum q2) as [x2|] eqn:E2; [|discriminate]. injection Hx as <-.
  destruct (Hadm v q2 g x2 Hw2 Hg E2) as (y & Hy & Hy2). rewrite Hy in Hle.
  pose proof (esum_nonneg prec largest q1 x1 E1) as N1. pose proof (esum_nonneg prec largest q2 x2 E2) as N2.
  pose proof (fin_spec prec largest f) as [Hf _]. pose proof (fin_spec prec largest y) as [Hy0 _]. pose proof (rsum_nonneg prec largest q1) as Hr0.
  pose proof (walk_weight_rsum prec largest Hprec Hlarge q1) as HW. rewrite app_length.
  assert (Hcase : (length q1 <= pred (length q1 + length q2))%nat \/ q2 = []) by (destruct q2; [now right|left; cbn [length]; lia]).
  assert (HU : value f <= rsum prec largest q1 \/ value f <= round prec (value y + rsum prec largest q1)).
  { destruct (walk_weight FW q1) as [w1|] eqn:EW.
    - right. destruct HW as [HW _]. change (w_add FW (Some w1) (Some y)) with (float_of prec largest (value w1 + value y)) in Hle.
      rewrite Z.add_comm, <- HW. pose proof (float_of_spec prec largest Hprec (value w1 + value y) ltac:(lia)) as HS.
      destruct (float_of _ _ _) as [r|]; [|lia]. cbn in Hle. apply Z.leb_le in Hle. lia.
    - left. specialize (HW x1 E1). lia. }
  destruct HU as [HU|HU].
  - eapply at_most_up_mono; [exact Hprec|exact HU|]. apply up_right with x1; [lia|]. apply up_exponent with (pred (length q1)); [lia|lia|].
    now apply rsum_errors.
  - destruct Hcase as [Hk| ->].
    + pose proof (rsum_errors prec largest Hprec (q1 ++ [(Some y, v)]) (x1 + value y)) as HR.
      rewrite esum_snoc, E1 in HR. destruct (HR eq_refl) as [HR1 _]. rewrite rsum_snoc in HR1. unfold rsum_step in HR1. cbn [fst] in HR1.
      rewrite app_length, Nat.add_1_r in HR1. cbn [pred] in HR1. eapply at_most_up_mono; [exact Hprec|exact HU|].
      apply up_right with (x1 + value y); [lia|]. apply up_exponent with (length q1); [exact Hk|lia|exact HR1].
    + cbn in E2. injection E2 as <-. assert (Hy1 : value y = 0) by lia. rewrite Hy1, Z.add_0_l, (rsum_round prec largest Hprec) in HU.
      cbn [length]. rewrite Nat.add_0_r, Z.add_0_r. eapply at_most_up_mono; [exact Hprec|exact HU|]. now apply rsum_errors.
Qed.

Theorem float_first_goal lim n os r os1 rep os2 :
  ast_run vid FW DM PM LM next cfg heuristic starts None None lim n = (os, r) -> os = os1 ++ rep :: os2 ->
  (forall r', In r' os1 -> ~ Goal (vid (ar_vertex r'))) -> Goal (vid (ar_vertex rep)) ->
  exists f, ar_path_length rep = Some f /\
    (exists s p x, St s /\ wwalk FW E s p (vid (ar_vertex rep)) /\ walk_weight FW p = Some f /\ esum p = Some x /\ at_most_down prec (pred (length p)) x (value f)) /\
    (forall s q g x, St s -> Goal g -> wwalk FW E s q g -> esum q = Some x -> at_most_up prec (pred (length q)) (value f) x).
Proof using All.
  intros HR Hos Hfirst Hgoal.
  destruct (ast_first_goal I_dec vid FW DM PM LM next cfg Ht E HE (float_nonnegative prec largest Hprec Hlarge E) float_rounded heuristic h Hh fh_nonneg
    starts Goal Hgs lim n os r HR os1 rep os2 Hos Hfirst Hgoal) as ((s & p & Hs & Hw & Hp) & Hfin & _ & Hall).
  destruct (ar_path_length rep) as [f|]; [|discriminate Hfin]. exists f. split; [reflexivity|]. split.
  - pose proof (walk_weight_rsum prec largest Hprec Hlarge p) as HW. rewrite Hp in HW. destruct HW as [HW (x & Hx)].
    exists s, p, x. do 4 (split; [assumption|]). rewrite HW. now apply rsum_errors.
  - intros s' q g x Hs' Hg Hq Hx. pose proof (walk_weight_rsum prec largest Hprec Hlarge q) as HW.
    destruct (walk_weight FW q) as [w|] eqn:EW.
    + destruct (Hall s' q g Hs' Hg Hq) as (q1 & q2 & v & -> & H1 & H2 & Hle); [now rewrite EW|]. eapply goal_upper; eauto.
      eapply w_leb_trans; [|exact Hle]. apply add_infl_r; [exact float_rounded|apply fh_nonneg].
    + specialize (HW x Hx). pose proof (fin_spec prec largest f) as [Hf _]. eapply at_most_up_mono; [exact Hprec| |now apply rsum_errors]. lia.
Qed.
End Goal.

(** Without goals: at the first report of a vertex, its path length plus its estimation is nearly minimal. *)
Theorem float_first_report (Hcons : float_consistent prec largest E h) lim n os r os1 rep os2 :
  ast_run vid FW DM PM LM next cfg heuristic starts None None lim n = (os, r) -> os = os1 ++ rep :: os2 ->
  ~ In (vid (ar_vertex rep)) (ast_ids vid os1) -> ~ St (vid (ar_vertex rep)) ->
  exists f e, ar_path_length rep = Some f /\ h (vid (ar_vertex rep)) = Some e /\
    (exists s p x, St s /\ wwalk FW E s p (vid (ar_vertex rep)) /\ walk_weight FW p = Some f /\ esum p = Some x /\ at_most_down prec (pred (length p)) x (value f)) /\
    (forall s q x, St s -> wwalk FW E s q (vid (ar_vertex rep)) -> esum q = Some x ->
       (B - 1) * B ^ Z.of_nat (length q) * (value f + value e) <= B * (B + 1) ^ Z.of_nat (length q) * (x + value e)).
Proof using I_dec Ht HE Hh.
  intros HR Hos Hfirst Hns.
  assert (Hg' : forall i, St i -> ~ (fun i => i = vid (ar_vertex rep)) i) by (cbv beta; intros i Hi ->; contradiction).
  assert (Hf' : forall r', In r' os1 -> ~ (fun i => i = vid (ar_vertex rep)) (vid (ar_vertex r'))).
  { cbv beta. intros r' Hr' Heq. apply Hfirst. rewrite <- Heq. unfold ast_ids. apply in_map_iff. now exists r'. }
  destruct (ast_first_goal I_dec vid FW DM PM LM next cfg Ht E HE (float_nonnegative prec largest Hprec Hlarge E) float_rounded heuristic h Hh fh_nonneg
    starts _ Hg' lim n os r HR os1 rep os2 Hos Hf' eq_refl) as ((s & p & Hs & Hw & Hp) & Hfin & Hgf & Hall).
  destruct Hcons as [Hhf Hcons]. destruct (Hhf (vid (ar_vertex rep))) as (e & He). rewrite He in *. specialize (Hgf eq_refl).
  destruct (ar_path_length rep) as [f|]; [|discriminate Hfin]. exists f, e. do 2 (split; [reflexivity|]). split.
  - pose proof (walk_weight_rsum prec largest Hprec Hlarge p) as HW. rewrite Hp in HW. destruct HW as [HW (x & Hx)].
    exists s, p, x. do 4 (split; [assumption|]). rewrite HW. now apply rsum_errors.
  - change (w_add FW (Some f) (Some e)) with (float_of prec largest (value f + value e)) in *.
    pose proof (value_nonneg prec largest f) as F0. pose proof (value_nonneg prec largest e) as E0.
    pose proof (float_of_spec prec largest Hprec (value f + value e) ltac:(lia)) as HS.
    destruct (float_of prec largest (value f + value e)) as [b|]; [|discriminate Hgf]. destruct HS as [Hb _].
    pose proof (round_down prec Hprec (value f + value e) ltac:(lia)) as HD. rewrite <- Hb in HD.
    assert (Hwalk : forall q u j x, wwalk FW E u q j -> esum q = Some x -> forall a, h j = Some a -> exists c, h u = Some c /\ value c <= x + value a).
    { intros q u j x Hq. revert x. induction Hq as [i|i w j q k He' Hq IH]; intros x Hx a Ha.
      - exists a. injection Hx as <-. split; [exact Ha|lia].
      - cbn [exact_sum] in Hx. destruct w as [w|]; [|discriminate]. destruct (esum q) as [y|]; [|discriminate]. injection Hx as <-.
        destruct (IH y eq_refl a Ha) as (c & Hc & Hle). destruct (Hhf i) as (c' & Hc'). exists c'. split; [exact Hc'|].
        pose proof (Hcons i w j c' c He' Hc' Hc). lia. }
    intros s' q x Hs' Hq Hx. pose proof (esum_nonneg prec largest q x Hx) as X0. pose proof (B_pos prec Hprec) as HB.
    assert (HU : exists k, (k <= length q)%nat /\ at_most_up prec k (value b) (x + value e)).
    { pose proof (walk_weight_rsum prec largest Hprec Hlarge q) as HW. destruct (walk_weight FW q) as [w|] eqn:EW.
      - destruct (Hall s' q _ Hs' eq_refl Hq) as (q1 & q2 & u & -> & H1 & H2 & Hle); [now rewrite EW|].
        rewrite esum_app in Hx. destruct (esum q1) as [x1|] eqn:E1; [|discriminate]. destruct (esum q2) as [x2|] eqn:E2; [|discriminate]. injection Hx as <-.
        destruct (Hwalk q2 u _ x2 H2 E2 e He) as (c & Hc & Hcle). rewrite Hc in Hle. pose proof (value_nonneg prec largest c) as C0.
        pose proof (esum_nonneg prec largest q1 x1 E1) as N1. pose proof (fin_spec prec largest b) as [Hb0 _]. pose proof (rsum_nonneg prec largest q1) as Hr0.
        pose proof (walk_weight_rsum prec largest Hprec Hlarge q1) as HW1.
        pose proof (rsum_errors prec largest Hprec (q1 ++ [(Some c, u)]) (x1 + value c)) as HR'.
        rewrite esum_snoc, E1 in HR'. destruct (HR' eq_refl) as [HR1 _]. rewrite rsum_snoc in HR1. unfold rsum_step in HR1. cbn [fst] in HR1.
        rewrite app_length, Nat.add_1_r in HR1. cbn [pred] in HR1.
        exists (length q1). split; [rewrite app_length; lia|]. apply up_right with (x1 + value c); [lia|]. eapply at_most_up_mono; [exact Hprec| |exact HR1].
        destruct (walk_weight FW q1) as [w1|] eqn:EW1.
        + destruct HW1 as [HW1 _]. change (w_add FW (Some w1) (Some c)) with (float_of prec largest (value w1 + value c)) in Hle.
          rewrite Z.add_comm, <- HW1. pose proof (float_of_spec prec largest Hprec (value w1 + value c) ltac:(lia)) as HS.
          destruct (float_of _ _ (value w1 + value c)) as [r'|]; [|lia]. cbn in Hle. apply Z.leb_le in Hle. lia.
        + specialize (HW1 x1 E1). assert (round prec (rsum prec largest q1) <= round prec (value c + rsum prec largest q1)) by (apply round_mono; lia).
          rewrite (rsum_round prec largest Hprec) in H. lia.
      - specialize (HW x Hx). exists (pred (length q)). split; [lia|]. pose proof (fin_spec prec largest b) as [Hb0 _].
        apply up_right with x; [lia|]. eapply at_most_up_mono; [exact Hprec| |now apply rsum_errors]. lia. }
    destruct HU as (k & Hk & HU). apply (up_exponent k (length q)) in HU; [|exact Hk|lia]. unfold at_most_up in HU.
    pose proof (pow_mono_nat B (B + 1) (length q) ltac:(lia)) as P1. nia.
Qed.
Theorem float_all_reported lim n os s' :
  ast_run vid FW DM PM LM next cfg heuristic starts None None lim n = (os, Ended s') ->
  forall s p i, St s -> wwalk FW E s p i -> ~ St i -> In i (ast_ids vid os).
Proof using I_dec Ht HE Hh.
  intros HR s p i Hs Hw Hn. unfold ast_ids. apply in_map_iff.
  destruct (ast_rounded_complete I_dec vid FW DM PM LM next cfg Ht E HE (float_nonnegative prec largest Hprec Hlarge E) float_rounded heuristic h Hh fh_nonneg
    starts (fun _ => False) (fun _ _ HF => HF) lim n os s' HR s p i Hs Hw Hn) as (rep & Hr & Hv). exists rep. auto.
Qed.
End AStarFloat.

(** A consistent heuristic that is zero for goals is admissible. *)
Lemma consistent_admissible {I : Type} prec largest (Hprec : 1 <= prec) (Hlarge : 0 <= largest) (E : I -> option (fin prec largest) -> I -> Prop) h (Goal : I -> Prop) :
  float_consistent prec largest E h -> (forall g, Goal g -> exists a, h g = Some a /\ fin_value prec largest a = 0) ->
  float_admissible prec largest Hprec Hlarge E h Goal.
Proof.
  intros [Hf Hc] Hz i q g x Hq Hg. revert x. destruct (Hz g Hg) as (a & Ha & Ha0). induction Hq as [i|i w j q k He Hq IH]; intros x Hx.
  - exists a. injection Hx as <-. split; [exact Ha|lia].
  - cbn [exact_sum] in Hx. destruct w as [w|]; [|discriminate]. destruct (exact_sum prec largest q) as [y|]; [|discriminate]. injection Hx as <-.
    destruct (IH Hg Ha y eq_refl) as (c & Hcj & Hle). destruct (Hf i) as (c' & Hc'). exists c'. split; [exact Hc'|].
    pose proof (Hc i w j c' c He Hc' Hcj). lia.
Qed.

