(** The search graph of the traversal for infinite branching. *)
From Coq Require Import List ZArith Bool Lia Arith.
From Verif Require Import Weight WeightSpec InfModel InfSpec.
Import ListNotations.

Section InfGraph.
Context {V : Type}.
Variable edge : V -> nat -> option (V * option Z).
Notation state := (V * nat)%type.
Notation ZI := ZInfWeights.
Notation W := (option Z).
Notation add := (w_add ZI).
Notation leb := (w_leb ZI).
Hypothesis Hseq : edge_sequences edge.
Hypothesis Hsort : edges_sorted edge.
Hypothesis Hnn : forall v k u w, edge v k = Some (u, w) -> leb (Some 0%Z) w = true.
Notation E := (inf_edge edge).

(** The weight from the base state of [v] to state [(v, k)]: that of the edge before *)
Definition before (v : V) (k : nat) : option W := match k with 0 => Some (Some 0%Z) | S j => match edge v j with Some (_, a) => Some a | None => None end end.

(** Edges of the search graph, that do not depend on the search *)
Definition snext (st : state) : list (state * W * unit) :=
  let '(v, k) := st in
  match before v k, edge v k with
  | Some a, Some (u, b) => [((u, 0), w_sub b a, tt); ((v, S k), w_sub b a, tt)]
  | _, _ => []
  end.
Definition SE (s : state) (w : W) (t : state) : Prop := In (w, t) (map (fun e => (snd (fst e), fst (fst e))) (snext s)).

Lemma SE_presents : presents_weighted ZI (fun s : state => s) snext SE.
Proof. intros u w j. unfold SE. reflexivity. Qed.

Lemma SE_inv v k w t : SE (v, k) w t -> exists a u b, before v k = Some a /\ edge v k = Some (u, b) /\ w = w_sub b a /\ (t = (u, 0) \/ t = (v, S k)).
Proof.
  unfold SE, snext. destruct (before v k) as [a|]; [|intros []]. destruct (edge v k) as [[u b]|]; [|intros []].
  intros [H|[H|[]]]; injection H as <- <-; exists a, u, b; auto.
Qed.

Lemma before_edge v k u b : edge v k = Some (u, b) -> exists a, before v k = Some a /\ leb (Some 0%Z) a = true /\ leb a b = true.
Proof.
  intros He. destruct k as [|j]; simpl.
  - exists (Some 0%Z). split; auto. split; [reflexivity|eapply Hnn; eauto].
  - destruct (edge v j) as [[u' a]|] eqn:Ej; [|rewrite Hseq in He; auto; discriminate].
    exists a. split; auto. split; [eapply Hnn; eauto|eapply Hsort; eauto].
Qed.

Lemma SE_intro v k u b a t : edge v k = Some (u, b) -> before v k = Some a -> t = (u, 0) \/ t = (v, S k) -> SE (v, k) (w_sub b a) t.
Proof. intros He Hb Ht. unfold SE, snext. rewrite Hb, He. destruct Ht as [->| ->]; simpl; auto. Qed.

Lemma SE_nonneg : nonnegative ZI SE.
Proof.
  intros [v k] w t H. apply SE_inv in H. destruct H as (a & u & b & Hb & He & -> & _). destruct (before_edge _ _ _ _ He) as (a' & Hb' & _ & Hle).
  rewrite Hb in Hb'. injection Hb' as <-. destruct a as [a|], b as [b|]; simpl in *; auto. apply Z.leb_le in Hle. apply Z.leb_le. lia.
Qed.

Lemma E_nonneg : nonnegative ZI E.
Proof. intros v w u (k & He). eapply Hnn; eauto. Qed.

Lemma telescope a b x : leb a b = true -> add (w_sub b a) (add a x) = add b x.
Proof. destruct a as [a|], b as [b|], x as [x|]; simpl; try discriminate; auto. intros _. f_equal. lia. Qed.

Notation wt := (walk_weight ZI).

(** Outer vertices of a walk in the search graph *)
Definition base_vertices (p : list (W * state)) : list V := flat_map (fun e => match snd e with (v, 0) => [v] | _ => [] end) p.

Lemma walk_down s p : forall t, wwalk ZI SE (s, 0) p t -> forall v k, t = (v, k) ->
  exists q a, wwalk ZI E s q v /\ before v k = Some a /\ wt p = add a (wt q) /\ map snd q = base_vertices p.
Proof.
  induction p as [|[w x] p IH] using rev_ind; intros t Hw v k ->.
  - inversion Hw; subst. exists [], (Some 0%Z). repeat split; auto. constructor.
  - apply wwalk_snoc_inv in Hw. destruct Hw as ([v' k'] & Hw & Hs & Ht). subst x.
    destruct (IH _ Hw v' k' eq_refl) as (q & a & Hq & Hb & Hwt & Hm).
    apply SE_inv in Hs. destruct Hs as (a' & u & b & Hb' & He & -> & Ht). rewrite Hb in Hb'. injection Hb' as <-.
    destruct (before_edge _ _ _ _ He) as (a1 & Hb1 & _ & Hle). rewrite Hb in Hb1. injection Hb1 as <-.
    unfold base_vertices. rewrite flat_map_app. fold (base_vertices p). rewrite walk_weight_snoc, Hwt, telescope by auto.
    destruct Ht as [Ht|Ht]; injection Ht as -> ->.
    + exists (q ++ [(b, u)]), (Some 0%Z). split; [eapply wwalk_snoc; eauto; exists k'; auto|]. split; auto. split.
      * rewrite walk_weight_snoc. destruct (add b (wt q)); simpl; auto.
      * rewrite map_app, Hm. reflexivity.
    + exists q, b. split; auto. simpl. rewrite He. split; auto. split; auto. rewrite app_nil_r. exact Hm.
Qed.

Lemma walk_along v k : forall a, before v k = Some a -> exists p, wwalk ZI SE (v, 0) p (v, k) /\ forall x, fold_left (fun d e => add (fst e) d) p x = add a x.
Proof.
  induction k as [|k IH]; intros a Hb.
  - simpl in Hb. injection Hb as <-. exists []. split; [constructor|]. intros [x|]; reflexivity.
  - simpl in Hb. destruct (edge v k) as [[u b]|] eqn:He; [|discriminate]. injection Hb as <-.
    destruct (before_edge _ _ _ _ He) as (a1 & Hb1 & _ & Hle). destruct (IH a1 Hb1) as (p & Hp & Hx).
    exists (p ++ [(w_sub b a1, (v, S k))]). split.
    + eapply wwalk_snoc; eauto. eapply SE_intro; eauto.
    + intros x. rewrite fold_left_app, Hx. cbn [fold_left fst]. now apply telescope.
Qed.

Lemma walk_edge v k u b : edge v k = Some (u, b) -> exists p, wwalk ZI SE (v, 0) p (u, 0) /\ forall x, fold_left (fun d e => add (fst e) d) p x = add b x.
Proof.
  intros He. destruct (before_edge _ _ _ _ He) as (a1 & Hb1 & _ & Hle). destruct (walk_along v k a1 Hb1) as (p & Hp & Hx).
  exists (p ++ [(w_sub b a1, (u, 0))]). split.
  - eapply wwalk_snoc; eauto. eapply SE_intro; eauto.
  - intros x. rewrite fold_left_app, Hx. cbn [fold_left fst]. now apply telescope.
Qed.

Lemma walk_up s q v : wwalk ZI E s q v -> exists p, wwalk ZI SE (s, 0) p (v, 0) /\ forall x, fold_left (fun d e => add (fst e) d) p x = fold_left (fun d e => add (fst e) d) q x.
Proof.
  induction 1 as [i|i w j q k (n & He) Hw (p & Hp & Hx)]; [exists []; split; [constructor|reflexivity]|].
  destruct (walk_edge _ _ _ _ He) as (p1 & Hp1 & Hx1). exists (p1 ++ p). split; [eapply wwalk_app; eauto|].
  intros x. rewrite fold_left_app, Hx1, Hx. reflexivity.
Qed.

Section Starts.
Variable St : V -> Prop.
Definition SSt (t : state) : Prop := snd t = 0 /\ St (fst t).

Lemma reach_iff v : wreachable ZI SE SSt (v, 0) <-> wreachable ZI E St v.
Proof.
  split.
  - intros ([s k0] & p & [Hk Hs] & Hw). simpl in Hk, Hs. subst k0. destruct (walk_down _ _ _ Hw _ _ eq_refl) as (q & _ & Hq & _). exists s, q. auto.
  - intros (s & q & Hs & Hq). destruct (walk_up _ _ _ Hq) as (p & Hp & _). exists (s, 0), p. split; auto. split; auto.
Qed.

Lemma distance_iff v d : is_distance ZI SE SSt (v, 0) d <-> is_distance ZI E St v d.
Proof.
  assert (Hd : forall s p, wwalk ZI SE (s, 0) p (v, 0) -> exists q, wwalk ZI E s q v /\ wt q = wt p).
  { intros s p Hw. destruct (walk_down _ _ _ Hw _ _ eq_refl) as (q & a & Hq & Hb & Hwt & _). exists q. split; auto. simpl in Hb. injection Hb as <-. rewrite Hwt. destruct (wt q); reflexivity. }
  assert (Hu : forall s q, wwalk ZI E s q v -> exists p, wwalk ZI SE (s, 0) p (v, 0) /\ wt p = wt q).
  { intros s q Hq. destruct (walk_up _ _ _ Hq) as (p & Hp & Hx). exists p. split; auto. apply Hx. }
  split; intros [(s & p & Hs & Hw & Hl) Hm]; split.
  - destruct s as [s k0]. destruct Hs as [Hk Hs]. simpl in Hk, Hs. subst k0. destruct (Hd _ _ Hw) as (q & Hq & He). exists s, q. split; auto. split; auto. congruence.
  - intros s' q' Hs' Hq'. destruct (Hu _ _ Hq') as (p' & Hp' & He). rewrite <- He. apply (Hm (s', 0) p'); auto. split; auto.
  - destruct (Hu _ _ Hw) as (q & Hq & He). exists (s, 0), q. split; [split; auto|]. split; auto. congruence.
  - intros [s' k0] p' [Hk Hs'] Hp'. simpl in Hk, Hs'. subst k0. destruct (Hd _ _ Hp') as (q' & Hq' & He). rewrite <- He. eapply Hm; eauto.
Qed.
End Starts.
End InfGraph.
