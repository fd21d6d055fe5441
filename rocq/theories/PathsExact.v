(** Paths containers that deliver exactly a given list of labeled edges. *)
From Coq Require Import List Arith.
From Verif Require Import GearSpec Spec Common PathsModel PathsSpec PathsProofs Weight WeightSpec.
Import ListNotations.

Section PathsExact.
Context {V I L : Type}.
Variable V_dec : forall a b : V, {a = b} + {a <> b}.
Variable vid : V -> I.
Variable PM : PMap I V.
Variable LM : PMap I L.

(** All access methods deliver for [v] the path with vertices [l] and labeled edges [es]. *)
Definition delivers_exactly (pred : pm_t PM) (labels : pm_t LM) (labeled : bool)
    (v : V) (l : list V) (es : list (V * V * L)) : Prop :=
  delivers V_dec vid PM LM pred labels labeled (fun u w d => In (u, w, d) es) v l /\
  (labeled = true -> forall fuel, length l <= fuel ->
     iter_labeled_edges_from_start V_dec vid PM LM pred labels fuel v = POk es /\
     iter_labeled_edges_to_start V_dec vid PM LM pred labels fuel v = POk (rev es)).

Lemma edges_determined (lab : V -> option L) : forall (es es' : list (V * V * L)),
  map fst es = map fst es' ->
  (forall u w d, In (u, w, d) es -> lab w = Some d) ->
  (forall u w d, In (u, w, d) es' -> lab w = Some d) -> es = es'.
Proof.
  induction es as [|[[u w] d] es IH]; intros [|[[u' w'] d'] es'] Hm H1 H2; try discriminate; auto.
  simpl in Hm. injection Hm as -> -> Hm.
  assert (d = d').
  { assert (Some d = Some d') by (rewrite <- (H1 u' w' d), <- (H2 u' w' d') by (simpl; auto); auto). congruence. }
  subst. f_equal. apply IH; auto; intros; [eapply H1|eapply H2]; right; eauto.
Qed.

Lemma ppath_delivers_exactly pred labels labeled v l es :
  ppath vid PM pred v (rev l) -> map fst es = pairs l ->
  (labeled = true -> forall u w d, In (u, w, d) es -> pm_get LM (vid w) labels = Some d) ->
  delivers_exactly pred labels labeled v l es.
Proof.
  intros Hp Hm Hl.
  assert (Hex : labeled = true -> forall u w, In (u, w) (edges_to_start (rev l)) ->
     exists d, pm_get LM (vid w) labels = Some d /\ In (u, w, d) es).
  { intros Hlab u w Hin. rewrite edges_to_start_pairs, rev_involutive in Hin.
    apply in_rev in Hin. rewrite <- Hm in Hin. apply in_map_iff in Hin.
    destruct Hin as ([[u' w'] d] & Heq & Hin). injection Heq as -> ->. exists d. split; [exact (Hl Hlab u w d Hin)|exact Hin]. }
  split.
  - rewrite <- (rev_involutive l). apply ppath_delivers; auto.
  - intros Hlab fuel Hf.
    assert (HD : delivers V_dec vid PM LM pred labels labeled (fun u w d => pm_get LM (vid w) labels = Some d) v (rev (rev l))).
    { apply ppath_delivers; auto. intros _ u w Hin. destruct (Hex Hlab u w Hin) as (d & H1 & _). eauto. }
    destruct HD as [_ HD]. rewrite rev_involutive in HD.
    destruct (HD fuel Hf) as (_ & _ & _ & _ & HD2). destruct (HD2 Hlab) as (es' & H1 & H2 & H3 & H4).
    assert (es' = es); [|subst; auto].
    apply (edges_determined (fun w => pm_get LM (vid w) labels)).
    + congruence.
    + exact H4.
    + exact (Hl Hlab).
Qed.
End PathsExact.

Section ChainFacts.
Context {V L : Type}.
Variable WT : Weights.
Variable next : V -> list (V * w_t WT * L).

Lemma chain_snoc s p u n w l : chain next s p u -> In (n, w, l) (next u) -> chain next s (p ++ [(n, w, l)]) n.
Proof. induction 1; simpl; intros; econstructor; eauto. constructor. Qed.

Lemma chain_vertices_snoc (s : V) (p : list (V * w_t WT * L)) e :
  chain_vertices s (p ++ [e]) = chain_vertices s p ++ [fst (fst e)].
Proof. unfold chain_vertices. rewrite map_app. reflexivity. Qed.

Lemma chain_edges_fst : forall (p : list (V * w_t WT * L)) s,
  map fst (chain_edges s p) = pairs (chain_vertices s p).
Proof.
  induction p as [|[[n w] l] p IH]; intros s; [reflexivity|]. simpl. rewrite IH. reflexivity.
Qed.

Lemma chain_edges_in : forall (p : list (V * w_t WT * L)) s u n l,
  In (u, n, l) (chain_edges s p) -> exists w, In (n, w, l) p.
Proof.
  induction p as [|[[n w] l] p IH]; simpl; intros s u n' l' Hin; [contradiction|].
  destruct Hin as [Heq|Hin].
  - injection Heq as <- <- <-. eauto.
  - destruct (IH _ _ _ _ Hin) as (w' & Hw'). eauto.
Qed.

Lemma chain_edges_snoc s p u n w l : chain next s p u ->
  chain_edges s (p ++ [(n, w, l)]) = chain_edges s p ++ [(u, n, l)].
Proof. induction 1 as [|s n' w' l' p v Hin Hc IH]; simpl; auto. now rewrite IH. Qed.

Lemma chain_weight_snoc d (p : list (V * w_t WT * L)) n w l :
  chain_weight WT d (p ++ [(n, w, l)]) = w_add WT w (chain_weight WT d p).
Proof. unfold chain_weight. rewrite fold_left_app. reflexivity. Qed.

(** A chain is a walk. *)
Lemma chain_wwalk {I} (vid : V -> I) E : presents_weighted WT vid next E ->
  forall s p v, chain next s p v ->
  wwalk WT E (vid s) (map (fun e => (snd (fst e), vid (fst (fst e)))) p) (vid v).
Proof.
  intros HE s p v Hc. induction Hc as [s|s n w l p v Hin Hc IH]; simpl; econstructor; eauto.
  apply HE. apply in_map_iff. exists (n, w, l). auto.
Qed.

Lemma chain_walk_weight {I} (vid : V -> I) (p : list (V * w_t WT * L)) :
  walk_weight WT (map (fun e => (snd (fst e), vid (fst (fst e)))) p) = chain_weight WT (w_zero WT) p.
Proof.
  unfold walk_weight, chain_weight. generalize (w_zero WT).
  induction p as [|e p IH]; simpl; intros; auto.
Qed.
End ChainFacts.
