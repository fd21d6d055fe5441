(** Proofs about path objects. *)
From Coq Require Import List Arith Lia.
From Verif Require Import GearSpec Spec Common PathsModel PathsSpec PathsMore PathModel PathSpec.
Import ListNotations.

Lemma pairs_snoc2 {A} (l : list A) x y : pairs (l ++ [x; y]) = pairs (l ++ [x]) ++ [(x, y)].
Proof. induction l as [|a [|b l] IH]; simpl in *; auto. now rewrite IH. Qed.

Lemma pairs_rev {A} (l : list A) : pairs (rev l) = rev (map (fun e => (snd e, fst e)) (pairs l)).
Proof.
  induction l as [|a [|b l] IH]; auto. change (rev (a :: b :: l)) with ((rev l ++ [b]) ++ [a]). rewrite <- app_assoc. simpl app.
  rewrite pairs_snoc2. change (rev l ++ [b]) with (rev (b :: l)). rewrite IH. reflexivity.
Qed.

Lemma pairs_join {A} (a : list A) v b : pairs (a ++ v :: b) = pairs (a ++ [v]) ++ pairs (v :: b).
Proof.
  induction a as [|x [|y a] IH]; simpl; auto. simpl in IH. now rewrite IH.
Qed.

Lemma swap_swap {A} (l : list (A * A)) : map (fun e => (snd e, fst e)) (map (fun e => (snd e, fst e)) l) = l.
Proof. rewrite map_map. rewrite <- (map_id l) at 2. apply map_ext. now intros []. Qed.

Section PathProofs.
Context {V I L : Type}.
Variable V_dec : forall a b : V, {a = b} + {a <> b}.
Variable vid : V -> I.
Variable PM : PMap I V.
Variable LM : PMap I L.

Lemma raw_edges_shape pred fuel : forall v l, raw_edges_loop V_dec vid PM pred fuel v = POk l -> l = map (fun e => (e, vid (snd e))) (map fst l).
Proof.
  induction fuel as [|fuel IH]; simpl; intros v l H; [discriminate|]. destruct (pm_get PM (vid v) pred) as [u|]; [|injection H as <-; reflexivity].
  destruct (V_dec u v); [injection H as <-; reflexivity|]. destruct (raw_edges_loop V_dec vid PM pred fuel u) as [l'|e|] eqn:Hr; simpl in H; try discriminate.
  injection H as <-. simpl. f_equal. now apply (IH u).
Qed.

Lemma labeled_fuel pred labels f f' v es :
  iter_edges_from_start V_dec vid PM pred f v = POk es -> iter_edges_from_start V_dec vid PM pred f' v = POk es ->
  iter_labeled_edges_from_start V_dec vid PM LM pred labels f v = iter_labeled_edges_from_start V_dec vid PM LM pred labels f' v.
Proof.
  unfold iter_edges_from_start, iter_edges_to_start, iter_labeled_edges_from_start, iter_raw_edges_to_start.
  destruct (paths_contains vid PM pred v); [|discriminate]. intros H1 H2.
  destruct (raw_edges_loop V_dec vid PM pred f v) as [r1| |] eqn:E1; simpl in H1; try discriminate.
  destruct (raw_edges_loop V_dec vid PM pred f' v) as [r2| |] eqn:E2; simpl in H2; try discriminate.
  assert (Hr : map fst r1 = map fst r2).
  { rewrite <- (rev_involutive (map fst r1)), <- (rev_involutive (map fst r2)). congruence. }
  rewrite (raw_edges_shape _ _ _ _ E1), (raw_edges_shape _ _ _ _ E2), Hr. reflexivity.
Qed.

Lemma joined_shows labeled pred_f labels_f pred_b labels_b Qf Qb v a b :
  delivers V_dec vid PM LM pred_f labels_f labeled Qf v (a ++ [v]) ->
  delivers V_dec vid PM LM pred_b labels_b labeled Qb v (b ++ [v]) ->
  exists es,
    shows (from_bidirectional_search V_dec vid PM LM labeled pred_f labels_f pred_b labels_b v) (S (length a + length b)) (a ++ v :: rev b) es /\
    (labeled = true -> exists es1 es2, es = es1 ++ es2 /\ map fst es1 = pairs (a ++ [v]) /\ map fst es2 = pairs (v :: rev b) /\
       (forall u w d, In (u, w, d) es1 -> Qf u w d) /\ (forall u w d, In (u, w, d) es2 -> Qb w u d)).
Proof.
  intros [_ Hf] [_ Hb].
  assert (Hl : forall x : list V, length (x ++ [v]) = S (length x)) by (intros; rewrite app_length; simpl; lia).
  assert (Hfw : forall f, S (length a + length b) <= f -> po_vertex_forwards (from_bidirectional_search V_dec vid PM LM labeled pred_f labels_f pred_b labels_b v) f = POk (a ++ v :: rev b)).
  { intros f Hle. simpl. destruct (Hf f) as (H1 & _); [rewrite Hl; lia|]. destruct (Hb f) as (_ & H2 & _); [rewrite Hl; lia|].
    rewrite H1, H2. simpl. unfold take_except_for_last. rewrite removelast_last, rev_app_distr. reflexivity. }
  assert (Hbw : forall f, S (length a + length b) <= f -> po_vertex_backwards (from_bidirectional_search V_dec vid PM LM labeled pred_f labels_f pred_b labels_b v) f = POk (rev (a ++ v :: rev b))).
  { intros f Hle. simpl. destruct (Hf f) as (_ & H1 & _); [rewrite Hl; lia|]. destruct (Hb f) as (H2 & _); [rewrite Hl; lia|].
    rewrite H1, H2. simpl. f_equal. rewrite !rev_app_distr. simpl. rewrite rev_involutive, <- app_assoc. reflexivity. }
  assert (HL : exists es, (labeled = true -> map fst es = pairs (a ++ v :: rev b) /\
    (forall f, S (length a + length b) <= f ->
      po_edge_forwards (from_bidirectional_search V_dec vid PM LM labeled pred_f labels_f pred_b labels_b v) f = POk es /\
      po_edge_backwards (from_bidirectional_search V_dec vid PM LM labeled pred_f labels_f pred_b labels_b v) f = POk (rev es)) /\
    exists es1 es2, es = es1 ++ es2 /\ map fst es1 = pairs (a ++ [v]) /\ map fst es2 = pairs (v :: rev b) /\
       (forall u w d, In (u, w, d) es1 -> Qf u w d) /\ (forall u w d, In (u, w, d) es2 -> Qb w u d))).
  { destruct labeled; [|exists []; discriminate].
    destruct (Hf (length (a ++ [v])) (le_n _)) as (_ & _ & _ & _ & H1). destruct (H1 eq_refl) as (e1 & H11 & H12 & H13 & H14).
    destruct (Hb (length (b ++ [v])) (le_n _)) as (_ & _ & _ & _ & H2). destruct (H2 eq_refl) as (e2 & H21 & H22 & H23 & H24).
    assert (Hm2 : map fst (reverse_edges (rev e2)) = pairs (v :: rev b)).
    { unfold reverse_edges. rewrite map_map. rewrite (map_ext _ (fun e : V * V * L => (snd (fst e), fst (fst e)))) by (intros [[? ?] ?]; reflexivity).
      rewrite <- (map_map fst (fun e : V * V => (snd e, fst e))), map_rev, H23, map_rev.
      replace (v :: rev b) with (rev (b ++ [v])) by (rewrite rev_app_distr; reflexivity). now rewrite pairs_rev. }
    exists (e1 ++ reverse_edges (rev e2)). intros _. split; [|split].
    - rewrite map_app, H13, Hm2. now rewrite <- pairs_join.
    - intros f Hle. destruct (Hf f) as (_ & _ & _ & _ & H1'); [rewrite Hl; lia|]. destruct (H1' eq_refl) as (e1' & A1 & A2 & A3 & _).
      destruct (Hb f) as (_ & _ & _ & _ & H2'); [rewrite Hl; lia|]. destruct (H2' eq_refl) as (e2' & B1 & B2 & B3 & _).
      assert (e1' = e1 /\ e2' = e2) as [-> ->].
      { split.
        - rewrite (labeled_fuel pred_f labels_f f (length (a ++ [v])) v (pairs (a ++ [v]))) in A1; [congruence| |]; apply Hf; [rewrite Hl; lia|lia].
        - rewrite (labeled_fuel pred_b labels_b f (length (b ++ [v])) v (pairs (b ++ [v]))) in B1; [congruence| |]; apply Hb; [rewrite Hl; lia|lia]. }
      simpl. rewrite A1, A2, B1, B2. simpl. split; auto. f_equal. unfold reverse_edges. rewrite rev_app_distr, map_rev, rev_involutive. reflexivity.
    - exists e1, (reverse_edges (rev e2)). split; [reflexivity|]. split; [auto|]. split; [auto|]. split; [auto|].
      intros u w d Hin. unfold reverse_edges in Hin. apply in_map_iff in Hin. destruct Hin as ([[x y] z] & Heq & Hin). injection Heq as <- <- <-.
      apply in_rev in Hin. now apply H24. }
  destruct HL as (es & HL). exists es. split.
  - constructor.
    + exact Hfw.
    + exact Hbw.
    + intros f Hle. unfold path_edges_from_start. rewrite (Hfw f Hle). reflexivity.
    + intros f Hle. unfold path_edges_to_start. rewrite (Hbw f Hle). simpl. rewrite pairs_rev, map_rev, swap_swap. reflexivity.
    + simpl. intros Hlab. destruct (HL Hlab) as (H1 & H2 & _). split; auto.
    + intros f Hle. unfold path_iter. change (po_labeled _) with labeled. destruct labeled.
      * destruct (HL eq_refl) as (_ & H2 & _). destruct (H2 f Hle) as [-> _]. reflexivity.
      * rewrite (Hfw f Hle). reflexivity.
  - intros Hlab. now destruct (HL Hlab) as (_ & _ & H3).
Qed.

Lemma from_vertex_shows labeled (v : V) : shows (@from_vertex V L labeled v) 0 [v] [].
Proof. constructor; simpl; auto. Qed.

Lemma of_nothing_shows labeled : shows (@of_nothing V L labeled) 0 [] [].
Proof. constructor; simpl; auto. Qed.
End PathProofs.

Lemma shows_mono {V L} (p : path_obj V L) b b' l es : b <= b' -> shows p b l es -> shows p b' l es.
Proof.
  intros Hle [H1 H2 H3 H4 H5 H6]. constructor; try (intros f Hf; auto with arith; fail); try (intros f Hf; [apply H1 || apply H2 || apply H3 || apply H4 || apply H6]; lia).
  intros Hl. destruct (H5 Hl) as [H7 H8]. split; auto. intros f Hf. apply H8. lia.
Qed.

Lemma joined_stored {V I L} (V_dec : forall a b : V, {a = b} + {a <> b}) (vid : V -> I) (PM : PMap I V) (LM : PMap I L) labeled pred_f labels_f pred_b labels_b v a b :
  stored_path vid PM pred_f (a ++ [v]) v -> stored_path vid PM pred_b (b ++ [v]) v ->
  (labeled = true -> stored_labels vid LM labels_f (a ++ [v]) /\ stored_labels vid LM labels_b (b ++ [v])) ->
  exists es,
    shows (from_bidirectional_search V_dec vid PM LM labeled pred_f labels_f pred_b labels_b v) (S (length a + length b)) (a ++ v :: rev b) es /\
    (labeled = true -> exists es1 es2, es = es1 ++ es2 /\ map fst es1 = pairs (a ++ [v]) /\ map fst es2 = pairs (v :: rev b) /\
       (forall u w d, In (u, w, d) es1 -> pm_get LM (vid w) labels_f = Some d) /\
       (forall u w d, In (u, w, d) es2 -> pm_get LM (vid u) labels_b = Some d)).
Proof.
  intros H1 H2 H3.
  apply (joined_shows V_dec vid PM LM labeled pred_f labels_f pred_b labels_b (fun _ w d => pm_get LM (vid w) labels_f = Some d) (fun _ w d => pm_get LM (vid w) labels_b = Some d)).
  - apply stored_delivers; auto. intros Hl. apply H3, Hl.
  - apply stored_delivers; auto. intros Hl. apply H3, Hl.
Qed.
