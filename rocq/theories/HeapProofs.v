From Coq Require Import List ZArith Bool Lia Sorted Permutation.
From Verif Require Import Weight HeapModel.
Import ListNotations.

Section HeapProofs.
Context {P : Type}.
Variable WT : Weights.
Notation entry := (@entry P WT).

Lemma entry_leb_key (a b : entry) : entry_leb WT a b = true -> w_leb WT (e_key a) (e_key b) = true.
Proof.
  unfold entry_leb. intros H. apply orb_true_iff in H. destruct H as [H|H]; [now apply w_lt_le|].
  apply andb_true_iff in H. destruct H as [H _]. now apply andb_true_iff in H.
Qed.

Lemma entry_leb_total (a b : entry) : entry_leb WT a b = false -> entry_leb WT b a = true.
Proof.
  unfold entry_leb. intros H. apply orb_false_iff in H. destruct H as [H1 H2].
  apply w_ltb_ge in H1. apply orb_true_iff. destruct (w_leb WT (e_key a) (e_key b)) eqn:E.
  - right. rewrite H1 in *. simpl in *. apply Z.leb_le. apply Z.leb_gt in H2. lia.
  - left. now apply w_ltb_lt.
Qed.

Lemma heappush_perm (e : entry) h : Permutation (heappush WT e h) (e :: h).
Proof.
  induction h as [|x h IH]; simpl; auto. destruct (entry_leb WT e x); auto.
  rewrite IH. apply perm_swap.
Qed.

Lemma heappush_in (e : entry) h x : In x (heappush WT e h) <-> x = e \/ In x h.
Proof.
  split; intros H.
  - apply (Permutation_in x (heappush_perm e h)) in H. simpl in H. intuition.
  - apply (Permutation_in x (Permutation_sym (heappush_perm e h))). simpl. intuition.
Qed.

(** Keys of a heap in the order of popping do not decrease. *)
Definition heap_sorted (h : list entry) : Prop :=
  StronglySorted (fun a b => w_leb WT (e_key a) (e_key b) = true) h.

Lemma heappush_sorted (e : entry) h : heap_sorted h -> heap_sorted (heappush WT e h).
Proof.
  unfold heap_sorted. induction 1 as [|x h HS IH HF]; simpl.
  - repeat constructor.
  - destruct (entry_leb WT e x) eqn:E.
    + constructor; [now constructor|]. constructor; [now apply entry_leb_key|].
      rewrite Forall_forall in *. intros y Hy. apply entry_leb_key in E.
      eapply w_leb_trans; eauto.
    + constructor; auto. rewrite Forall_forall in *. intros y Hy.
      apply heappush_in in Hy. destruct Hy as [->|Hy]; auto.
      apply entry_leb_key, entry_leb_total, E.
Qed.

Lemma heapify_gen l : forall h, heap_sorted h ->
  heap_sorted (fold_left (fun h e => heappush WT e h) l h) /\
  Permutation (fold_left (fun h e => heappush WT e h) l h) (l ++ h).
Proof.
  induction l as [|e l IH]; simpl; intros h Hh; [split; auto|].
  destruct (IH (heappush WT e h)) as [H1 H2]; [now apply heappush_sorted|]. split; auto.
  rewrite H2, (heappush_perm e h). symmetry. apply Permutation_middle.
Qed.

Lemma heapify_sorted (l : list entry) : heap_sorted (heapify WT l).
Proof. apply heapify_gen. constructor. Qed.

Lemma heapify_perm (l : list entry) : Permutation (heapify WT l) l.
Proof. unfold heapify. rewrite <- (app_nil_r l) at 2. apply heapify_gen. constructor. Qed.

Lemma heapify_in (l : list entry) x : In x (heapify WT l) <-> In x l.
Proof.
  split; intros H.
  - apply (Permutation_in x (heapify_perm l)); auto.
  - apply (Permutation_in x (Permutation_sym (heapify_perm l))); auto.
Qed.
End HeapProofs.

(** Heaps with mapped payload. *)
Section HeapMap.
Context {P Q : Type}.
Variable WT : Weights.
Variable f : P -> Q.
Definition entry_map (e : @entry P WT) : @entry Q WT := (fst e, f (snd e)).

Lemma heappush_map e h : heappush WT (entry_map e) (map entry_map h) = map entry_map (heappush WT e h).
Proof.
  induction h as [|x h IH]; simpl; auto.
  replace (entry_leb WT (entry_map e) (entry_map x)) with (entry_leb WT e x) by (destruct e, x; reflexivity).
  destruct (entry_leb WT e x); simpl; auto. now rewrite IH.
Qed.

Lemma heapify_map l : heapify WT (map entry_map l) = map entry_map (heapify WT l).
Proof.
  unfold heapify. change (@nil (@entry Q WT)) with (map entry_map []).
  generalize (@nil (@entry P WT)). induction l as [|e l IH]; simpl; intros h; auto.
  now rewrite heappush_map, IH.
Qed.
End HeapMap.
