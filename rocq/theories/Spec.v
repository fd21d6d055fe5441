(** Specification vocabulary: directed graphs, walks, reachability, depth.

    Nothing here refers to the model of the code.  [E i j] means that the graph
    has an edge from [i] to [j]. *)
From Coq Require Import List Arith Lia.
Import ListNotations.

Section Graph.
Context {I : Type}.
Variable E : I -> I -> Prop.

(** [walk i p j]: following the vertices of [p] one after the other leads along
    edges from [i] to [j]; the walk has [length p] edges and its vertices are [i :: p]. *)
Inductive walk : I -> list I -> I -> Prop :=
| walk_nil i : walk i [] i
| walk_cons i j p k : E i j -> walk j p k -> walk i (j :: p) k.

(** [i] can be reached from a start vertex. *)
Definition reachable (Start : I -> Prop) (i : I) : Prop :=
  exists s p, Start s /\ walk s p i.

(** [n] is the minimal number of edges of a walk from a start vertex to [i]. *)
Definition min_depth (Start : I -> Prop) (i : I) (n : nat) : Prop :=
  (exists s p, Start s /\ walk s p i /\ length p = n) /\
  (forall s p, Start s -> walk s p i -> n <= length p).

(** [l] is the list of all vertices (first to last) of a walk from a start vertex to [i]. *)
Definition path_list (Start : I -> Prop) (l : list I) (i : I) : Prop :=
  exists s p, l = s :: p /\ Start s /\ walk s p i.

Lemma walk_app i p j q k : walk i p j -> walk j q k -> walk i (p ++ q) k.
Proof. induction 1; simpl; auto. intros. econstructor; eauto. Qed.

Lemma walk_snoc i p j k : walk i p j -> E j k -> walk i (p ++ [k]) k.
Proof. intros. eapply walk_app; eauto. econstructor; eauto. constructor. Qed.

Lemma walk_snoc_inv p : forall i x k, walk i (p ++ [x]) k ->
  exists j, walk i p j /\ E j x /\ k = x.
Proof.
  induction p as [|a p IH]; simpl; intros i x k H.
  - inversion H; subst. match goal with H : walk _ [] _ |- _ => inversion H; subst end.
    exists i. repeat split; auto. constructor.
  - inversion H; subst. match goal with H : walk _ (p ++ _) _ |- _ => apply IH in H; destruct H as (j' & ? & ? & ?) end.
    exists j'. repeat split; auto. econstructor; eauto.
Qed.

Lemma walk_end i p j : walk i p j -> j = last (i :: p) i.
Proof.
  induction 1 as [|i j p k He Hw IH]; [reflexivity|].
  rewrite IH. destruct p; [reflexivity|]. simpl.
  clear. revert i0. induction p as [|a p IHp]; intros; [reflexivity|apply IHp].
Qed.

Lemma reachable_start (Start : I -> Prop) i : Start i -> reachable Start i.
Proof. intros. exists i, []. split; auto. constructor. Qed.

Lemma reachable_step (Start : I -> Prop) i j : reachable Start i -> E i j -> reachable Start j.
Proof.
  intros (s & p & Hs & Hw) He. exists s, (p ++ [j]). split; auto. eapply walk_snoc; eauto.
Qed.

Lemma reachable_ind' (Start P : I -> Prop) :
  (forall i, Start i -> P i) ->
  (forall i j, reachable Start i -> P i -> E i j -> P j) ->
  forall i, reachable Start i -> P i.
Proof.
  intros H0 H1 i (s & p & Hs & Hw).
  revert i Hw. induction p as [|x p IH] using rev_ind; intros i Hw.
  - inversion Hw; subst. auto.
  - apply walk_snoc_inv in Hw. destruct Hw as (j & Hw & He & ->).
    apply (H1 j x); auto. exists s, p; auto.
Qed.

Lemma min_depth_unique Start i n m : min_depth Start i n -> min_depth Start i m -> n = m.
Proof.
  intros [(s & p & Hs & Hw & Hl) Hm] [(s' & p' & Hs' & Hw' & Hl') Hm'].
  apply Hm in Hw'; auto. apply Hm' in Hw; auto. lia.
Qed.
End Graph.

(** [l] contains no id of which [f] gives the same value twice etc. are expressed by
    [NoDup (map f l)] of the standard library. *)

Lemma walk_mono {I} (E E' : I -> I -> Prop) :
  (forall i j, E i j -> E' i j) -> forall i p j, walk E i p j -> walk E' i p j.
Proof. induction 2; econstructor; eauto. Qed.

(** The consecutive pairs of a list: [a; b; c] gives [(a, b); (b, c)]. *)
Fixpoint pairs {A} (l : list A) : list (A * A) :=
  match l with
  | a :: ((b :: _) as r) => (a, b) :: pairs r
  | _ => []
  end.

Lemma pairs_snoc {A} (l : list A) a b : pairs (l ++ [a; b]) = pairs (l ++ [a]) ++ [(a, b)].
Proof.
  induction l as [|x l IH]; simpl; auto.
  destruct (l ++ [a; b]) as [|y r] eqn:E1; [destruct l; discriminate|].
  destruct (l ++ [a]) as [|z t] eqn:E2; [destruct l; discriminate|].
  assert (y = z) by (destruct l; simpl in *; congruence). subst z.
  rewrite IH. reflexivity.
Qed.

(** Transfer of walks along a map that respects edges. *)
Lemma walk_map {A B} (f : A -> B) (E : A -> A -> Prop) (E' : B -> B -> Prop) :
  (forall a b, E a b -> E' (f a) (f b)) ->
  forall a p b, walk E a p b -> walk E' (f a) (map f p) (f b).
Proof. induction 2; simpl; econstructor; eauto. Qed.

Lemma path_list_map {A B} (f : A -> B) (E : A -> A -> Prop) (E' : B -> B -> Prop)
    (St : A -> Prop) (St' : B -> Prop) :
  (forall a b, E a b -> E' (f a) (f b)) -> (forall a, St a -> St' (f a)) ->
  forall l b, path_list E St l b -> path_list E' St' (map f l) (f b).
Proof.
  intros HE HS l b (s & p & -> & Hs & Hw). exists (f s), (map f p).
  repeat split; auto. eapply walk_map; eauto.
Qed.

(** Equivalent edge relations have the same walks. *)
Lemma walk_iff {I} (E E' : I -> I -> Prop) : (forall i j, E i j <-> E' i j) ->
  forall i p j, walk E i p j <-> walk E' i p j.
Proof. intros H i p j. split; apply walk_mono; intros; now apply H. Qed.

Lemma reachable_iff {I} (E E' : I -> I -> Prop) St : (forall i j, E i j <-> E' i j) ->
  forall i, reachable E St i <-> reachable E' St i.
Proof.
  intros H i. unfold reachable.
  split; intros (s & p & Hs & Hw); exists s, p; split; auto; now apply (walk_iff _ _ H).
Qed.

Lemma min_depth_iff {I} (E E' : I -> I -> Prop) St : (forall i j, E i j <-> E' i j) ->
  forall i n, min_depth E St i n <-> min_depth E' St i n.
Proof.
  intros H i n. unfold min_depth.
  split; (intros [(s & p & Hs & Hw & Hl) Hm]; split;
    [exists s, p; repeat split; auto; now apply (walk_iff _ _ H)
    |intros s' p' Hs' Hw'; apply (Hm s' p'); auto; now apply (walk_iff _ _ H)]).
Qed.

Lemma path_list_iff {I} (E E' : I -> I -> Prop) St : (forall i j, E i j <-> E' i j) ->
  forall l i, path_list E St l i <-> path_list E' St l i.
Proof.
  intros H l i. unfold path_list.
  split; intros (s & p & Hl & Hs & Hw); exists s, p; repeat split; auto; now apply (walk_iff _ _ H).
Qed.
