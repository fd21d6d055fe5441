(** Specification vocabulary for graphs with weighted edges. [E i w j]: the graph has an edge from [i]
    to [j] with weight [w]. *)
From Coq Require Import List.
From Verif Require Import Weight.
Import ListNotations.

Section WeightedGraph.
Context {I : Type}.
Variable WT : Weights.
Variable E : I -> w_t WT -> I -> Prop.

(** [wwalk i p j]: the edges [p], given by weight and end vertex, lead from [i] to [j]. *)
Inductive wwalk : I -> list (w_t WT * I) -> I -> Prop :=
| wwalk_nil i : wwalk i [] i
| wwalk_cons i w j p k : E i w j -> wwalk j p k -> wwalk i ((w, j) :: p) k.

(** Sum of weights, from the first edge to the last. *)
Definition walk_weight (p : list (w_t WT * I)) : w_t WT :=
  fold_left (fun d e => w_add WT (fst e) d) p (w_zero WT).

(** [i] can be reached from a start vertex. *)
Definition wreachable (Start : I -> Prop) (i : I) : Prop :=
  exists s p, Start s /\ wwalk s p i.

(** [d] is the minimal weight of a walk from a start vertex to [i]. *)
Definition is_distance (Start : I -> Prop) (i : I) (d : w_t WT) : Prop :=
  (exists s p, Start s /\ wwalk s p i /\ walk_weight p = d) /\
  (forall s p, Start s -> wwalk s p i -> w_leb WT d (walk_weight p) = true).

(** No edge has a negative weight. *)
Definition nonnegative : Prop := forall i w j, E i w j -> w_leb WT (w_zero WT) w = true.

(** For the option known_distances. [known i] is the distance given for [i] ([w_inf] if there is none).
    [ini i] is the distance [i] has at the begin: the known one or, for start vertices without a known
    distance, zero. *)
Definition initial_distances (Start : I -> Prop) (known ini : I -> w_t WT) : Prop :=
  forall i, (Start i -> known i = w_inf WT -> ini i = w_zero WT) /\
            (~ Start i \/ known i <> w_inf WT -> ini i = known i).

(** [improving i k d]: a walk with [k] edges leads from some start vertex [s] to [i]; [ini s] plus the weights
    is [d]; and after each edge, the sum so far is smaller than the initial distance of the
    vertex that is entered. *)
Inductive improving (Start : I -> Prop) (ini : I -> w_t WT) : I -> nat -> w_t WT -> Prop :=
| improving_start i : Start i -> improving Start ini i 0 (ini i)
| improving_step i k d w j : improving Start ini i k d -> E i w j ->
    w_ltb WT (w_add WT w d) (ini j) = true -> improving Start ini j (S k) (w_add WT w d).

Lemma wwalk_app i p j q k : wwalk i p j -> wwalk j q k -> wwalk i (p ++ q) k.
Proof. induction 1; simpl; auto. intros. econstructor; eauto. Qed.

Lemma wwalk_snoc i p j w k : wwalk i p j -> E j w k -> wwalk i (p ++ [(w, k)]) k.
Proof. intros. eapply wwalk_app; eauto. econstructor; eauto. constructor. Qed.

Lemma wwalk_snoc_inv p : forall i w x k, wwalk i (p ++ [(w, x)]) k ->
  exists j, wwalk i p j /\ E j w x /\ k = x.
Proof.
  induction p as [|[w0 a] p IH]; simpl; intros i w x k H.
  - inversion H; subst. match goal with H : wwalk _ [] _ |- _ => inversion H; subst end.
    exists i. repeat split; auto. constructor.
  - inversion H; subst. match goal with H : wwalk _ (p ++ _) _ |- _ => apply IH in H; destruct H as (j' & ? & ? & ?) end.
    exists j'. repeat split; auto. econstructor; eauto.
Qed.

Lemma walk_weight_snoc p w k : walk_weight (p ++ [(w, k)]) = w_add WT w (walk_weight p).
Proof. unfold walk_weight. rewrite fold_left_app. reflexivity. Qed.

Lemma is_distance_unique Start i d d' : is_distance Start i d -> is_distance Start i d' -> d = d'.
Proof.
  intros [(s & p & Hs & Hw & Hl) Hm] [(s' & p' & Hs' & Hw' & Hl') Hm'].
  apply (w_leb_antisym WT).
  - rewrite <- Hl'. apply (Hm s' p'); auto.
  - rewrite <- Hl. apply (Hm' s p); auto.
Qed.
End WeightedGraph.

Section WeightedNext.
Context {V I L : Type}.
Variable WT : Weights.

(** The neighbor function [next], that returns edges as (end vertex, weight, labels), presents the
    graph [E] on ids. *)
Definition presents_weighted (vid : V -> I) (next : V -> list (V * w_t WT * L))
    (E : I -> w_t WT -> I -> Prop) : Prop :=
  forall u w j, In (w, j) (map (fun e => (snd (fst e), vid (fst (fst e)))) (next u)) <-> E (vid u) w j.

(** Edges between vertices, as returned by the neighbor function; [e] is the pair of weight and labels. *)
Definition next_wedge (next : V -> list (V * w_t WT * L)) (u : V) (w : w_t WT) (v : V) : Prop :=
  exists l, In (v, w, l) (next u).
Definition next_wlabel (next : V -> list (V * w_t WT * L)) (u : V) (w : w_t WT) (v : V) (l : L) : Prop :=
  In (v, w, l) (next u).
End WeightedNext.

(** Chains of edges of a neighbor function. An edge is given as it is returned: (end vertex, weight, labels). *)
Section Chain.
Context {V L : Type}.
Variable WT : Weights.
Variable next : V -> list (V * w_t WT * L).

(** The edges [p], one after the other, lead from [s] to [v]. *)
Inductive chain : V -> list (V * w_t WT * L) -> V -> Prop :=
| chain_nil s : chain s [] s
| chain_cons s n w l p v : In (n, w, l) (next s) -> chain n p v -> chain s ((n, w, l) :: p) v.

(** All vertices of a chain that starts with [s]. *)
Definition chain_vertices (s : V) (p : list (V * w_t WT * L)) : list V :=
  s :: map (fun e => fst (fst e)) p.

(** Its edges as (from vertex, to vertex, labels). *)
Fixpoint chain_edges (s : V) (p : list (V * w_t WT * L)) : list (V * V * L) :=
  match p with
  | [] => []
  | (n, w, l) :: r => (s, n, l) :: chain_edges n r
  end.

(** [d] plus all weights, from the first edge to the last. *)
Definition chain_weight (d : w_t WT) (p : list (V * w_t WT * L)) : w_t WT :=
  fold_left (fun d e => w_add WT (snd (fst e)) d) p d.
End Chain.
Arguments chain {V L WT}. Arguments chain_vertices {V L WT}. Arguments chain_edges {V L WT}.
