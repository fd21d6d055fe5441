(** Abstract collections of a gear.

    The traversals use the collections that a gear creates ([_gears.py:154-272],
    protocols [GearWithoutDistances] and [Gear]) only through the operations below.
    Each record pairs the operations with the laws that the traversals rely on.
    Concrete collections are modelled in [GearModel.v]; that they satisfy the
    laws is proved in [GearProofs.v]. *)
From Coq Require Import List Bool.
Import ListNotations.

(** Set of vertex ids ([_gears.py:154-162], [vertex_id_set]); [in], [add], [discard]. *)
Record VSet (I : Type) := {
  vs_t : Type;
  vs_empty : vs_t;
  vs_mem : I -> vs_t -> bool;
  vs_add : I -> vs_t -> vs_t;
  vs_discard : I -> vs_t -> vs_t;
  vs_mem_empty : forall i, vs_mem i vs_empty = false;
  vs_mem_add : forall i j s, vs_mem i (vs_add j s) = true <-> (i = j \/ vs_mem i s = true);
  vs_mem_discard : forall i j s,
      vs_mem i (vs_discard j s) = true <-> (i <> j /\ vs_mem i s = true)
}.
Arguments vs_t {I}. Arguments vs_empty {I}. Arguments vs_mem {I}. Arguments vs_add {I}.
Arguments vs_discard {I}. Arguments vs_mem_empty {I}. Arguments vs_mem_add {I}.
Arguments vs_mem_discard {I}.

(** Partial map from vertex ids to vertices or labels
    ([_gears.py:164-182], [vertex_id_to_vertex_mapping], [vertex_id_to_edge_labels_mapping]).
    [pm_is_none]: direct access to the key (of the mapping, or of its sequence) gives None or raises KeyError or IndexError.  There is no law for it, see [marks_gaps]. *)
Record PMap (I A : Type) := {
  pm_t : Type;
  pm_empty : pm_t;
  pm_get : I -> pm_t -> option A;
  pm_set : I -> A -> pm_t -> pm_t;
  pm_is_none : I -> pm_t -> bool;
  pm_get_empty : forall i, pm_get i pm_empty = None;
  pm_get_set_same : forall i a m, pm_get i (pm_set i a m) = Some a;
  pm_get_set_other : forall i j a m, i <> j -> pm_get i (pm_set j a m) = pm_get i m
}.
Arguments pm_t {I A}. Arguments pm_empty {I A}. Arguments pm_get {I A}. Arguments pm_set {I A}.
Arguments pm_is_none {I A}. Arguments pm_get_empty {I A}. Arguments pm_get_set_same {I A}. Arguments pm_get_set_other {I A}.

(** Direct access shows whether there is a value for a key: a mapping, or a sequence with None for missing values. *)
Definition marks_gaps {I A} (PM : PMap I A) : Prop := forall i m, pm_is_none PM i m = true <-> pm_get PM i m = None.

Lemma marks_gaps_if {I A B} (PM : PMap I A) : marks_gaps PM -> forall i m (x y : B),
  (if pm_is_none PM i m then x else y) = match pm_get PM i m with None => x | Some _ => y end.
Proof.
  intros H i m x y. destruct (pm_is_none PM i m) eqn:E.
  - now rewrite (proj1 (H i m) E).
  - destruct (pm_get PM i m) eqn:Eg; auto. apply H in Eg. congruence.
Qed.

(** Map from vertex ids to distances (or to numbers) with a default value for
    missing keys ([_gears.py:199-210], [_gears.py:261-272]). *)
Record DMap (I W : Type) (dflt : W) := {
  dm_t : Type;
  dm_empty : dm_t;
  dm_get : I -> dm_t -> W;
  dm_set : I -> W -> dm_t -> dm_t;
  dm_get_empty : forall i, dm_get i dm_empty = dflt;
  dm_get_set_same : forall i w m, dm_get i (dm_set i w m) = w;
  dm_get_set_other : forall i j w m, i <> j -> dm_get i (dm_set j w m) = dm_get i m
}.
Arguments dm_t {I W dflt}. Arguments dm_empty {I W dflt}. Arguments dm_get {I W dflt}.
Arguments dm_set {I W dflt}. Arguments dm_get_empty {I W dflt}.
Arguments dm_get_set_same {I W dflt}. Arguments dm_get_set_other {I W dflt}.

(** Creation with initial content: elements are added in order
    (e.g. [_gears.py:334-337] [set(initial_content)]). *)
Definition vs_of_list {I} (VS : VSet I) (s : vs_t VS) (l : list I) : vs_t VS :=
  fold_left (fun acc i => vs_add VS i acc) l s.

Definition pm_of_list {I A} (PM : PMap I A) (m : pm_t PM) (l : list (I * A)) : pm_t PM :=
  fold_left (fun acc p => pm_set PM (fst p) (snd p) acc) l m.

Lemma vs_mem_of_list {I} (VS : VSet I) l : forall s i,
  vs_mem VS i (vs_of_list VS s l) = true <-> (In i l \/ vs_mem VS i s = true).
Proof.
  induction l as [|a l IH]; simpl; intros s i.
  - intuition.
  - unfold vs_of_list in *. simpl. rewrite IH, vs_mem_add. intuition.
Qed.

Lemma vs_mem_false_iff {I} (VS : VSet I) i s :
  vs_mem VS i s = false <-> ~ vs_mem VS i s = true.
Proof. destruct (vs_mem VS i s); intuition congruence. Qed.

(** The value of a key after creation: the last pair with this key wins. *)
Lemma pm_get_of_list_in {I A} (dec : forall a b : I, {a = b} + {a <> b}) (PM : PMap I A) l :
  forall m i, (exists a, In (i, a) l) ->
  exists a, In (i, a) l /\ pm_get PM i (pm_of_list PM m l) = Some a.
Proof.
  induction l as [|[j b] l IH]; simpl; intros m i [a Ha]; [contradiction|].
  unfold pm_of_list in *. simpl in *.
  destruct (In_dec dec i (map fst l)) as [Hin|Hnin].
  - apply in_map_iff in Hin. destruct Hin as [[i' a'] [Heq Hin]]. simpl in Heq; subst i'.
    destruct (IH (pm_set PM j b m) i) as (a2 & H1 & H2); eauto.
  - destruct Ha as [Ha|Ha].
    + inversion Ha; subst. exists a. split; auto.
      clear IH Ha. revert m. 
      assert (Hgen : forall m, pm_get PM i m = Some a ->
        pm_get PM i (fold_left (fun acc p => pm_set PM (fst p) (snd p) acc) l m) = Some a).
      { induction l as [|[k c] l IHl]; simpl; intros m Hm; auto.
        apply IHl.
        - intro; apply Hnin; now right.
        - rewrite pm_get_set_other; auto. intro; subst. apply Hnin; now left. }
      intros m. apply Hgen. apply pm_get_set_same.
    + exfalso. apply Hnin. apply in_map_iff. exists (i, a); auto.
Qed.

Lemma pm_get_of_list_notin {I A} (PM : PMap I A) l :
  forall m i, ~ In i (map fst l) -> pm_get PM i (pm_of_list PM m l) = pm_get PM i m.
Proof.
  induction l as [|[j b] l IH]; simpl; intros m i Hn; auto.
  unfold pm_of_list in *. simpl. rewrite IH by intuition.
  apply pm_get_set_other. intuition.
Qed.
