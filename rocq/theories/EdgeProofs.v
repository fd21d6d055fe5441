(** Proofs for the edge gadgets. *)
From Coq Require Import List ZArith Bool Lia.
From Verif Require Import EdgeModel EdgeSpec TraversalSpec.
Import ListNotations.

Section Dict.
Context {K X : Type}.
Variable K_dec : forall a b : K, {a = b} + {a <> b}.
Notation listed := (listed_at K_dec).

Lemma dict_get_listed (d : list (K * list X)) k : match dict_get K_dec d k with Some l => l | None => [] end = listed d k.
Proof. induction d as [|[k' l] d IH]; [reflexivity|]. unfold listed_at. simpl. destruct (K_dec k k'); [reflexivity|]. exact IH. Qed.

Lemma listed_app (d : list (K * list X)) k v : listed (d ++ [(k, [])]) v = listed d v.
Proof.
  unfold listed_at. induction d as [|[k' l] d IH]; simpl.
  - destruct (K_dec v k); reflexivity.
  - destruct (K_dec v k'); [reflexivity|exact IH].
Qed.

Lemma answers_listed default calls : forall d : list (K * list X), mapping_answers K_dec default d calls = map (listed d) calls.
Proof.
  induction calls as [|k r IH]; intros d; [reflexivity|]. cbn [mapping_answers map]. unfold get_mapping. rewrite <- dict_get_listed.
  destruct (dict_get K_dec d k) as [l|]; rewrite IH; [reflexivity|]. f_equal. destruct default; [|reflexivity]. apply map_ext. intros v. apply listed_app.
Qed.

Lemma listed_append (d : list (K * list X)) k x v : listed (dict_append K_dec d k x) v = listed d v ++ (if K_dec v k then [x] else []).
Proof.
  unfold listed_at. induction d as [|[k' l] d IH].
  - simpl. destruct (K_dec v k); reflexivity.
  - cbn [dict_append]. destruct (K_dec k k') as [<-|Hne].
    + simpl. destruct (K_dec v k); [reflexivity|]. now rewrite app_nil_r.
    + cbn [find fst]. destruct (K_dec v k') as [->|Hv].
      * destruct (K_dec k' k); [congruence|]. simpl. now rewrite app_nil_r.
      * exact IH.
Qed.
End Dict.

Section Iterable.
Context {K D : Type}.
Variable K_dec : forall a b : K, {a = b} + {a <> b}.
Notation listed := (listed_at K_dec).

Lemma dict_attributes inv (edges : list (K * K * list D)) v : listed (edge_dict_attributes K_dec inv edges) v = edges_at K_dec inv edges v.
Proof.
  unfold edge_dict_attributes. enough (H : forall d, listed (fold_left (fun d e => let '(from, to, data) := e in
    if inv then dict_append K_dec (dict_append K_dec d from (to, data)) to (from, data) else dict_append K_dec d from (to, data)) edges d) v = listed d v ++ edges_at K_dec inv edges v) by apply H.
  induction edges as [|[[a b] data] edges IH]; intros d; cbn [fold_left].
  - simpl. now rewrite app_nil_r.
  - rewrite IH. unfold edges_at. cbn [flat_map]. fold (edges_at K_dec inv edges v). destruct inv; rewrite !listed_append, <- ?app_assoc; auto.
Qed.

Lemma dict_plain inv (edges : list (K * K * list D)) v : listed (edge_dict_plain K_dec inv edges) v = map fst (edges_at K_dec inv edges v).
Proof.
  unfold edge_dict_plain. enough (H : forall d, listed (fold_left (fun d e => let '(from, to, _) := e in
    if inv then dict_append K_dec (dict_append K_dec d from to) to from else dict_append K_dec d from to) edges d) v = listed d v ++ map fst (edges_at K_dec inv edges v)) by apply H.
  induction edges as [|[[a b] data] edges IH]; intros d; cbn [fold_left].
  - simpl. now rewrite app_nil_r.
  - rewrite IH. unfold edges_at. cbn [flat_map]. fold (edges_at K_dec inv edges v). rewrite !map_app. destruct inv; rewrite !listed_append, <- ?app_assoc.
    + destruct (K_dec v a), (K_dec v b); reflexivity.
    + destruct (K_dec v a); reflexivity.
Qed.

Lemma iterable_attributes_exact inv (edges : list (K * K * list D)) calls : iterable_attributes K_dec inv edges calls = map (edges_at K_dec inv edges) calls.
Proof. unfold iterable_attributes. rewrite answers_listed. apply map_ext. intros v. apply dict_attributes. Qed.

Lemma iterable_plain_exact inv (edges : list (K * K * list D)) calls : iterable_plain K_dec inv edges calls = map (fun v => map fst (edges_at K_dec inv edges v)) calls.
Proof. unfold iterable_plain. rewrite answers_listed. apply map_ext. intros v. apply dict_plain. Qed.

Lemma mapping_attributes_exact default inv (index : list (K * list (K * list D))) calls :
  index_mapping_attributes K_dec default inv index calls = map (fun v => if inv then edges_at K_dec true (index_edges index) v else listed index v) calls.
Proof. unfold index_mapping_attributes. destruct inv; [apply iterable_attributes_exact|apply answers_listed]. Qed.

Lemma edges_at_map (D1 D2 : Type) (h : list D1 -> list D2) inv (edges : list (K * K * list D1)) v :
  edges_at K_dec inv (map (fun e => (fst e, h (snd e))) edges) v = map (fun e => (fst e, h (snd e))) (edges_at K_dec inv edges v).
Proof.
  induction edges as [|[[a b] data] edges IH]; [reflexivity|]. unfold edges_at in *. cbn [map flat_map fst snd]. rewrite IH, !map_app. f_equal.
  destruct (K_dec v a), inv, (K_dec v b); reflexivity.
Qed.

Lemma edges_at_in inv (edges : list (K * K * list D)) v u data :
  In (u, data) (edges_at K_dec inv edges v) <-> In (v, u, data) edges \/ (inv = true /\ In (u, v, data) edges).
Proof.
  unfold edges_at. rewrite in_flat_map. split.
  - intros ([[a b] dt] & Hin & H). apply in_app_or in H. destruct H as [H|H].
    + destruct (K_dec v a) as [<-|]; [|destruct H]. destruct H as [H|[]]. injection H as <- <-. auto.
    + destruct inv; [|destruct H]. destruct (K_dec v b) as [<-|]; [|destruct H]. destruct H as [H|[]]. injection H as <- <-. auto.
  - intros [H|[-> H]].
    + exists (v, u, data). split; auto. apply in_or_app. left. destruct (K_dec v v); [left; reflexivity|congruence].
    + exists (u, v, data). split; auto. apply in_or_app. right. destruct (K_dec v v); [left; reflexivity|congruence].
Qed.

Lemma edges_at_presents inv (edges : list (K * K * list D)) : presents (fun v => v) (edges_at K_dec inv edges) (edge_of inv edges).
Proof.
  intros u j. unfold edge_of. rewrite in_map_iff. split.
  - intros ([b data] & <- & Hin). apply edges_at_in in Hin. exists data. exact Hin.
  - intros (data & H). exists (j, data). split; auto. apply edges_at_in. exact H.
Qed.
End Iterable.

Lemma mapping_plain_exact {K} (K_dec : forall a b : K, {a = b} + {a <> b}) default inv (index : list (K * list K)) calls :
  index_mapping_plain (D := unit) K_dec default inv index calls =
  map (fun v => if inv then map fst (edges_at K_dec true (index_edges (D := unit) (map (fun p => (fst p, map (fun u => (u, [])) (snd p))) index)) v) else listed_at K_dec index v) calls.
Proof.
  unfold index_mapping_plain. destruct inv; [|apply answers_listed]. rewrite iterable_plain_exact. apply map_ext. intros v. f_equal. f_equal.
  unfold index_edges. clear. induction index as [|[k l] index IH]; [reflexivity|]. cbn [map flat_map fst snd]. rewrite IH, map_map. reflexivity.
Qed.

(** ** Sequences *)
Lemma numbered_combine {X} (l : list X) : forall n, numbered (Z.of_nat n) l = combine (map Z.of_nat (seq n (length l))) l.
Proof.
  induction l as [|x l IH]; intros n; [reflexivity|]. cbn [numbered length seq map combine]. f_equal. rewrite <- IH. f_equal. lia.
Qed.

Lemma get_sequence_spec {X} (s : list (list X)) i :
  ((0 <= i)%Z -> get_sequence s i = match nth_error s (Z.to_nat i) with Some l => l | None => [] end) /\
  ((i < 0)%Z -> (- Z.of_nat (length s) <= i)%Z -> get_sequence s i = nth (Z.to_nat (Z.of_nat (length s) + i)) s []) /\
  ((i < - Z.of_nat (length s))%Z -> get_sequence s i = []).
Proof.
  unfold get_sequence. split; [|split]; intros.
  - destruct (Z.ltb_spec i 0); [lia|]. destruct (Z.ltb_spec i 0); [lia|]. reflexivity.
  - destruct (Z.ltb_spec i 0); [|lia]. destruct (Z.ltb_spec (Z.of_nat (length s) + i) 0); [lia|].
    rewrite (nth_error_nth' s []) by lia. reflexivity.
  - destruct (Z.ltb_spec i 0); [|lia]. destruct (Z.ltb_spec (Z.of_nat (length s) + i) 0); [reflexivity|lia].
Qed.

Lemma listed_combine {X} (s : list (list X)) : forall n i, listed_at Z.eq_dec (combine (map Z.of_nat (seq n (length s))) s) i =
  if (i <? Z.of_nat n)%Z then [] else match nth_error s (Z.to_nat i - n) with Some l => l | None => [] end.
Proof.
  induction s as [|x s IH]; intros n i.
  - cbn. destruct (i <? Z.of_nat n)%Z; [reflexivity|]. now destruct (Z.to_nat i - n).
  - cbn [length seq map combine]. unfold listed_at. cbn [find fst]. destruct (Z.eq_dec i (Z.of_nat n)) as [->|Hne].
    + rewrite Z.ltb_irrefl, Nat2Z.id, Nat.sub_diag. reflexivity.
    + specialize (IH (S n) i). unfold listed_at in IH. rewrite IH. destruct (Z.ltb_spec i (Z.of_nat n)); destruct (Z.ltb_spec i (Z.of_nat (S n))); try lia; auto.
      replace (Z.to_nat i - n) with (S (Z.to_nat i - S n)) by lia. reflexivity.
Qed.

Lemma sequence_attributes_exact {D} inv (index : list (list (Z * list D))) calls : inv = true \/ (forall v, In v calls -> (0 <= v)%Z) ->
  index_sequence_attributes inv index calls = map (fun v => if inv then edges_at Z.eq_dec true (index_edges (seq_index index)) v else listed_at Z.eq_dec (seq_index index) v) calls.
Proof.
  intros H. unfold index_sequence_attributes. destruct inv.
  - change 0%Z with (Z.of_nat 0). rewrite numbered_combine. apply iterable_attributes_exact.
  - apply map_ext_in. intros v Hv. destruct H as [?|H]; [discriminate|]. specialize (H v Hv). unfold seq_index. rewrite listed_combine.
    destruct (Z.ltb_spec v (Z.of_nat 0)); [lia|]. rewrite Nat.sub_0_r. now apply get_sequence_spec.
Qed.

Lemma sequence_plain_exact inv (index : list (list Z)) calls : inv = true \/ (forall v, In v calls -> (0 <= v)%Z) ->
  index_sequence_plain inv index calls =
  map (fun v => if inv then map fst (edges_at Z.eq_dec true (index_edges (D := unit) (map (fun p => (fst p, map (fun u => (u, [])) (snd p))) (seq_index index))) v)
                else listed_at Z.eq_dec (seq_index index) v) calls.
Proof.
  intros H. unfold index_sequence_plain. destruct inv.
  - change 0%Z with (Z.of_nat 0). rewrite numbered_combine. fold (seq_index index).
    exact (mapping_plain_exact Z.eq_dec false true (seq_index index) calls).
  - apply map_ext_in. intros v Hv. destruct H as [?|H]; [discriminate|]. specialize (H v Hv). unfold seq_index. rewrite listed_combine.
    destruct (Z.ltb_spec v (Z.of_nat 0)); [lia|]. rewrite Nat.sub_0_r. now apply get_sequence_spec.
Qed.
