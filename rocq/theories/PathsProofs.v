(** Proofs about the model of [_paths.py]. *)
From Coq Require Import List Arith Lia.
From Verif Require Import GearSpec Spec Common PathsModel PathsSpec.
Import ListNotations.

Section PathsProofs.
Context {V I L : Type}.
Variable V_dec : forall a b : V, {a = b} + {a <> b}.
Variable vid : V -> I.
Variable PM : PMap I V.
Variable LM : PMap I L.

(** [ppath pred v l]: following predecessors from [v] visits [l] and ends at a self loop. *)
Inductive ppath (pred : pm_t PM) : V -> list V -> Prop :=
| pp_start v : pm_get PM (vid v) pred = Some v -> ppath pred v [v]
| pp_step v u l : pm_get PM (vid v) pred = Some u -> v <> u -> ppath pred u l ->
                  ppath pred v (v :: l).

Lemma ppath_head pred v l : ppath pred v l -> exists l', l = v :: l'.
Proof. inversion 1; eauto. Qed.

Lemma ppath_det pred v l : ppath pred v l -> forall l', ppath pred v l' -> l = l'.
Proof.
  induction 1 as [v H|v u l H Hne Hp IH]; inversion 1; subst; auto; try congruence.
  f_equal. rewrite H in *. assert (u0 = u) by congruence. subst. auto.
Qed.

Lemma ppath_loop pred v l : ppath pred v l ->
  forall fuel, length l <= fuel ->
  vertices_to_start_loop V_dec vid PM pred fuel v = POk l.
Proof.
  induction 1 as [v H|v u l H Hne Hp IH]; intros fuel Hf; destruct fuel; simpl in *; try lia.
  - rewrite H. destruct (V_dec v v); congruence.
  - rewrite H. destruct (V_dec v u); [congruence|]. rewrite IH by lia. reflexivity.
Qed.

Lemma loop_ppath pred fuel : forall v l,
  vertices_to_start_loop V_dec vid PM pred fuel v = POk l -> ppath pred v l.
Proof.
  induction fuel as [|fuel IH]; simpl; intros v l H; [discriminate|].
  destruct (pm_get PM (vid v) pred) as [u|] eqn:E; [|discriminate].
  destruct (V_dec v u).
  - inversion H; subst. now apply pp_start.
  - destruct (vertices_to_start_loop V_dec vid PM pred fuel u) eqn:E2; inversion H; subst.
    eapply pp_step; eauto.
Qed.

Lemma ppath_contains pred v l : ppath pred v l -> paths_contains vid PM pred v = true.
Proof. unfold paths_contains. inversion 1; subst; rewrite H0; reflexivity. Qed.

Lemma ppath_iter_to pred v l fuel : ppath pred v l -> length l <= fuel ->
  iter_vertices_to_start V_dec vid PM pred fuel v = POk l.
Proof.
  intros. unfold iter_vertices_to_start. erewrite ppath_contains by eauto.
  eapply ppath_loop; eauto.
Qed.

Lemma ppath_iter_from pred v l fuel : ppath pred v l -> length l <= fuel ->
  iter_vertices_from_start V_dec vid PM pred fuel v = POk (rev l).
Proof.
  intros. unfold iter_vertices_from_start. erewrite ppath_iter_to; eauto. reflexivity.
Qed.

(** Edges of a list of vertices given from last to first. *)
Fixpoint edges_to_start (l : list V) : list (V * V) :=
  match l with
  | v :: ((u :: _) as r) => (u, v) :: edges_to_start r
  | _ => []
  end.

Lemma ppath_raw pred v l : ppath pred v l ->
  forall fuel, length l <= fuel ->
  raw_edges_loop V_dec vid PM pred fuel v =
  POk (map (fun e => (fst e, snd e, vid (snd e))) (edges_to_start l)).
Proof.
  induction 1 as [v H|v u l H Hne Hp IH]; intros fuel Hf; destruct fuel; simpl in *; try lia.
  - rewrite H. destruct (V_dec v v); congruence.
  - rewrite H. destruct (V_dec u v); [congruence|]. rewrite IH by lia.
    destruct (ppath_head _ _ _ Hp) as [l' ->]. reflexivity.
Qed.

(** A path does not change if the predecessors of its vertices do not. *)
Lemma ppath_ext pred pred' v l : ppath pred v l ->
  (forall u, In u l -> pm_get PM (vid u) pred' = pm_get PM (vid u) pred) ->
  ppath pred' v l.
Proof.
  induction 1 as [v H|v u l H Hne Hp IH]; intros Hs.
  - apply pp_start. rewrite Hs; simpl; auto.
  - eapply pp_step; eauto.
    + rewrite Hs; simpl; auto.
    + apply IH. intros. apply Hs. now right.
Qed.

Lemma edges_to_start_pairs l : edges_to_start l = rev (pairs (rev l)).
Proof.
  induction l as [|v l IH]; [reflexivity|]. destruct l as [|u l]; [reflexivity|].
  change (edges_to_start (v :: u :: l)) with ((u, v) :: edges_to_start (u :: l)).
  rewrite IH. simpl rev. rewrite <- app_assoc. simpl.
  rewrite pairs_snoc, rev_app_distr. reflexivity.
Qed.

Lemma edges_to_start_in pred v l : ppath pred v l -> forall u w,
  In (u, w) (edges_to_start l) -> pm_get PM (vid w) pred = Some u /\ In u l /\ In w l /\ w <> u.
Proof.
  induction 1 as [v H|v u l H Hne Hp IH]; intros a b Hin; [contradiction|].
  destruct (ppath_head _ _ _ Hp) as [l' ->].
  simpl in Hin. destruct Hin as [Heq|Hin].
  - injection Heq as <- <-. repeat split; simpl; auto.
  - destruct (IH _ _ Hin) as (? & ? & ? & ?). repeat split; auto; now right.
Qed.

Lemma path_edges_ok (labels : pm_t LM) (Q : V -> V -> L -> Prop) es :
  (forall u w, In (u, w) es -> exists d, pm_get LM (vid w) labels = Some d /\ Q u w d) ->
  exists r, iter_path_edges LM labels (map (fun e => (fst e, snd e, vid (snd e))) es) = POk r /\
            map fst r = es /\ (forall u w d, In (u, w, d) r -> Q u w d) /\
            iter_path_edges LM labels (map (fun e => (fst e, snd e, vid (snd e))) (rev es))
              = POk (rev r).
Proof.
  intros H.
  assert (Happ : forall (a b : list (V * V * I)) ra rb, iter_path_edges LM labels a = POk ra ->
     iter_path_edges LM labels b = POk rb -> iter_path_edges LM labels (a ++ b) = POk (ra ++ rb)).
  { induction a as [|[[u w] i] a IH]; simpl; intros b ra rb Ha Hb.
    - injection Ha as <-. auto.
    - destruct (pm_get LM i labels); [|discriminate].
      destruct (iter_path_edges LM labels a) eqn:Ea; try discriminate. simpl in Ha.
      injection Ha as <-. rewrite (IH b a0 rb); auto. }
  induction es as [|[u w] es IH]; simpl.
  - exists []. repeat split; auto. intros ? ? ? [].
  - destruct IH as (r & Hr & Hm & HQ & Hrev); [intros; apply H; now right|].
    destruct (H u w) as (d & Hd & Hq); [now left|].
    rewrite Hd, Hr. simpl. exists ((u, w, d) :: r). repeat split; simpl; auto.
    + now rewrite Hm.
    + intros a b c [Heq|Hin]; auto. congruence.
    + rewrite map_app. apply Happ; auto. simpl. rewrite Hd. reflexivity.
Qed.

(** Following predecessors gives what the API delivers. *)
Lemma ppath_delivers pred labels labeled (Q : V -> V -> L -> Prop) v l :
  ppath pred v l ->
  (labeled = true -> forall u w, In (u, w) (edges_to_start l) ->
     exists d, pm_get LM (vid w) labels = Some d /\ Q u w d) ->
  delivers V_dec vid PM LM pred labels labeled Q v (rev l).
Proof.
  intros Hp HQ. split.
  { eapply ppath_contains; eauto. }
  intros fuel Hf. rewrite rev_length in Hf.
  assert (Hraw : iter_raw_edges_to_start V_dec vid PM pred fuel v =
     POk (map (fun e => (fst e, snd e, vid (snd e))) (edges_to_start l))).
  { unfold iter_raw_edges_to_start. erewrite ppath_contains by eauto. eapply ppath_raw; eauto. }
  assert (Hto : iter_edges_to_start V_dec vid PM pred fuel v = POk (edges_to_start l)).
  { unfold iter_edges_to_start. rewrite Hraw. simpl. rewrite map_map. simpl.
    f_equal. erewrite map_ext; [apply map_id|]. now intros []. }
  repeat split.
  - eapply ppath_iter_from; eauto.
  - rewrite rev_involutive. eapply ppath_iter_to; eauto.
  - unfold iter_edges_from_start. rewrite Hto. simpl.
    now rewrite edges_to_start_pairs, rev_involutive.
  - now rewrite Hto, edges_to_start_pairs.
  - intros Hl. destruct (path_edges_ok labels Q (edges_to_start l) (HQ Hl)) as (r & Hr & Hm & Hq & Hrr).
    exists (rev r). unfold iter_labeled_edges_from_start, iter_labeled_edges_to_start.
    rewrite Hraw. rewrite <- map_rev, Hrr, Hr, rev_involutive. repeat split; auto.
    + rewrite map_rev, Hm, edges_to_start_pairs. now rewrite rev_involutive.
    + intros u w d Hin. apply Hq. now apply in_rev.
Qed.
End PathsProofs.
