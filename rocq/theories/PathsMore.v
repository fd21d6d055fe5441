(** Proofs about the views of stored paths. *)
From Coq Require Import List Arith Lia.
From Verif Require Import GearSpec Spec Common PathsModel PathsSpec PathsProofs.
Import ListNotations.

Section PathsMore.
Context {V I L : Type}.
Variable V_dec : forall a b : V, {a = b} + {a <> b}.
Variable vid : V -> I.
Variable PM : PMap I V.
Variable LM : PMap I L.

Lemma stored_ppath pred l v : stored_path vid PM pred l v -> ppath vid PM pred v (rev l).
Proof.
  revert v. induction l as [|x l IH] using rev_ind; intros v (s & p & Hl & Hlast & Hs & Hp).
  - discriminate.
  - rewrite last_last in Hlast. subst x. rewrite rev_app_distr. simpl.
    destruct l as [|y l'] using rev_ind.
    + simpl in Hl. injection Hl as -> <-. simpl. now apply pp_start.
    + clear IHl'. rewrite <- app_assoc in Hp. simpl in Hp. rewrite pairs_snoc in Hp.
      destruct (Hp y v) as [Hg Hne]. { apply in_or_app. right. now left. }
      eapply pp_step; eauto. apply IH.
      destruct l' as [|z q].
      * exists y, []. simpl in *. injection Hl as -> _. repeat split; auto; contradiction.
      * exists z, (q ++ [y]). simpl in Hl. injection Hl as -> _.
        split; [reflexivity|]. split; [apply last_last|]. split; auto.
        intros u w Hin. apply Hp. apply in_or_app. now left.
Qed.

Lemma ppath_predecessor pred v l : ppath vid PM pred v l ->
  paths_predecessor V_dec vid PM pred v = POk (match l with _ :: u :: _ => Some u | _ => None end).
Proof.
  unfold paths_predecessor. inversion 1; subst; rewrite H0.
  - destruct (V_dec v v); congruence.
  - destruct (V_dec v u); [congruence|]. destruct (ppath_head _ _ _ _ _ H2) as [l' ->]. reflexivity.
Qed.

Lemma stored_delivers pred labels labeled l v : stored_path vid PM pred l v ->
  (labeled = true -> stored_labels vid LM labels l) ->
  delivers V_dec vid PM LM pred labels labeled
    (fun _ w d => pm_get LM (vid w) labels = Some d) v l /\
  paths_predecessor V_dec vid PM pred v =
    POk (match rev l with _ :: u :: _ => Some u | _ => None end).
Proof.
  intros Hs Hlab. apply stored_ppath in Hs. split.
  - rewrite <- (rev_involutive l). apply ppath_delivers; auto.
    intros Hl u w Hin. rewrite edges_to_start_pairs, <- in_rev, rev_involutive in Hin.
    specialize (Hlab Hl u w Hin). destruct (pm_get LM (vid w) labels) as [d|]; [|congruence]. eauto.
  - now apply ppath_predecessor.
Qed.

Lemma paths_missing pred labels v fuel : pm_get PM (vid v) pred = None ->
  paths_contains vid PM pred v = false /\
  iter_vertices_from_start V_dec vid PM pred fuel v = PErr RuntimeErrorNoPath /\
  iter_vertices_to_start V_dec vid PM pred fuel v = PErr RuntimeErrorNoPath /\
  iter_edges_from_start V_dec vid PM pred fuel v = PErr RuntimeErrorNoPath /\
  iter_edges_to_start V_dec vid PM pred fuel v = PErr RuntimeErrorNoPath /\
  iter_labeled_edges_from_start V_dec vid PM LM pred labels fuel v = PErr RuntimeErrorNoPath /\
  iter_labeled_edges_to_start V_dec vid PM LM pred labels fuel v = PErr RuntimeErrorNoPath /\
  paths_predecessor V_dec vid PM pred v = PErr RuntimeErrorNoPath.
Proof.
  intros H.
  assert (Hc : paths_contains vid PM pred v = false) by (unfold paths_contains; now rewrite H).
  unfold iter_vertices_from_start, iter_vertices_to_start, iter_edges_from_start, iter_edges_to_start,
    iter_labeled_edges_from_start, iter_labeled_edges_to_start, iter_raw_edges_to_start, paths_predecessor.
  rewrite Hc, H. repeat split.
Qed.

Lemma pairs_in_l {A} (l : list A) : forall u w, In (u, w) (pairs l) -> In u l /\ In w l.
Proof.
  induction l as [|a l IH]; simpl; [tauto|]. destruct l as [|b l]; simpl; [tauto|].
  intros u w [H|H].
  - injection H as <- <-. auto.
  - apply IH in H. simpl in H. tauto.
Qed.

(** Appending an edge to a vertex whose id does not occur in the path extends the path;
    other paths that do not run through this id stay as they are. *)
Lemma append_edge_extends pred labels l v to d :
  stored_path vid PM pred l v -> stored_labels vid LM labels l ->
  ~ In (vid to) (map vid l) ->
  let p := append_edge PM LM pred labels v (vid to) d in
  stored_path vid PM (fst p) (l ++ [to]) to /\ stored_labels vid LM (snd p) (l ++ [to]) /\
  pm_get LM (vid to) (snd p) = Some d /\
  stored_path vid PM (fst p) l v.
Proof.
  intros (s & q & -> & Hlast & Hs & Hp) Hl Hn p. subst p. simpl fst. simpl snd.
  assert (Hne : forall u, In u (s :: q) -> vid u <> vid to).
  { intros u Hu He. apply Hn. rewrite <- He. now apply in_map. }
  assert (Hpairs : forall u w, In (u, w) (pairs ((s :: q) ++ [to])) ->
            In (u, w) (pairs (s :: q)) \/ (u = v /\ w = to)).
  { intros u w Hin. destruct (@exists_last _ (s :: q) ltac:(discriminate)) as (q' & x & Hq).
    rewrite Hq in *. rewrite last_last in Hlast. subst x. rewrite <- app_assoc in Hin. simpl in Hin.
    rewrite pairs_snoc in Hin. apply in_app_or in Hin. destruct Hin as [Hin|[Hin|[]]]; auto.
    injection Hin as <- <-. auto. }
  assert (Hold : forall u w, In (u, w) (pairs (s :: q)) ->
     pm_get PM (vid w) (pm_set PM (vid to) v pred) = Some u /\ w <> u).
  { intros u w Hin. pose proof (pairs_in_l _ _ _ Hin) as [_ Hw]. rewrite pm_get_set_other by auto. auto. }
  assert (Hs' : pm_get PM (vid s) (pm_set PM (vid to) v pred) = Some s).
  { rewrite pm_get_set_other; auto. apply Hne. now left. }
  split; [|split; [|split]].
  - exists s, (q ++ [to]). split; [reflexivity|]. split; [apply last_last|]. split; auto.
    intros u w Hin. apply Hpairs in Hin. destruct Hin as [Hin|[-> ->]]; auto.
    rewrite pm_get_set_same. split; auto. intros ->.
    assert (Hv : In v (s :: q)).
    { rewrite <- Hlast. clear. revert s. induction q as [|a q IH]; intros s; [now left|].
      right. change (last (s :: a :: q) s) with (last (a :: q) s).
      replace (last (a :: q) s) with (last (a :: q) a); [apply IH|].
      clear. revert a. induction q as [|b q IH]; intros a; [reflexivity|].
      change (last (b :: q) a = last (b :: q) s). clear. revert b. induction q as [|c q IH]; intros; [reflexivity|].
      change (last (c :: q) a = last (c :: q) s). apply IH. }
    now apply (Hne v Hv).
  - intros u w Hin. apply Hpairs in Hin. destruct Hin as [Hin|[-> ->]].
    + pose proof (pairs_in_l _ _ _ Hin) as [_ Hw]. rewrite pm_get_set_other by auto. eauto.
    + rewrite pm_get_set_same. discriminate.
  - apply pm_get_set_same.
  - exists s, q. auto.
Qed.
End PathsMore.
