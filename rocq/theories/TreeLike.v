(** What [tree_like] (DFSSpec) means for single edges. *)
From Coq Require Import List Lia Permutation.
From Verif Require Import TraversalSpec DFSSpec.
Import ListNotations.

Section TreeLike.
Context {V I L : Type}.
Variable vid : V -> I.
Variable next : V -> list (V * L).
Variable starts : list V.
Hypothesis HT : tree_like vid next starts.

Notation dnode := (dnode next starts).
Definition reached (u : V) : Prop := exists j p, dnode ((j, u) :: p).
Notation targets u := (map (fun e => vid (fst e)) (next u)).

Lemma reached_start s : In s starts -> reached s.
Proof. intros H. apply In_nth_error in H. destruct H as (k & H). exists k, []. now constructor. Qed.

Lemma reached_step u e : reached u -> In e (next u) -> reached (fst e).
Proof.
  intros (j & p & H) He. apply In_nth_error in He. destruct He as (i & He). destruct e as [n l]. exists i, ((j, u) :: p). now apply dn_edge with l.
Qed.

Lemma reached_same u u' : reached u -> reached u' -> vid u = vid u' -> u = u'.
Proof. intros (j & p & H) (j' & p' & H') He. specialize (HT _ _ _ _ _ _ H H' He). congruence. Qed.

Lemma tree_starts : NoDup (map vid starts).
Proof.
  apply NoDup_nth_error. intros i j Hi Hj. rewrite map_length in Hi.
  destruct (nth_error starts i) as [a|] eqn:Ha; [|apply nth_error_None in Ha; lia].
  rewrite !nth_error_map, Ha in Hj. destruct (nth_error starts j) as [b|] eqn:Hb; [|discriminate]. injection Hj as Hab.
  assert (H := HT _ _ _ _ _ _ (dn_root next starts _ _ Ha) (dn_root next starts _ _ Hb) Hab). congruence.
Qed.

Lemma tree_no_edge_to_start u i : reached u -> In i (targets u) -> ~ is_start vid starts i.
Proof.
  intros Hu Hi Hs. apply in_map_iff in Hi. destruct Hi as ((n & l) & <- & Hi). apply in_map_iff in Hs. destruct Hs as (s & Hs & Hin).
  destruct Hu as (j & p & Hu). apply In_nth_error in Hi. destruct Hi as (k & Hi). apply In_nth_error in Hin. destruct Hin as (k' & Hin).
  assert (H := HT _ _ _ _ _ _ (dn_edge next starts _ _ _ _ _ _ Hu Hi) (dn_root next starts _ _ Hin) (eq_sym Hs)). discriminate.
Qed.

Lemma tree_targets u : reached u -> NoDup (targets u).
Proof.
  intros (j & p & Hu). apply NoDup_nth_error. intros a b Ha Hab. rewrite map_length in Ha.
  destruct (nth_error (next u) a) as [[n l]|] eqn:Hna; [|apply nth_error_None in Hna; lia].
  rewrite !nth_error_map, Hna in Hab. destruct (nth_error (next u) b) as [[n' l']|] eqn:Hnb; [|discriminate]. injection Hab as Hab.
  assert (H := HT _ _ _ _ _ _ (dn_edge next starts _ _ _ _ _ _ Hu Hna) (dn_edge next starts _ _ _ _ _ _ Hu Hnb) Hab). congruence.
Qed.

Lemma tree_parent u u' i : reached u -> reached u' -> In i (targets u) -> In i (targets u') -> u = u'.
Proof.
  intros (j & p & Hu) (j' & p' & Hu') Hi Hi'. apply in_map_iff in Hi. destruct Hi as ((n & l) & He & Hi). apply in_map_iff in Hi'.
  destruct Hi' as ((n' & l') & He' & Hi'). apply In_nth_error in Hi. destruct Hi as (k & Hi). apply In_nth_error in Hi'. destruct Hi' as (k' & Hi').
  simpl in *. assert (H := HT _ _ _ _ _ _ (dn_edge next starts _ _ _ _ _ _ Hu Hi) (dn_edge next starts _ _ _ _ _ _ Hu' Hi') ltac:(congruence)).
  congruence.
Qed.

(** Targets of edges that have been looked at: all edges of the vertices in [calls], except that of the vertex [v] only those before [rest], if [cur] is [Some (v, rest)]. *)
Definition looked_at (calls : list V) (cur : option (V * list (V * L))) (i : I) : Prop :=
  match cur with
  | None => exists u, In u calls /\ In i (targets u)
  | Some (v, rest) => (exists u, In u calls /\ u <> v /\ In i (targets u)) \/ (exists dn, next v = dn ++ rest /\ In i (map (fun e => vid (fst e)) dn))
  end.

(** The next edge leads to a vertex no edge looked at before leads to, and that is no start vertex. *)
Lemma next_is_new calls v n l rest : (forall u, In u calls -> reached u) -> reached v -> (exists dn, next v = dn ++ (n, l) :: rest) ->
  ~ is_start vid starts (vid n) /\ ~ looked_at calls (Some (v, (n, l) :: rest)) (vid n).
Proof.
  intros Hc Hv (dn & Hd). assert (Hin : In (vid n) (targets v)). { rewrite Hd, map_app, in_app_iff. right. now left. } split.
  - now apply (tree_no_edge_to_start v).
  - intros [(u & Hu & Hne & Hi)|(dn' & Hd' & Hi)].
    + apply Hne. now apply (tree_parent u v (vid n)); auto.
    + pose proof (tree_targets v Hv) as N. rewrite Hd', map_app in N. simpl in N. apply NoDup_remove_2 in N. apply N. rewrite in_app_iff. auto.
Qed.

Lemma looked_at_next calls v n l rest i : (exists dn, next v = dn ++ (n, l) :: rest) ->
  looked_at calls (Some (v, (n, l) :: rest)) i \/ i = vid n -> looked_at calls (Some (v, rest)) i.
Proof.
  intros (dn & Hd) [[H|(dn' & Hd' & Hi)]| ->].
  - now left.
  - right. exists (dn' ++ [(n, l)]). split; [rewrite <- app_assoc; auto|]. rewrite map_app, in_app_iff. auto.
  - right. exists (dn ++ [(n, l)]). split; [rewrite <- app_assoc; auto|]. rewrite map_app, in_app_iff. right. now left.
Qed.

Lemma looked_at_end calls v i : In v calls -> looked_at calls (Some (v, [])) i -> looked_at calls None i.
Proof.
  intros Hv [(u & Hu & _ & Hi)|(dn & Hd & Hi)].
  - exists u. auto.
  - exists v. rewrite app_nil_r in Hd. rewrite Hd. auto.
Qed.

Lemma looked_at_call calls v i : ~ In v calls -> looked_at calls None i -> looked_at (v :: calls) (Some (v, next v)) i.
Proof. intros Hv (u & Hu & Hi). left. exists u. split; [now right|]. split; auto. congruence. Qed.

(** Start vertices, and targets of edges looked at. *)
Definition seen_so_far (calls : list V) (cur : option (V * list (V * L))) (i : I) : Prop := is_start vid starts i \/ looked_at calls cur i.

(** A strategy that calls the neighbor function for the vertices [calls], looks at the edges, and keeps the new vertices in [agenda] until it
    takes one of them for the next call. *)
Record TreeAgenda (calls : list V) (cur : option (V * list (V * L))) (agenda : list V) : Prop := {
  ta_seen : forall v, In v agenda \/ In v calls -> reached v /\ seen_so_far calls cur (vid v);
  ta_nodup : NoDup (map vid agenda);
  ta_new : forall v, In v agenda -> ~ In v calls;
  ta_cur : match cur with None => True | Some (v, rest) => In v calls /\ exists dn, next v = dn ++ rest end
}.

Lemma TreeAgenda_init agenda : Permutation agenda starts -> TreeAgenda [] None agenda.
Proof.
  intros HP. constructor; auto.
  - intros v [Hv|[]]. apply (Permutation_in _ HP) in Hv. split; [now apply reached_start|]. left. now apply in_map.
  - eapply Permutation_NoDup; [apply Permutation_map; apply Permutation_sym; exact HP|]. apply tree_starts.
Qed.

Lemma TreeAgenda_perm calls cur agenda agenda' : Permutation agenda agenda' -> TreeAgenda calls cur agenda -> TreeAgenda calls cur agenda'.
Proof.
  intros HP [H1 H2 H3 H4]. apply Permutation_sym in HP. constructor; auto.
  - intros v [Hv|Hv]; apply H1; auto. left. eapply Permutation_in; eauto.
  - eapply Permutation_NoDup; [apply Permutation_map; apply Permutation_sym; exact HP|]. auto.
  - intros v Hv. apply H3. eapply Permutation_in; eauto.
Qed.

Lemma seen_call calls v i : ~ In v calls -> seen_so_far calls None i -> seen_so_far (v :: calls) (Some (v, next v)) i.
Proof. intros Hv [H|H]; [now left|]. right. now apply looked_at_call. Qed.

Lemma TreeAgenda_call calls v agenda : TreeAgenda calls None (v :: agenda) ->
  TreeAgenda (v :: calls) (Some (v, next v)) agenda /\ (forall i, seen_so_far calls None i -> seen_so_far (v :: calls) (Some (v, next v)) i).
Proof.
  intros [H1 H2 H3 H4]. assert (Hv : ~ In v calls) by (apply H3; now left). split; [|intros i; now apply seen_call]. constructor.
  - intros w Hw. assert (Hw' : In w (v :: agenda) \/ In w calls) by (simpl in *; tauto). destruct (H1 w Hw'). split; auto. now apply seen_call.
  - now inversion H2.
  - intros w Hw [C|C].
    + subst w. inversion H2; subst. apply H5. now apply in_map.
    + apply (H3 w); auto. now right.
  - split; [now left|]. exists []. reflexivity.
Qed.

Lemma TreeAgenda_new calls v n l rest agenda : TreeAgenda calls (Some (v, (n, l) :: rest)) agenda -> ~ seen_so_far calls (Some (v, (n, l) :: rest)) (vid n).
Proof.
  intros [H1 H2 H3 [H4 H5]]. destruct (next_is_new calls v n l rest) as [N1 N2]; auto.
  - intros u Hu. apply H1. auto.
  - apply H1. auto.
  - intros [C|C]; auto.
Qed.

Lemma seen_edge calls v n l rest i : (exists dn, next v = dn ++ (n, l) :: rest) ->
  seen_so_far calls (Some (v, (n, l) :: rest)) i \/ i = vid n -> seen_so_far calls (Some (v, rest)) i.
Proof.
  intros Hd [[H|H]|H].
  - now left.
  - right. apply looked_at_next with n l; auto.
  - right. apply looked_at_next with n l; auto.
Qed.

Lemma TreeAgenda_edge calls v n l rest agenda : TreeAgenda calls (Some (v, (n, l) :: rest)) agenda ->
  TreeAgenda calls (Some (v, rest)) (n :: agenda) /\
  (forall i, seen_so_far calls (Some (v, (n, l) :: rest)) i \/ i = vid n -> seen_so_far calls (Some (v, rest)) i).
Proof.
  intros H. pose proof (TreeAgenda_new _ _ _ _ _ _ H) as Hn. destruct H as [H1 H2 H3 [H4 H5]].
  split; [|intros i; now apply seen_edge]. constructor.
  - intros w [[<-|Hw]|Hw].
    + split; [|apply seen_edge with n l; auto]. change n with (fst (n, l)). apply reached_step with v; [apply H1; auto|].
      destruct H5 as (dn & ->). apply in_or_app. right. now left.
    + destruct (H1 w (or_introl Hw)). split; auto. apply seen_edge with n l; auto.
    + destruct (H1 w (or_intror Hw)). split; auto. apply seen_edge with n l; auto.
  - simpl. constructor; auto. intros C. apply in_map_iff in C. destruct C as (w & C1 & C2). apply Hn. rewrite <- C1. apply H1. auto.
  - intros w [<-|Hw]; auto. intros C. apply Hn. apply H1. auto.
  - split; auto. destruct H5 as (dn & Hd). exists (dn ++ [(n, l)]). now rewrite <- app_assoc.
Qed.

Lemma TreeAgenda_end calls v agenda : TreeAgenda calls (Some (v, [])) agenda ->
  TreeAgenda calls None agenda /\ (forall i, seen_so_far calls (Some (v, [])) i -> seen_so_far calls None i).
Proof.
  intros [H1 H2 H3 [H4 H5]]. assert (Hs : forall i, seen_so_far calls (Some (v, [])) i -> seen_so_far calls None i).
  { intros i [H|H]; [now left|]. right. eapply looked_at_end; eauto. }
  split; auto. constructor; auto. intros w Hw. destruct (H1 w Hw). auto.
Qed.
End TreeLike.
