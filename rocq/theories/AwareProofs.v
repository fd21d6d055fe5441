(** Proofs for neighbor functions that look at the traversal: if a vertex is asked for at most once, a run is one of the graph that the answers form. *)
From Coq Require Import List Bool Arith Lia Permutation.
From Verif Require Import Machine AwareModel AwareSpec.
Import ListNotations.

Section Aware.
Context {S O X V I A : Type}.
Variable I_dec : forall a b : I, {a = b} + {a <> b}.
Variable vid : V -> I.
Variable step : (V -> A) -> S -> step_result S O X.
Variable asks : S -> list V.
Variable nothing : A.
Variable answer : nat -> S -> V -> X + A.
Variable called : S -> list I.
Variable good : I -> A -> Prop.
Variable init : S.

(** A pass depends on the answers for the vertices that are asked for only. *)
Hypothesis step_local : forall f g s, (forall v, In v (asks s) -> f v = g v) -> step f s = step g s.
Hypothesis step_called : forall f s o s', step f s = Go o s' -> Permutation (called s') (rev (map vid (asks s)) ++ called s).
Hypothesis step_asked_go : forall f s, asks s <> [] -> exists o s', step f s = Go o s'.
(** For ordinary neighbor functions that depend on the id only, each id is asked for at most once. *)
Hypothesis once : forall T n os s, (forall i, good i (T i)) -> run (step (fun v => T (vid v))) n init = (os, Running s) -> NoDup (called s).
Hypothesis none_yet : called init = [].
Hypothesis good_nothing : forall i, good i nothing.
Hypothesis good_answers : forall i s v, good (vid v) (edges_of nothing (answer i s v)).

Notation arun := (aware_run step asks nothing answer).

Lemma arun_snoc n : forall i s,
  arun i (n + 1) s = match arun i n s with
                     | (os, Running s') => match aware_step step asks nothing answer (i + n) s' with
                                           | Go o s2 => (os ++ o, Running s2)
                                           | Halt o s2 => (os ++ o, Ended s2)
                                           | Raise o x s2 => (os ++ o, Raised x s2)
                                           end
                     | p => p
                     end.
Proof using.
  induction n as [|n IH]; intros i s.
  - simpl. rewrite Nat.add_0_r. destruct (aware_step _ _ _ _ i s); simpl; rewrite ?app_nil_r; reflexivity.
  - simpl. destruct (aware_step step asks nothing answer i s) as [o s1|o s1|o x s1] eqn:E; auto.
    rewrite (IH (Datatypes.S i) s1). destruct (arun (Datatypes.S i) n s1) as [os r]. simpl.
    replace (i + Datatypes.S n) with (Datatypes.S i + n) by lia.
    destruct r; simpl; auto. destruct (aware_step step asks nothing answer _ s0); simpl; now rewrite ?app_assoc.
Qed.

Lemma run_snoc (f : S -> step_result S O X) n : forall s,
  run f (n + 1) s = match run f n s with
                    | (os, Running s') => match f s' with
                                          | Go o s2 => (os ++ o, Running s2)
                                          | Halt o s2 => (os ++ o, Ended s2)
                                          | Raise o x s2 => (os ++ o, Raised x s2)
                                          end
                    | p => p
                    end.
Proof using.
  intros s. rewrite run_add. destruct (run f n s) as [os [s'|s'|x s']]; auto. simpl. destruct (f s'); simpl; now rewrite ?app_nil_r.
Qed.

(** What has been asked for in a run is recorded. *)
Lemma called_grows f n : forall s os s', run (step f) n s = (os, Running s') -> incl (called s) (called s').
Proof using step_called.
  induction n as [|n IH]; simpl; intros s os s' H; [inversion H; apply incl_refl|].
  destruct (step f s) as [o s1|o s1|o x s1] eqn:E; try discriminate.
  destruct (run (step f) n s1) as [os1 r1] eqn:E1. simpl in H. inversion H; subst.
  intros i Hi. apply (IH _ _ _ E1). eapply Permutation_in; [apply Permutation_sym; exact (step_called _ _ _ _ E)|]. apply in_or_app. now right.
Qed.

Lemma same_run T T' n : forall s os s', run (step (fun v => T (vid v))) n s = (os, Running s') -> (forall i, In i (called s') -> T' i = T i) ->
  run (step (fun v => T' (vid v))) n s = (os, Running s').
Proof using step_called step_local.
  induction n as [|n IH]; simpl; intros s os s' H HT; [exact H|].
  destruct (step (fun v => T (vid v)) s) as [o s1|o s1|o x s1] eqn:E; try discriminate.
  destruct (run (step (fun v => T (vid v))) n s1) as [os1 r1] eqn:E1. simpl in H. inversion H; subst.
  rewrite (step_local _ (fun v => T (vid v))), E.
  - rewrite (IH _ _ _ E1 HT). reflexivity.
  - intros v Hv. apply HT. apply (called_grows _ _ _ _ _ E1). eapply Permutation_in; [apply Permutation_sym; exact (step_called _ _ _ _ E)|]. apply in_or_app. left. rewrite <- in_rev. now apply in_map.
Qed.

(** In a pass after a run of an ordinary function, no id is asked for that has been asked for before, and none twice. *)
Lemma fresh T n os s : (forall i, good i (T i)) -> run (step (fun v => T (vid v))) n init = (os, Running s) ->
  NoDup (map vid (asks s)) /\ forall v, In v (asks s) -> ~ In (vid v) (called s).
Proof using once step_called step_asked_go.
  intros HT HR. destruct (asks s) as [|a l] eqn:Ea; [split; [constructor|intros v []]|]. rewrite <- Ea.
  destruct (step_asked_go (fun v => T (vid v)) s) as (o & s' & E); [rewrite Ea; discriminate|].
  assert (HN : NoDup (called s')).
  { apply (once T (n + 1) (os ++ o) s' HT). rewrite run_snoc, HR, E. reflexivity. }
  apply (Permutation_NoDup (step_called _ _ _ _ E)) in HN. split.
  - apply NoDup_rev in HN. rewrite rev_app_distr, rev_involutive in HN. clear -HN.
    induction (rev (called s)) as [|x l IH]; auto. inversion HN; auto.
  - intros v Hv Hin. revert HN.
    assert (H1 : In (vid v) (rev (map vid (asks s)))) by (rewrite <- in_rev; now apply in_map). revert H1 Hin. clear.
    induction (rev (map vid (asks s))) as [|x l IH]; simpl; [tauto|]. intros [->|H1] H2 HN; inversion HN as [|? ? H3 H4]; subst; [apply H3; apply in_or_app; now right|auto].
Qed.

(** Replace the entries for the given vertices. *)
Fixpoint put (T : I -> A) (f : V -> A) (l : list V) : I -> A :=
  match l with
  | [] => T
  | v :: r => fun i => if I_dec i (vid v) then f v else put T f r i
  end.

Lemma put_in T f l v : NoDup (map vid l) -> In v l -> put T f l (vid v) = f v.
Proof using.
  induction l as [|u l IH]; simpl; [tauto|]. intros HN [->|Hv].
  - now destruct (I_dec (vid v) (vid v)).
  - inversion HN; subst. destruct (I_dec (vid v) (vid u)) as [E|]; [|auto]. exfalso. apply H1. rewrite <- E. now apply in_map.
Qed.

Lemma put_out T f l i : ~ In i (map vid l) -> put T f l i = T i.
Proof using. induction l as [|u l IH]; simpl; auto. intros H. destruct (I_dec i (vid u)); [subst; tauto|]. apply IH. tauto. Qed.

Lemma put_good T f l : (forall i, good i (T i)) -> (forall v, good (vid v) (f v)) -> forall i, good i (put T f l i).
Proof using. intros HT Hf. induction l as [|u l IH]; simpl; auto. intros i. destruct (I_dec i (vid u)) as [->|]; auto. Qed.

Lemma put_cases T f l i : put T f l i = T i \/ exists v, In v l /\ vid v = i /\ put T f l i = f v.
Proof using.
  induction l as [|u l IH]; simpl; auto. destruct (I_dec i (vid u)) as [->|]; [right; exists u; auto|].
  destruct IH as [IH|(v & H1 & H2 & H3)]; [now left|right; exists v; auto].
Qed.

Lemma first_exception_none (l : list (X + A)) : first_exception l = None -> forall a, In a l -> exists e, a = inr e.
Proof using. induction l as [|[x|e] l IH]; simpl; [tauto|discriminate|]. intros H a [<-|Ha]; [eauto|auto]. Qed.
Lemma first_exception_some (l : list (X + A)) x : first_exception l = Some x -> In (inl x) l.
Proof using. induction l as [|[y|e] l IH]; simpl; [discriminate| |]. - intros H; inversion H; auto. - intros H; right; auto. Qed.

Notation tells T n := (forall i v es, answered step asks nothing answer init n i v es -> T (vid v) = es).

Notation only T n := (forall i, T i = nothing \/ exists k v, vid v = i /\ answered step asks nothing answer init n k v (T i)).

Lemma answered_more n m k v es : n <= m -> answered step asks nothing answer init n k v es -> answered step asks nothing answer init m k v es.
Proof using. intros Hm (o & s & Hi & H). exists o, s. split; [lia|exact H]. Qed.

Lemma put_only T n os s : only T n -> arun 0 n init = (os, Running s) -> first_exception (map (answer n s) (asks s)) = None ->
  only (put T (fun v => edges_of nothing (answer n s v)) (asks s)) (n + 1).
Proof using.
  intros HO HR HX i. destruct (put_cases T (fun v => edges_of nothing (answer n s v)) (asks s) i) as [->|(v & Hv & Ev & ->)].
  - destruct (HO i) as [H|(k & v & Ev & H)]; [now left|right]. exists k, v. split; [exact Ev|]. apply (answered_more n); [lia|exact H].
  - right. exists n, v. split; [exact Ev|].
    destruct (first_exception_none _ HX (answer n s v)) as [es He]; [now apply in_map|].
    exists os, s. rewrite He. repeat split; auto. lia.
Qed.

Lemma arun_le n m i s os s' : arun i (n + m) s = (os, Running s') -> exists os1 s1, arun i n s = (os1, Running s1).
Proof using.
  revert os s'. induction m as [|m IH]; intros os s' H; [rewrite Nat.add_0_r in H; eauto|].
  replace (n + Datatypes.S m) with (n + m + 1) in H by lia. rewrite arun_snoc in H.
  destruct (arun i (n + m) s) as [o [s1|s1|x s1]] eqn:E; try discriminate. eauto.
Qed.

(** What has been asked for in a run that goes on is recorded. *)
Lemma answered_recorded n : forall os s, arun 0 n init = (os, Running s) -> forall i v a, answered step asks nothing answer init n i v a -> In (vid v) (called s).
Proof using step_called.
  induction n as [|n IH]; intros os s H i v a (o' & s' & Hi & Ha & Hx & Hin & He); [lia|].
  replace (Datatypes.S n) with (n + 1) in H by lia. rewrite arun_snoc in H.
  destruct (arun 0 n init) as [os1 [s1|s1|x s1]] eqn:E1; try discriminate.
  simpl Nat.add in H. unfold aware_step in H.
  match type of H with (match (match ?c with _ => _ end) with _ => _ end) = _ => destruct c eqn:EX end; [destruct (step _ s1); discriminate|].
  destruct (step _ s1) as [o s2|o s2|o x s2] eqn:E2; try discriminate. inversion H; subst os s.
  eapply Permutation_in; [apply Permutation_sym; exact (step_called _ _ _ _ E2)|]. apply in_or_app. destruct (Nat.eq_dec i n) as [->|Hne].
  - rewrite E1 in Ha. inversion Ha; subst. left. rewrite <- in_rev. now apply in_map.
  - right. apply (IH _ _ eq_refl i v a). exists o', s'. repeat split; auto. lia.
Qed.

(** As long as the run goes on. *)
Lemma aware_running n : forall os s, arun 0 n init = (os, Running s) ->
  exists T, (forall i, good i (T i)) /\ run (step (fun v => T (vid v))) n init = (os, Running s) /\ (forall i, ~ In i (called s) -> T i = nothing) /\ tells T n /\ only T n.
Proof using I_dec step_local step_called step_asked_go once none_yet good_nothing good_answers.
  induction n as [|n IH]; intros os s H.
  - simpl in H. inversion H; subst. exists (fun _ => nothing). repeat split; auto. intros i v es (o & s' & Hi & _). lia.
  - replace (Datatypes.S n) with (n + 1) in * by lia. rewrite arun_snoc in H.
    destruct (arun 0 n init) as [os1 [s1|s1|x s1]] eqn:E1; try discriminate.
    destruct (IH _ _ eq_refl) as (T & HG & HR & HN & HT & HO).
    destruct (fresh T n os1 s1 HG HR) as [HD HF].
    simpl Nat.add in H. unfold aware_step in H.
    destruct (first_exception (map (answer n s1) (asks s1))) as [x|] eqn:EX; [destruct (step _ s1); discriminate|].
    set (f := fun v => edges_of nothing (answer n s1 v)) in *.
    destruct (step f s1) as [o s2|o s2|o x s2] eqn:E2; try discriminate. inversion H; subst os s.
    exists (put T f (asks s1)). split; [|split; [|split; [|split]]].
    + apply put_good; auto. intros v. apply good_answers.
    + rewrite run_snoc. rewrite (same_run T (put T f (asks s1)) n init os1 s1 HR).
      * rewrite (step_local _ f), E2; auto. intros v Hv. now apply put_in.
      * intros i Hi. apply put_out. rewrite in_map_iff. intros (v & <- & Hv). exact (HF v Hv Hi).
    + intros i Hi0. assert (Hi : ~ In i (rev (map vid (asks s1)) ++ called s1)) by (intros Hc; apply Hi0; eapply Permutation_in; [apply Permutation_sym; exact (step_called _ _ _ _ E2)|exact Hc]). rewrite put_out.
      * apply HN. intros Hc. apply Hi. apply in_or_app. now right.
      * intros Hc. apply Hi. apply in_or_app. left. now rewrite <- in_rev.
    + intros i v es (o' & s' & Hi & Ha & Hx & Hin & He). destruct (Nat.eq_dec i n) as [->|Hne].
      * rewrite E1 in Ha. inversion Ha; subst o' s'. rewrite put_in by auto. unfold f. rewrite He. reflexivity.
      * assert (HA : answered step asks nothing answer init n i v es) by (exists o', s'; repeat split; auto; lia).
        rewrite put_out; [eauto|]. intros Hc. rewrite in_map_iff in Hc. destruct Hc as (u & Eu & Hu).
        apply (HF u Hu). rewrite Eu. exact (answered_recorded n os1 s1 E1 i v _ HA).
    + exact (put_only T n os1 s1 HO E1 EX).
Qed.

(** A run that has ended does not change any more. *)
Lemma arun_over n os r : arun 0 n init = (os, r) -> (forall s, r <> Running s) -> forall m, n <= m -> arun 0 m init = (os, r) /\
  (forall i v a, answered step asks nothing answer init m i v a -> answered step asks nothing answer init n i v a).
Proof using.
  intros E1 Hr m Hm. assert (HE : arun 0 m init = (os, r)).
  { induction Hm as [|m Hm IHm]; [exact E1|]. replace (Datatypes.S m) with (m + 1) by lia. rewrite arun_snoc, IHm. destruct r; auto. now elim (Hr s). }
  split; [exact HE|]. intros i v a (o' & s' & Hi & Ha & Hx & Hin & He). exists o', s'. repeat split; auto.
  destruct (le_lt_dec n i) as [Hle|]; [|assumption]. exfalso.
  destruct (arun_le n (i - n) 0 init o' s') as (o2 & s2 & E2); [replace (n + (i - n)) with i by lia; exact Ha|].
  rewrite E1 in E2. inversion E2; subst. now elim (Hr s2).
Qed.

Lemma run_over (f : S -> step_result S O X) n m os r s : run f n s = (os, r) -> (forall s', r <> Running s') -> n <= m -> run f m s = (os, r).
Proof using. intros H Hr Hm. replace m with (n + (m - n)) by lia. rewrite run_add, H. destruct r; auto. now elim (Hr s0). Qed.

(** The whole claim. *)
Lemma aware_main n : exists T, (forall i, good i (T i)) /\ runs_like step asks nothing answer (fun v => T (vid v)) n init /\ tells T n /\ only T n.
Proof using I_dec step_local step_called step_asked_go once none_yet good_nothing good_answers.
  induction n as [|n IH].
  - destruct (aware_running 0 [] init eq_refl) as (T & HG & HR & _ & HT & HO). exists T. split; [exact HG|]. split; [now left|split; [exact HT|exact HO]].
  - destruct (arun 0 n init) as [os1 r] eqn:E1.
    assert (Hcase : (exists s, r = Running s) \/ forall s, r <> Running s) by (destruct r; [left; eauto|right; discriminate|right; discriminate]).
    destruct Hcase as [[s1 ->]|Hr].
    + destruct (aware_running n os1 s1 E1) as (T & HG & HR & HN & HT & HO).
      destruct (fresh T n os1 s1 HG HR) as [HD HF].
      destruct (first_exception (map (answer n s1) (asks s1))) as [x|] eqn:EX.
      * (* the function raises an exception *)
        exists T. split; [exact HG|]. split; [|split].
        -- right. exists n, (asks s1), x. split; [exists os1, s1; repeat split; auto|]. 
           assert (Hno : forall v, In v (asks s1) -> T (vid v) = nothing) by (intros v Hv; apply HN; auto). split; [exact Hno|].
           replace (Datatypes.S n) with (n + 1) by lia. rewrite arun_snoc, run_snoc, E1, HR. simpl Nat.add. unfold aware_step. rewrite EX.
           rewrite (step_local (fun v => T (vid v)) (fun _ => nothing)) by exact Hno.
           destruct (step (fun _ => nothing) s1); reflexivity.
        -- intros i v es (o' & s' & Hi & Ha & Hx & Hin & He). apply (HT i v es). exists o', s'. repeat split; auto.
           destruct (Nat.eq_dec i n) as [->|]; [|lia]. rewrite E1 in Ha. inversion Ha; subst. congruence.
        -- intros i. destruct (HO i) as [H|(k & v & Ev & H)]; [now left|right]. exists k, v. split; [exact Ev|]. apply (answered_more n); [lia|exact H].
      * set (f := fun v => edges_of nothing (answer n s1 v)).
        exists (put T f (asks s1)). split; [apply put_good; auto; intros v; apply good_answers|]. split; [|split].
        -- left. replace (Datatypes.S n) with (n + 1) by lia. rewrite arun_snoc, run_snoc, E1. simpl Nat.add. unfold aware_step. rewrite EX.
           rewrite (same_run T (put T f (asks s1)) n init os1 s1 HR).
           ++ fold f. rewrite (step_local (fun v => put T f (asks s1) (vid v)) f); auto. intros v Hv. now apply put_in.
           ++ intros i Hi. apply put_out. rewrite in_map_iff. intros (v & <- & Hv). exact (HF v Hv Hi).
        -- intros i v es (o' & s' & Hi & Ha & Hx & Hin & He). destruct (Nat.eq_dec i n) as [->|Hne].
           ++ rewrite E1 in Ha. inversion Ha; subst o' s'. rewrite put_in by auto. unfold f. rewrite He. reflexivity.
           ++ assert (HA : answered step asks nothing answer init n i v es) by (exists o', s'; repeat split; auto; lia).
              rewrite put_out; [eauto|]. intros Hc. rewrite in_map_iff in Hc. destruct Hc as (u & Eu & Hu).
              apply (HF u Hu). rewrite Eu. exact (answered_recorded n os1 s1 E1 i v _ HA).
        -- replace (Datatypes.S n) with (n + 1) by lia. exact (put_only T n os1 s1 HO E1 EX).
    + destruct IH as (T & HG & HL & HT & HO). destruct (arun_over n os1 r E1 Hr (Datatypes.S n)) as [HE HA]; [lia|].
      exists T. split; [exact HG|]. split; [|split; [intros i v es Ha; exact (HT i v es (HA i v es Ha))|]]; cycle 1.
      { intros i. destruct (HO i) as [H|(k & v & Ev & H)]; [now left|right]. exists k, v. split; [exact Ev|]. apply (answered_more n); [lia|exact H]. }
      destruct HL as [HL|(i & vs & x & (o' & s' & Hi & Ha & Hv & Hx) & Hno & HL)].
      * left. rewrite HE. symmetry. rewrite E1 in HL. apply (run_over _ n); auto.
      * right. exists i, vs, x. split; [exists o', s'; repeat split; auto; lia|]. split; [exact Hno|]. rewrite HE, <- HL. now symmetry.
Qed.

(** No id is asked for twice. *)
Lemma asked_once n i v es i' v' es' : answered step asks nothing answer init n i v es -> answered step asks nothing answer init n i' v' es' -> vid v = vid v' -> i = i' /\ v = v'.
Proof using I_dec step_local step_called step_asked_go once none_yet good_nothing good_answers.
  assert (HL : forall i v es i' v' es', answered step asks nothing answer init n i v es -> answered step asks nothing answer init n i' v' es' -> vid v = vid v' -> ~ i < i').
  { clear i v es i' v' es'. intros i v es i' v' es' (o & s & Hi & Ha & Hx & Hin & He) (o' & s' & Hi' & Ha' & Hx' & Hin' & He') Hv Hlt.
    destruct (aware_running i' o' s' Ha') as (T & HG & HR & _). destruct (fresh T i' o' s' HG HR) as [_ HF].
    apply (HF v' Hin'). rewrite <- Hv. apply (answered_recorded i' o' s' Ha' i v es). exists o, s. repeat split; auto. }
  intros H1 H2 Hv. assert (i = i') as <- by (pose proof (HL _ _ _ _ _ _ H1 H2 Hv); pose proof (HL _ _ _ _ _ _ H2 H1 (eq_sym Hv)); lia).
  split; [reflexivity|]. destruct H1 as (o & s & Hi & Ha & Hx & Hin & He), H2 as (o' & s' & _ & Ha' & _ & Hin' & _).
  rewrite Ha in Ha'. inversion Ha'; subst o' s'. destruct (aware_running i o s Ha) as (T & HG & HR & _). destruct (fresh T i o s HG HR) as [HD _].
  revert HD Hin Hin' Hv. clear. induction (asks s) as [|u l IH]; simpl; [tauto|]. intros HD Hin Hin' Hv. inversion HD as [|? ? H1 H2]; subst.
  destruct Hin as [->|Hin], Hin' as [->|Hin']; auto; exfalso; apply H1; [rewrite Hv|rewrite <- Hv]; now apply in_map.
Qed.

Lemma aware_table_gen n : exists T, (forall i, good i (T i)) /\ runs_like step asks nothing answer (fun v => T (vid v)) n init /\ table_of_answers step asks nothing answer vid n init T.
Proof using I_dec step_local step_called step_asked_go once none_yet good_nothing good_answers.
  destruct (aware_main n) as (T & HG & HL & HT & HO). exists T. split; [exact HG|]. split; [exact HL|]. split; [exact HT|]. split; [exact HO|]. exact (asked_once n).
Qed.

(** A property of the reports of all runs for the table holds for the run in question. *)
Lemma aware_reports n T (P : list O -> Prop) os r : runs_like step asks nothing answer (fun v => T (vid v)) n init ->
  (forall m, P (fst (run (step (fun v => T (vid v))) m init))) -> arun 0 n init = (os, r) -> P os.
Proof using.
  intros [HL|(i & vs & x & _ & _ & HL)] HP HR; rewrite HR in HL.
  - replace os with (fst (run (step (fun v => T (vid v))) n init)) by now rewrite <- HL. apply HP.
  - apply (f_equal fst) in HL. cbn [fst] in HL. rewrite HL. apply HP.
Qed.
End Aware.

Lemma aware_table {S O X V I A : Type} (I_dec : forall a b : I, {a = b} + {a <> b}) (vid : V -> I) (step : (V -> A) -> S -> step_result S O X) asks nothing answer (called : S -> list I) (good : A -> Prop) init
  (step_local : forall f g s, (forall v, In v (asks s) -> f v = g v) -> step f s = step g s)
  (step_called : forall f s o s', step f s = Go o s' -> called s' = rev (map vid (asks s)) ++ called s)
  (step_asked_go : forall f s, asks s <> [] -> exists o s', step f s = Go o s')
  (once : forall T n os s, (forall i, good (T i)) -> run (step (fun v => T (vid v))) n init = (os, Running s) -> NoDup (called s))
  (none_yet : called init = []) (good_nothing : good nothing) (good_answers : forall i s v, good (edges_of nothing (answer i s v))) n :
  exists T, (forall i, good (T i)) /\ runs_like step asks nothing answer (fun v => T (vid v)) n init /\ table_of_answers step asks nothing answer vid n init T.
Proof.
  exact (aware_table_gen I_dec vid step asks nothing answer called (fun _ => good) init step_local
    (fun f s o s' H => eq_ind_r (fun c => Permutation c _) (Permutation_refl _) (step_called f s o s' H)) step_asked_go once none_yet (fun _ => good_nothing) good_answers n).
Qed.
