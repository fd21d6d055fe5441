(** The statements about the neighbors-then-depth traversal without preloaded vertices, and the order of expansion. *)
From Coq Require Import List ZArith Bool Lia Arith.
From Verif Require Import Machine MachineMore GearSpec Spec TraversalSpec Common PathsModel PathsSpec
  BFSMore BFSProofs Forest NTDModel NTDProofs.
Import ListNotations.

Section NTDMore.
Context {V I L : Type}.
Variable V_dec : forall a b : V, {a = b} + {a <> b}.
Variable I_dec : forall a b : I, {a = b} + {a <> b}.
Variable vid : V -> I.
Variable VS : VSet I.
Variable PM : PMap I V.
Variable LM : PMap I L.
Variable next : V -> list (V * L).
Variable cfg : ntd_cfg.
Hypothesis Htree : nc_is_tree cfg = false.
Variable E : I -> I -> Prop.
Hypothesis Hnext : presents vid next E.
Variable starts : list V.
Notation St := (is_start vid starts).
Notation run_ := (ntd_run vid VS PM LM next cfg starts).

Lemma ntd_none_reported lim n os r : run_ None lim n = (os, r) ->
  NoDup (ntd_ids vid os) /\
  (forall rep, In rep os -> ~ St (vid (nr_vertex rep)) /\ reachable E St (vid (nr_vertex rep))) /\
  (forall x s', r = Raised x s' -> x = RuntimeErrorLimit) /\
  (forall s', r = Ended s' ->
     (forall i, reachable E St i -> St i \/ In i (ntd_ids vid os)) /\
     (forall i, vs_mem VS i (n_visited s') = true <-> St i \/ In i (ntd_ids vid os))).
Proof.
  intros HR. destruct (ntd_av_reported I_dec vid VS PM LM next cfg Htree E Hnext starts None lim n os r HR)
    as (H1 & H2 & _ & _ & H4 & H5).
  split; [exact H1|split; [|split; [exact H4|]]].
  - intros rep Hrep. destruct (H2 rep Hrep) as (Ha & _ & Hb). split; auto.
    now apply (reachable_iff _ _ St (avoiding_none VS E)).
  - intros s' Hs'. destruct (H5 s' Hs') as [H6 H7]. split.
    + intros i Hi. apply H6. now apply (reachable_iff _ _ St (avoiding_none VS E)).
    + intros i. rewrite H7. simpl. tauto.
Qed.

Lemma ntd_none_terminates l : (forall i, reachable E St i -> In i l) ->
  exists n os s', run_ None None n = (os, Ended s').
Proof.
  intros Hl. apply (ntd_av_terminates I_dec vid VS PM LM next cfg Htree E Hnext starts None l). intros i Hi. apply Hl.
  now apply (reachable_iff _ _ St (avoiding_none VS E)).
Qed.

Lemma ntd_all_paths av lim n os r : run_ av lim n = (os, r) ->
  (forall rep, In rep os -> exists k,
     (nc_compute_depth cfg = true -> nr_depth rep = Z.of_nat k) /\
     (exists s0 p, St s0 /\ walk E s0 p (vid (nr_vertex rep)) /\ length p = k) /\
     (nc_build_paths cfg = true -> starts_distinct vid starts ->
      exists l, path_list (next_edge next) (fun u => In u starts) l (nr_vertex rep) /\
        length l = k + 1 /\
        delivers V_dec vid PM LM (nr_pred rep) (nr_labels rep) (nc_labeled cfg) (next_label next) (nr_vertex rep) l /\
        delivers V_dec vid PM LM (n_pred (outcome_state r)) (n_labels (outcome_state r)) (nc_labeled cfg)
          (next_label next) (nr_vertex rep) l)) /\
  (nc_build_paths cfg = true -> starts_distinct vid starts -> forall v, In v starts ->
     delivers V_dec vid PM LM (n_pred (outcome_state r)) (n_labels (outcome_state r)) (nc_labeled cfg) (next_label next) v [v]) /\
  (nc_build_paths cfg = true -> forall v, paths_contains vid PM (n_pred (outcome_state r)) v = true <->
     St (vid v) \/ In (vid v) (ntd_ids vid os)) /\
  (nc_compute_depth cfg = true -> forall v d, In (v, d) (n_calls (outcome_state r)) ->
     (In v starts /\ d = 0%Z) \/ exists rep, In rep os /\ nr_vertex rep = v /\ nr_depth rep = d).
Proof.
  intros HR. destruct (ntd_av_paths V_dec I_dec vid VS PM LM next cfg Htree E Hnext starts av lim n os r HR)
    as (H1 & H2 & H3 & H4).
  split; [|auto]. intros rep Hrep. destruct (H1 rep Hrep) as (k & K1 & (s0 & p & P1 & P2 & P3) & K3). exists k.
  split; [auto|]. split.
  - exists s0, p. split; [auto|]. split; [|auto]. eapply walk_mono; [|exact P2]. now intros i j [].
  - intros Hb Hd. destruct (K3 Hb Hd) as (l & (s1 & q & -> & Q1 & Q2) & L2 & L3 & L4). exists (s1 :: q). split.
    + exists s1, q. split; [auto|]. split; [auto|]. eapply walk_mono; [|exact Q2]. now intros a b [].
    + split; [lia|]. auto.
Qed.

(** The order of expansion. *)
Definition done_after (calls : list V) (known : list V) (stack : list V) : Prop :=
  (* what is on the stack are vertices of [known], in reverse order; all others are done *)
  exists f : list bool, length f = length known /\
    stack = rev (map fst (filter (fun x => negb (snd x)) (combine known f))) /\
    forall v, In (v, true) (combine known f) -> In v calls.

Lemma combine_snoc {A B} (a : list A) (b : list B) x y : length a = length b ->
  combine (a ++ [x]) (b ++ [y]) = combine a b ++ [(x, y)].
Proof. revert b. induction a as [|p a IH]; intros [|q b] H; simpl in *; try discriminate; auto. rewrite IH; auto. Qed.

Lemma done_after_push calls known stack v : done_after calls known stack -> done_after calls (known ++ [v]) (v :: stack).
Proof.
  intros (f & Hl & -> & Hc). exists (f ++ [false]). split; [rewrite !app_length; simpl; lia|].
  rewrite combine_snoc by auto. split.
  - rewrite filter_app, map_app, rev_app_distr. reflexivity.
  - intros w Hw. apply in_app_or in Hw. destruct Hw as [Hw|[Hw|[]]]; auto. congruence.
Qed.

Lemma last_open (known : list V) : forall f v r, length f = length known ->
  v :: r = rev (map fst (filter (fun x => negb (snd x)) (combine known f))) ->
  exists k1 f1 k2 f2, known = k1 ++ v :: k2 /\ f = f1 ++ false :: f2 /\ length f1 = length k1 /\ length f2 = length k2 /\
    r = rev (map fst (filter (fun x => negb (snd x)) (combine k1 f1))) /\
    (forall w, In w k2 -> In (w, true) (combine k2 f2)) /\
    filter (fun x => negb (snd x)) (combine k2 f2) = [].
Proof.
  induction known as [|a known IH] using rev_ind; intros f v r Hl Hr; [destruct f; discriminate|].
  destruct f as [|b f _] using rev_ind; [rewrite app_length in Hl; simpl in Hl; lia|].
  rewrite !app_length in Hl. simpl in Hl. assert (Hl' : length f = length known) by lia.
  rewrite combine_snoc in Hr by auto. rewrite filter_app, map_app, rev_app_distr in Hr. destruct b; simpl in Hr.
  - destruct (IH f v r Hl' Hr) as (k1 & f1 & k2 & f2 & -> & -> & A1 & A2 & A3 & A4 & A5).
    exists k1, f1, (k2 ++ [a]), (f2 ++ [true]). rewrite <- !app_assoc. simpl. do 3 (split; [auto|]).
    split; [rewrite !app_length; simpl; lia|]. split; [auto|]. rewrite combine_snoc by auto. split.
    + intros w Hw. apply in_or_app. apply in_app_or in Hw. destruct Hw as [Hw|[->|[]]]; auto. right. now left.
    + rewrite filter_app, A5. reflexivity.
  - injection Hr as -> ->. exists known, f, [], []. repeat split; auto.
Qed.

Lemma combine_app {A B} (a1 a2 : list A) (b1 b2 : list B) : length a1 = length b1 ->
  combine (a1 ++ a2) (b1 ++ b2) = combine a1 b1 ++ combine a2 b2.
Proof. revert b1. induction a1 as [|p a IH]; intros [|q b] H; simpl in *; try discriminate; auto. rewrite IH; auto. Qed.

Lemma done_after_pop calls known v r : done_after calls known (v :: r) ->
  done_after (v :: calls) known r /\
  exists k1 k2, known = k1 ++ v :: k2 /\ forall w, In w k2 -> In w calls.
Proof.
  intros (f & Hl & Hs & Hc). destruct (last_open known f v r Hl Hs) as (k1 & f1 & k2 & f2 & -> & -> & A1 & A2 & A3 & A4 & A5).
  rewrite combine_app in Hc by auto. simpl in Hc. split.
  - exists (f1 ++ true :: f2). split; [rewrite !app_length in *; simpl in *; lia|]. rewrite combine_app by auto. simpl. split.
    + rewrite filter_app. simpl. rewrite A5, app_nil_r. auto.
    + intros w Hw. apply in_app_or in Hw. destruct Hw as [Hw|[Hw|Hw]].
      * right. apply Hc. apply in_or_app. auto.
      * injection Hw as ->. now left.
      * right. apply Hc. apply in_or_app. right. now right.
  - exists k1, k2. split; [auto|]. intros w Hw. apply Hc. apply in_or_app. right. right. auto.
Qed.

Lemma done_after_starts l : done_after [] l (rev l).
Proof.
  induction l as [|a l IH] using rev_ind.
  - exists []. split; [auto|]. split; [auto|]. contradiction.
  - rewrite rev_app_distr. simpl. now apply done_after_push.
Qed.

Definition order_ok (os : list (@ntd_report V I L VS PM LM)) (calls : list V) : Prop :=
  forall c1 v c2, calls = c1 ++ v :: c2 -> exists o1 o2, os = o1 ++ o2 /\
    exists k1 k2, starts ++ map nr_vertex o1 = k1 ++ v :: k2 /\ forall w, In w k2 -> In w c2.

Lemma ntd_order av lim n os r : run_ av lim n = (os, r) -> order_ok os (map fst (n_calls (outcome_state r))).
Proof.
  intros HR.
  set (Q := fun (os : list (@ntd_report V I L VS PM LM)) (s : ntd_state VS PM LM) =>
    done_after (map fst (n_calls s)) (starts ++ map nr_vertex os) (n_to_expand s) /\ order_ok os (map fst (n_calls s))).
  assert (Henter : forall os s v q s1, Q os s -> n_to_expand s = v :: q -> ntd_enter VS PM LM cfg s q = Some s1 ->
     n_to_expand s1 = q /\ n_calls s1 = n_calls s).
  { intros os0 s v q s1 _ _ He. unfold ntd_enter in He. destruct (nc_compute_depth cfg).
    - destruct (ntd_leave _ _) as [[m d]|]; [|discriminate]. injection He as <-. auto.
    - injection He as <-. auto. }
  assert (Hstep : forall os s o s', Q os s -> ntd_step vid VS PM LM next cfg s = Go o s' -> Q (os ++ o) s').
  { intros os0 s o s' HQ Hst. unfold ntd_step in Hst. destruct (n_pc s) as [|v [|[w l] rest]].
    - destruct (n_to_expand s) as [|v q] eqn:Hte; [discriminate|]. destruct (ntd_enter _ _ _ _ _ _) as [s1|] eqn:He; [|discriminate].
      destruct (Henter os0 s v q s1 HQ Hte He) as [E1 E2]. destruct HQ as [D O].
      destruct (limit_check _); [|discriminate]. injection Hst as <- <-. rewrite app_nil_r. rewrite Hte in D.
      destruct (done_after_pop _ _ _ _ D) as [D1 D2]. split; simpl; rewrite E2; [now rewrite E1|].
      intros [|c c1] u c2 Heq; simpl in Heq; injection Heq as Ha Hb.
      + subst. exists os0, []. rewrite app_nil_r. split; auto.
      + apply (O c1 u c2). auto.
    - injection Hst as <- <-. rewrite app_nil_r. auto.
    - destruct (_ && _); injection Hst as <- <-; [rewrite app_nil_r; auto|]. destruct HQ as [D O]. split; simpl.
      + rewrite map_app, app_assoc. now apply done_after_push.
      + intros c1 u c2 Heq. destruct (O c1 u c2 Heq) as (o1 & o2 & -> & K). exists o1, (o2 ++ [ntd_observe VS PM LM w (ntd_mark vid VS PM LM cfg s v w l rest)]).
        rewrite app_assoc. split; auto. }
  assert (Hinit : Q [] (ntd_init vid VS PM LM cfg starts av lim)).
  { split; simpl.
    - rewrite app_nil_r. apply done_after_starts.
    - intros [|] ? ? Heq; discriminate. }
  pose proof (run_inv_any _ Q Hstep n [] _ os r Hinit HR) as H. destruct r as [s|s|x s]; simpl in *.
  - apply H.
  - destruct H as (os1 & o & s1 & -> & HQ & Hh). unfold ntd_step in Hh. destruct (n_pc s1) as [|v [|[w l] rest]].
    + destruct (n_to_expand s1) as [|v q]; [injection Hh as <- <-; rewrite app_nil_r; apply HQ|].
      destruct (ntd_enter _ _ _ _ _ _); [|discriminate]. destruct (limit_check _); discriminate.
    + discriminate.
    + destruct (_ && _); discriminate.
  - destruct H as (os1 & o & s1 & -> & HQ & Hh). unfold ntd_step in Hh. destruct (n_pc s1) as [|v [|[w l] rest]].
    + destruct (n_to_expand s1) as [|v q] eqn:Hte; [discriminate|]. destruct (ntd_enter _ _ _ _ _ _) as [s2|] eqn:He.
      * destruct (Henter os1 s1 v q s2 HQ Hte He) as [E1 E2]. destruct (limit_check _); [discriminate|].
        injection Hh as <- <- <-. rewrite app_nil_r, E2. apply HQ.
      * injection Hh as <- <- <-. rewrite app_nil_r. apply HQ.
    + discriminate.
    + destruct (_ && _); discriminate.
Qed.
End NTDMore.
