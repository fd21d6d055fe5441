(** Proofs for neighbor functions whose answers are read step by step. *)
From Coq Require Import List Bool Arith Lia.
From Verif Require Import Machine AwareModel AwareSpec AwareProofs LazyModel LazySpec.
Import ListNotations.

Lemma run_step_ext {S O X} (f g : S -> step_result S O X) : (forall s, f s = g s) -> forall n s, run f n s = run g n s.
Proof. intros H. induction n as [|n IH]; intros s; [reflexivity|]. cbn [run]. rewrite H. destruct (g s); auto. now rewrite IH. Qed.

Section LazyProofs.
Context {S O X V I Ed : Type}.
Variable I_dec : forall a b : I, {a = b} + {a <> b}.
Variable vid : V -> I.
Variable step : (V -> list Ed) -> S -> step_result S O X.
Variable asks : S -> list V.
Variable reading : S -> option V.
Variable set_unread : list Ed -> S -> S.
Variable read : nat -> S -> V -> X + option Ed.
Variable good : Ed -> Prop.

Hypothesis reading_set : forall a s, reading (set_unread a s) = reading s.
Hypothesis set_other : forall a s, reading s = None -> set_unread a s = s.
(** A pass that processes an edge does not touch the next ones. *)
Hypothesis step_edge : forall s v e, reading s = Some v ->
  match step (fun _ => []) (set_unread [e] s) with
  | Go o s' => reading s' = Some v /\ set_unread [] s' = s' /\ forall f r, step f (set_unread (e :: r) s) = Go o (set_unread r s')
  | Halt _ _ => False
  | Raise o x s' => forall f r, exists s2, step f (set_unread (e :: r) s) = Raise o x s2 /\ set_unread [] s2 = set_unread [] s'
  end.
Hypothesis step_last : forall s v, reading s = Some v -> exists o s', reading s' = None /\ forall f, step f (set_unread [] s) = Go o s'.
Hypothesis step_call : forall s, reading s = None -> forall v l, asks s = v :: l -> l = [] /\
  exists o s', reading s' = Some v /\ set_unread [] s' = s' /\ forall f, step f s = Go o (set_unread (f v) s').
Hypothesis step_other : forall s, reading s = None -> asks s = [] -> (forall f g, step f s = step g s) /\ (forall f o s', step f s = Go o s' -> reading s' = None).
Hypothesis asks_reading : forall s v, reading s = Some v -> asks s = [].
Hypothesis read_good : forall i s v e, read i s v = inr (Some e) -> good e.

Notation lrun := (lazy_run step reading set_unread read).
Notation arun A := (aware_run step asks [] (fun k _ _ => inr (A k))).
Notation astep A := (aware_step step asks [] (fun k _ _ => inr (A k))).
Notation same := (same_but_unread set_unread).

Lemma astep_is A i s : astep A i s = step (fun _ => A i) s.
Proof.
  unfold aware_step. assert (H : first_exception (map (fun _ : V => inr (A i) : X + list Ed) (asks s)) = None) by (induction (asks s); auto). now rewrite H.
Qed.

(** The answers that the calls in a run get *)
Fixpoint given (A : nat -> list Ed) (i n : nat) (s : S) : list (V * Ed) :=
  match n with
  | 0 => []
  | Datatypes.S n' => flat_map (fun v => map (fun e => (v, e)) (A i)) (asks s) ++
                      match step (fun _ => A i) s with Go _ s' => given A (Datatypes.S i) n' s' | _ => [] end
  end.

Lemma run_ext A B : forall n i s, (forall k, i <= k < i + n -> A k = B k) -> arun A i n s = arun B i n s /\ given A i n s = given B i n s.
Proof.
  induction n as [|n IH]; intros i s H; [auto|]. cbn [aware_run given]. rewrite !astep_is. rewrite (H i) by lia.
  destruct (step (fun _ => B i) s) as [o s'| |]; auto. destruct (IH (Datatypes.S i) s') as [-> ->]; [intros k Hk; apply H; lia|auto].
Qed.

(** The edges that will be read form the answers. *)
Lemma lazy_sim : forall n i s os r log, set_unread [] s = s -> lrun i n s = (os, r, log) ->
  exists rem A, (reading s = None -> rem = []) /\ Forall good rem /\ (forall k, Forall good (A k)) /\
    (exists m, ((m = n /\ exists r', arun A i m (set_unread rem s) = (os, r') /\ same_outcome set_unread r r') \/
                m < n /\ exists x s1 t v, r = Raised x s1 /\ reading s1 = Some v /\ read (i + m) s1 v = inl x /\ arun A i m (set_unread rem s) = (os, Running t) /\ same s1 t) /\
      log = (match reading s with Some v => map (fun e => (v, e)) rem | None => [] end) ++ given A i m (set_unread rem s)).
Proof.
  induction n as [|n IH]; intros i s os r log Hs HR; cbn [lazy_run] in HR.
  { injection HR as <- <- <-. exists [], (fun _ => []). repeat split; auto. exists 0. split.
    - left. split; [reflexivity|]. exists (Running s). cbn [aware_run]. rewrite Hs. split; reflexivity.
    - cbn [given]. now destruct (reading s). }
  unfold lazy_step in HR. destruct (reading s) as [v|] eqn:Er.
  - destruct (read i s v) as [x|[e|]] eqn:Ed0.
    + (* the iterator raises an exception *)
      injection HR as <- <- <-. exists [], (fun _ => []). repeat split; auto; try discriminate. exists 0. split; [|reflexivity].
      right. split; [lia|]. exists x, s, s, v. rewrite Nat.add_0_r. cbn [aware_run]. rewrite Hs. repeat split; auto.
    + (* an edge *)
      assert (Hg := read_good _ _ _ _ Ed0). assert (HE := step_edge s v e Er). destruct (step (fun _ => []) (set_unread [e] s)) as [o s'|o s'|o x s'] eqn:Es; [|contradiction|].
      * destruct HE as (Hr' & Hs' & HE). destruct (lrun (Datatypes.S i) n s') as [[os' r0] log'] eqn:HR'. injection HR as <- <- <-.
        destruct (IH _ _ _ _ _ Hs' HR') as (rem & A & _ & Hrem & HA & m & HO & HL). exists (e :: rem), A. split; [discriminate|]. split; [now constructor|]. split; [exact HA|].
        exists (Datatypes.S m). cbn [aware_run given]. rewrite astep_is, HE, (asks_reading _ v) by (rewrite reading_set; exact Er). cbn [flat_map app]. rewrite HL, Hr'. split; [|reflexivity].
        destruct HO as [(-> & r' & H1 & H2)|(Hm & x & s1 & t & v1 & H1 & H2 & H3 & H4 & H5)].
        -- left. split; [reflexivity|]. exists r'. rewrite H1. auto.
        -- right. split; [lia|]. exists x, s1, t, v1. rewrite H4. replace (i + Datatypes.S m) with (Datatypes.S i + m) by lia. auto.
      * injection HR as <- <- <-. exists [e], (fun _ => []). split; [discriminate|]. split; [auto|]. split; [auto|]. exists (Datatypes.S n).
        destruct (HE (fun _ => []) []) as (s2 & H1 & H2). cbn [aware_run given]. rewrite astep_is, H1, (asks_reading _ v) by (rewrite reading_set; exact Er). split; [|reflexivity].
        left. split; [reflexivity|]. eexists. split; [reflexivity|]. split; [reflexivity|]. symmetry. exact H2.
    + (* the end of the answer *)
      destruct (step_last s v Er) as (o & s' & Hr' & HE). rewrite HE in HR. destruct (lrun (Datatypes.S i) n s') as [[os' r0] log'] eqn:HR'. injection HR as <- <- <-.
      destruct (IH _ _ _ _ _ (set_other _ _ Hr') HR') as (rem & A & Hno & Hrem & HA & m & HO & HL). specialize (Hno Hr'). subst rem. rewrite (set_other _ _ Hr') in *. rewrite Hr' in HL. exists [], A.
      split; [discriminate|]. split; [auto|]. split; [exact HA|]. exists (Datatypes.S m). cbn [aware_run given]. rewrite astep_is, HE, (asks_reading _ v) by (rewrite reading_set; exact Er). cbn [flat_map app map] in *.
      split; [|exact HL].
      destruct HO as [(-> & r' & H1 & H2)|(Hm & x & s1 & t & v1 & H1 & H2 & H3 & H4 & H5)].
      * left. split; [reflexivity|]. exists r'. rewrite H1. auto.
      * right. split; [lia|]. exists x, s1, t, v1. rewrite H4. replace (i + Datatypes.S m) with (Datatypes.S i + m) by lia. auto.
  - destruct (asks s) as [|v l] eqn:Ea.
    + (* another pass *)
      destruct (step_other s Er Ea) as [HX HY]. destruct (step (fun _ => []) s) as [o s'|o s'|o x s'] eqn:Es.
      * destruct (lrun (Datatypes.S i) n s') as [[os' r0] log'] eqn:HR'. injection HR as <- <- <-. assert (Hr' := HY _ _ _ Es).
        destruct (IH _ _ _ _ _ (set_other _ _ Hr') HR') as (rem & A & Hno & Hrem & HA & m & HO & HL). specialize (Hno Hr'). subst rem. rewrite (set_other _ _ Hr') in *. rewrite Hr' in HL. exists [], A.
        split; [auto|]. split; [auto|]. split; [exact HA|]. exists (Datatypes.S m). rewrite (set_other _ _ Er). cbn [aware_run given]. rewrite astep_is, (HX _ (fun _ => [])), Es, Ea. cbn [flat_map app map] in *.
        split; [|exact HL].
        destruct HO as [(-> & r' & H1 & H2)|(Hm & x & s1 & t & v1 & H1 & H2 & H3 & H4 & H5)].
        -- left. split; [reflexivity|]. exists r'. rewrite H1. auto.
        -- right. split; [lia|]. exists x, s1, t, v1. rewrite H4. replace (i + Datatypes.S m) with (Datatypes.S i + m) by lia. auto.
      * injection HR as <- <- <-. exists [], (fun _ => []). repeat split; auto. exists (Datatypes.S n). rewrite (set_other _ _ Er). cbn [aware_run given]. rewrite astep_is, Es, Ea.
        split; [|reflexivity]. left. split; [reflexivity|]. eexists. split; [reflexivity|]. reflexivity.
      * injection HR as <- <- <-. exists [], (fun _ => []). repeat split; auto. exists (Datatypes.S n). rewrite (set_other _ _ Er). cbn [aware_run given]. rewrite astep_is, Es, Ea.
        split; [|reflexivity]. left. split; [reflexivity|]. eexists. split; [reflexivity|]. split; reflexivity.
    + (* a call *)
      destruct (step_call s Er v l Ea) as (-> & o & s' & Hr' & Hs' & HE). rewrite HE, Hs' in HR. destruct (lrun (Datatypes.S i) n s') as [[os' r0] log'] eqn:HR'. injection HR as <- <- <-.
      destruct (IH _ _ _ _ _ Hs' HR') as (rem & A & _ & Hrem & HA & m & HO & HL). rewrite Hr' in HL.
      pose (B := fun k => if Nat.eq_dec k i then rem else A k). exists [], B. split; [auto|]. split; [auto|].
      split; [intros k; unfold B; destruct (Nat.eq_dec k i); auto|]. exists (Datatypes.S m). rewrite (set_other _ _ Er). cbn [aware_run given]. rewrite astep_is, HE, Ea.
      assert (HB : B i = rem) by (unfold B; destruct (Nat.eq_dec i i); congruence). rewrite HB. cbn [flat_map]. rewrite app_nil_r.
      destruct (run_ext B A m (Datatypes.S i) (set_unread rem s')) as [-> ->].
      { intros k Hk. unfold B. destruct (Nat.eq_dec k i); [lia|reflexivity]. }
      split; [|exact HL].
      destruct HO as [(-> & r' & H1 & H2)|(Hm & x & s1 & t & v1 & H1 & H2 & H3 & H4 & H5)].
      * left. split; [reflexivity|]. exists r'. rewrite H1. auto.
      * right. split; [lia|]. exists x, s1, t, v1. rewrite H4. replace (i + Datatypes.S m) with (Datatypes.S i + m) by lia. auto.
Qed.

Variable called : S -> list I.
Variable init : S.
Hypothesis step_local : forall f g s, (forall v, In v (asks s) -> f v = g v) -> step f s = step g s.
Hypothesis step_called : forall f s o s', step f s = Go o s' -> called s' = rev (map vid (asks s)) ++ called s.
Hypothesis step_asked_go : forall f s, asks s <> [] -> exists o s', step f s = Go o s'.
Hypothesis once : forall T n os s, (forall i, Forall good (T i)) -> run (step (fun v => T (vid v))) n init = (os, Running s) -> NoDup (called s).
Hypothesis none_yet : called init = [].
Hypothesis init_reading : reading init = None.

Section Table.
Variable A : nat -> list Ed.
Hypothesis HA : forall k, Forall good (A k).
Variable N : nat.
Notation ans := (answered step asks [] (fun k _ _ => inr (A k)) init N).
Hypothesis unique : forall i v es i' v' es', ans i v es -> ans i' v' es' -> vid v = vid v' -> i = i' /\ v = v'.

Lemma ans_is k v es : ans k v es -> es = A k.
Proof. intros (os & s & _ & _ & _ & _ & H). congruence. Qed.
Lemma asks_one s : asks s = [] \/ exists v, asks s = [v].
Proof.
  destruct (reading s) as [v|] eqn:Er; [left; eapply asks_reading; eauto|]. destruct (asks s) as [|v l] eqn:Ea; [now left|right]. destruct (step_call s Er v l Ea) as [-> _]. now exists v.
Qed.
Lemma none_fails i (s : S) : first_exception (map (fun _ : V => inr (A i) : X + list Ed) (asks s)) = None.
Proof. induction (asks s); auto. Qed.
Lemma next_state i s os : arun A 0 i init = (os, Running s) ->
  (forall o s', step (fun _ => A i) s = Go o s' -> exists os', arun A 0 (Datatypes.S i) init = (os', Running s')) /\
  ((forall o s', step (fun _ => A i) s <> Go o s') -> forall k v es, ans k v es -> k <= i).
Proof.
  intros HR. assert (HS := arun_snoc step asks [] (fun k _ _ => inr (A k)) i 0 init). rewrite HR, astep_is, Nat.add_0_l, Nat.add_1_r in HS. split.
  - intros o s' E. rewrite E in HS. eauto.
  - intros Hn k v es (os1 & s1 & _ & Hk & _). destruct (le_lt_dec k i) as [H|H]; [exact H|]. exfalso.
    replace k with (Datatypes.S i + (k - Datatypes.S i)) in Hk by lia. destruct (arun_le step asks [] (fun k _ _ => inr (A k)) _ _ _ _ _ _ Hk) as (os2 & s2 & H2). rewrite HS in H2.
    destruct (step (fun _ => A i) s) as [o s'| |] eqn:E; try discriminate. eapply Hn; eauto.
Qed.
Lemma read_app (l l' : list (V * Ed)) j : edges_read I_dec vid (l ++ l') j = edges_read I_dec vid l j ++ edges_read I_dec vid l' j.
Proof. unfold edges_read. now rewrite filter_app, map_app. Qed.
Lemma read_same v (es : list Ed) j : vid v = j -> edges_read I_dec vid (map (fun e => (v, e)) es) j = es.
Proof.
  intros H. unfold edges_read. induction es as [|e es IH]; [reflexivity|]. cbn [map filter fst snd]. destruct (I_dec (vid v) j); [|contradiction]. cbn [map snd]. now rewrite IH.
Qed.
Lemma read_different v (es : list Ed) j : vid v <> j -> edges_read I_dec vid (map (fun e => (v, e)) es) j = [].
Proof. intros H. unfold edges_read. induction es as [|e es IH]; [reflexivity|]. cbn [map filter fst snd]. destruct (I_dec (vid v) j); [contradiction|]. exact IH. Qed.

Lemma given_none j : forall n i s os, i + n = N -> arun A 0 i init = (os, Running s) -> (forall k v es, i <= k -> ans k v es -> vid v <> j) -> edges_read I_dec vid (given A i n s) j = [].
Proof.
  induction n as [|n IH]; intros i s os Hi HR Hno; [reflexivity|]. cbn [given]. rewrite read_app.
  assert (H1 : edges_read I_dec vid (flat_map (fun v => map (fun e => (v, e)) (A i)) (asks s)) j = []).
  { destruct (asks_one s) as [->|[v Ea]]; [reflexivity|]. rewrite Ea. cbn [flat_map]. rewrite app_nil_r. apply read_different. apply (Hno i v (A i)); [lia|].
    exists os, s. split; [lia|]. split; [exact HR|]. split; [apply none_fails|]. split; [rewrite Ea; now left|reflexivity]. }
  rewrite H1. destruct (next_state i s os HR) as [H2 _]. destruct (step (fun _ => A i) s) as [o s'| |] eqn:E; try reflexivity. destruct (H2 _ _ eq_refl) as [os' HR'].
  apply (IH (Datatypes.S i) s' os'); [lia|exact HR'|]. intros k v es Hk. apply Hno. lia.
Qed.
Lemma given_some j : forall n i s os, i + n = N -> arun A 0 i init = (os, Running s) -> forall k v es, i <= k -> ans k v es -> vid v = j -> edges_read I_dec vid (given A i n s) j = es.
Proof.
  induction n as [|n IH]; intros i s os Hi HR k v es Hk Ha Hv.
  { destruct Ha as (_ & _ & H & _). lia. }
  cbn [given]. rewrite read_app. destruct (next_state i s os HR) as [H2 H3]. destruct (Nat.eq_dec k i) as [->|Hne].
  - assert (Hin : In v (asks s)) by (destruct Ha as (os1 & s1 & _ & H & _ & Hin & _); rewrite HR in H; injection H as _ <-; exact Hin).
    destruct (asks_one s) as [H|[v0 Ea]]; [rewrite H in Hin; destruct Hin|]. rewrite Ea in *. destruct Hin as [->|[]]. cbn [flat_map]. rewrite app_nil_r, (read_same v (A i) j Hv), (ans_is _ _ _ Ha).
    destruct (step (fun _ => A i) s) as [o s'| |] eqn:E; try apply app_nil_r. destruct (H2 _ _ eq_refl) as [os' HR'].
    rewrite (given_none j n (Datatypes.S i) s' os'), app_nil_r; [reflexivity|lia|exact HR'|]. intros k' v' es' Hk' Ha' Hv'. destruct (unique _ _ _ _ _ _ Ha Ha') as [H _]; [congruence|lia].
  - assert (H1 : edges_read I_dec vid (flat_map (fun v => map (fun e => (v, e)) (A i)) (asks s)) j = []).
    { destruct (asks_one s) as [->|[v0 Ea]]; [reflexivity|]. rewrite Ea. cbn [flat_map]. rewrite app_nil_r. apply read_different. intros Hv0. destruct (unique i v0 (A i) k v es) as [H _]; [|exact Ha|congruence|congruence].
      exists os, s. split; [lia|]. split; [exact HR|]. split; [apply none_fails|]. split; [rewrite Ea; now left|reflexivity]. }
    rewrite H1. cbn [app]. destruct (step (fun _ => A i) s) as [o s'| |] eqn:E.
    + destruct (H2 _ _ eq_refl) as [os' HR']. apply (IH (Datatypes.S i) s' os' ltac:(lia) HR' k v es); [lia|exact Ha|exact Hv].
    + assert (k <= i) by (eapply H3; [intros ? ? H; discriminate H|exact Ha]). lia.
    + assert (k <= i) by (eapply H3; [intros ? ? H; discriminate H|exact Ha]). lia.
Qed.
End Table.

(** A run is the one of the graph formed by the edges that have been read. *)
Lemma lazy_table n os r log : lrun 0 n init = (os, r, log) ->
  (forall j, Forall good (edges_read I_dec vid log j)) /\
  reads_like step reading set_unread read (fun v => edges_read I_dec vid log (vid v)) n init os r.
Proof.
  intros HR. destruct (lazy_sim n 0 init os r log (set_other _ _ init_reading) HR) as (rem & A & Hno & _ & HA & m & HO & HL). specialize (Hno init_reading). subst rem.
  rewrite (set_other _ _ init_reading) in *. rewrite init_reading in HL. cbn [app] in HL.
  destruct (aware_table I_dec vid step asks [] (fun k _ _ => inr (A k)) called (Forall good) init step_local step_called step_asked_go once none_yet (Forall_nil _) (fun i _ _ => HA i) m)
    as (T & HG & HT & (HT1 & HT2 & HT3)).
  assert (HTj : forall j, edges_read I_dec vid log j = T j).
  { intros j. rewrite HL. destruct (HT2 j) as [H|(k & v & Hv & Ha)].
    - destruct (edges_read I_dec vid (given A 0 m init) j) as [|e es] eqn:E; [now rewrite H|]. exfalso.
      assert (Hnn : forall k v es, 0 <= k -> answered step asks [] (fun k _ _ => inr (A k)) init m k v es -> vid v <> j).
      { intros k v es0 _ Ha Hv. assert (He := given_some A m HT3 j m 0 init [] (Nat.add_0_l m) eq_refl k v es0 (Nat.le_0_l k) Ha Hv). rewrite E in He. assert (H5 := HT1 _ _ _ Ha). rewrite Hv, H in H5. congruence. }
      rewrite (given_none A m j m 0 init [] (Nat.add_0_l m) eq_refl Hnn) in E. discriminate.
    - exact (given_some A m HT3 j m 0 init [] (Nat.add_0_l m) eq_refl k v (T j) (Nat.le_0_l k) Ha Hv). }
  split; [intros j; rewrite HTj; apply HG|].
  assert (HX : forall k, run (step (fun v => edges_read I_dec vid log (vid v))) k init = run (step (fun v => T (vid v))) k init).
  { intros k. apply run_step_ext. intros s. apply step_local. intros v _. apply HTj. }
  assert (HM : arun A 0 m init = run (step (fun v => T (vid v))) m init).
  { destruct HT as [H|(i & vs & x & (os1 & s1 & _ & _ & _ & H) & _)]; [exact H|]. rewrite none_fails in H. discriminate. }
  destruct HO as [(-> & r' & H1 & H2)|(Hm & x & s1 & t & v & H1 & H2 & H3 & H4 & H5)].
  - left. exists r'. rewrite HX, <- HM. auto.
  - right. exists m, x, s1, t, v. rewrite HX, <- HM. repeat split; auto.
Qed.
End LazyProofs.
