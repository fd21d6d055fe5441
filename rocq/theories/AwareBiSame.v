(** Neighbor functions of bidirectional searches whose answers always are the edges of one graph, although they look at the search, keep a state or may fail. *)
From Coq Require Import List Bool Arith ZArith Lia Permutation.
From Verif Require Import Machine MachineMore Common GearSpec Spec TraversalSpec Weight WeightSpec BFSModel BiSpec BiBFSModel BiBFSMore BiSPModel BiSPSpec AwareModel AwareSpec AwareBiModel AwareBi.
Import ListNotations.

Section Follow.
Context {S O X V A : Type}.
Variable step : (V -> A) -> S -> step_result S O X.
Variable asks : S -> list V.
Variable nothing : A.
Variable answer : nat -> S -> V -> X + A.
Hypothesis step_local : forall f g s, (forall v, In v (asks s) -> f v = g v) -> step f s = step g s.
Notation arun := (aware_run step asks nothing answer).
Variable g : V -> A.

Lemma first_exception_none (l : list (X + A)) : first_exception l = None -> forall a, In a l -> exists es, a = inr es.
Proof. induction l as [|[x|es] l IH]; simpl; intros H a Ha; [destruct Ha|discriminate|destruct Ha as [<-|Ha]; eauto]. Qed.

Lemma follows_or_fails n : forall i s,
  (forall k os s' v es, k < n -> arun i k s = (os, Running s') -> first_exception (map (answer (i + k) s') (asks s')) = None -> In v (asks s') -> answer (i + k) s' v = inr es -> g v = es) ->
  arun i n s = run (step g) n s \/
  exists k os s' x, k < n /\ arun i k s = (os, Running s') /\ first_exception (map (answer (i + k) s') (asks s')) = Some x /\ exists os2 s2, arun i n s = (os2, Raised x s2).
Proof using step_local.
  induction n as [|n IH]; intros i s H; [now left|].
  destruct (first_exception (map (answer i s) (asks s))) as [x|] eqn:Ef.
  { right. exists 0, [], s, x. rewrite Nat.add_0_r. split; [lia|]. split; [reflexivity|split; [exact Ef|]].
    cbn [aware_run]. unfold aware_step. rewrite Ef. destruct (step (fun _ => nothing) s); eauto. }
  assert (Hstep : aware_step step asks nothing answer i s = step g s).
  { unfold aware_step. rewrite Ef. apply step_local. intros v Hv.
    destruct (first_exception_none _ Ef (answer i s v)) as (es & He); [now apply in_map|]. rewrite He. cbn. symmetry.
    apply (H 0 [] s v es); [lia|reflexivity|now rewrite Nat.add_0_r|exact Hv|now rewrite Nat.add_0_r]. }
  cbn [aware_run run]. rewrite Hstep. destruct (step g s) as [o s1|o s1|o x s1] eqn:Es; auto.
  assert (Hshift : forall k os s', arun (Datatypes.S i) k s1 = (os, Running s') -> arun i (Datatypes.S k) s = (o ++ os, Running s')).
  { intros k os s' HR. cbn [aware_run]. rewrite Hstep. now rewrite HR. }
  destruct (IH (Datatypes.S i) s1) as [IH1|(k & os & s' & x & Hk & HR & Hx & os2 & s2 & HE)].
  - intros k os s' v es Hk HR Hn Hv Ha. apply (H (Datatypes.S k) (o ++ os) s' v es); [lia|apply Hshift; exact HR| |exact Hv|]; rewrite Nat.add_succ_r; assumption.
  - left. now rewrite IH1.
  - right. exists (Datatypes.S k), (o ++ os), s', x. split; [lia|]. split; [apply Hshift; exact HR|]. rewrite Nat.add_succ_r. split; [exact Hx|]. rewrite HE. cbn. eauto.
Qed.
End Follow.

(** Answers completed by those of ordinary functions. *)
Definition completed {V I A} (vid : V -> I) (T : bool * I -> list A) (f : bool * V -> list A) (v : bool * V) : list A :=
  match T (did vid v) with [] => f v | es => es end.

Section Same.
Context {V I L : Type}.
Variable V_dec : forall a b : V, {a = b} + {a <> b}.
Variable I_dec : forall a b : I, {a = b} + {a <> b}.
Variable vid : V -> I.
Variable PM : PMap I V.
Variable LM : PMap I L.
Variables labeled build silent : bool.
Variables starts goals : list V.
Hypothesis Hs : NoDup (map vid starts).
Hypothesis Hg : NoDup (map vid goals).
Variable lim : option Z.

Lemma bb_aware_same (VS : VSet I) (E : I -> I -> Prop) (f b : V -> list (V * L)) (answer : nat -> @bb_state V I L VS PM LM -> bool * V -> exn + list (V * L)) n :
  presents vid f E -> presents vid b (fun i j => E j i) ->
  (forall i s d v es, answer i s (d, v) = inr es -> forall j, In j (map (fun e => vid (fst e)) es) <-> if d : bool then E (vid v) j else E j (vid v)) ->
  let pass := bb_pass V_dec vid VS PM LM labeled build silent in let init := bb_init vid VS PM LM labeled build starts goals lim in
  exists next_f next_b, presents vid next_f E /\ presents vid next_b (fun i j => E j i) /\
    (aware_run pass bb_asks [] answer 0 n init = run (bb_step V_dec vid VS PM LM next_f next_b labeled build silent) n init \/
     exists i vs x os2 s2, failed pass bb_asks [] answer init n i vs x /\ aware_run pass bb_asks [] answer 0 n init = (os2, Raised x s2)).
Proof using Hs Hg I_dec.
  intros Hf Hb Hans pass init. destruct (bb_aware V_dec vid VS PM LM labeled build silent I_dec starts goals lim answer n Hs Hg) as (T & _ & (HT & HO & _)).
  set (fb := fun dv : bool * V => if fst dv then f (snd dv) else b (snd dv)). set (g := completed vid T fb).
  assert (Hfb : forall d v j, In j (map (fun e => vid (fst e)) (fb (d, v))) <-> if d : bool then E (vid v) j else E j (vid v)) by (intros [|] v j; [apply Hf|apply Hb]).
  assert (Hpres : forall d v j, In j (map (fun e => vid (fst e)) (g (d, v))) <-> if d : bool then E (vid v) j else E j (vid v)).
  { intros d v j. unfold g, completed. destruct (T (did vid (d, v))) as [|e es] eqn:Et; [apply Hfb|].
    destruct (HO (did vid (d, v))) as [Hn|(i & [d' v'] & Hv & (os & s' & _ & _ & _ & _ & Ha))]; [rewrite Hn in Et; discriminate|].
    rewrite Et in Ha. unfold did in Hv. cbn in Hv. injection Hv as -> Hv2. rewrite <- Hv2. exact (Hans _ _ _ _ _ Ha j). }
  exists (fun v => g (true, v)), (fun v => g (false, v)). split; [intros v j; apply (Hpres true)|]. split; [intros v j; apply (Hpres false)|].
  destruct (follows_or_fails pass bb_asks [] answer (bb_local V_dec vid VS PM LM labeled build silent) g n 0 init) as [H|(k & os & s' & x & Hk & HR & Hx & os2 & s2 & HE)].
  - intros k os s' v es Hk HR Hn Hv Ha. cbn [Nat.add] in *. 
    assert (Hd : answered pass bb_asks [] answer init n k v es) by (exists os, s'; repeat (split; [assumption|]); assumption).
    pose proof (HT _ _ _ Hd) as Ht. unfold g, completed. rewrite Ht. destruct es as [|e es]; [|reflexivity].
    destruct v as [d v]. destruct (fb (d, v)) as [|e es] eqn:Ef; [reflexivity|exfalso].
    assert (Hin : In (vid (fst e)) (map (fun e => vid (fst e)) (fb (d, v)))) by (rewrite Ef; now left). apply Hfb in Hin. apply (Hans _ _ _ _ _ Ha) in Hin. destruct Hin.
  - left. exact H.
  - right. exists k, (bb_asks s'), x, os2, s2. split; [exists os, s'; auto|exact HE].
Qed.

(** The result is that of C31. *)
Lemma bb_aware_exact (VS : VSet I) (E : I -> I -> Prop) (f b : V -> list (V * L)) (answer : nat -> @bb_state V I L VS PM LM -> bool * V -> exn + list (V * L)) n os r :
  presents vid f E -> presents vid b (fun i j => E j i) -> bb_common I_dec vid starts goals = None ->
  (forall i s d v es, answer i s (d, v) = inr es -> forall j, In j (map (fun e => vid (fst e)) es) <-> if d : bool then E (vid v) j else E j (vid v)) ->
  let pass := bb_pass V_dec vid VS PM LM labeled build silent in let init := bb_init vid VS PM LM labeled build starts goals lim in
  aware_run pass bb_asks [] answer 0 n init = (os, r) ->
  match r with
  | Running _ => os = []
  | Ended _ => exists x, os = [x] /\
      ((exists k, br_length x = Z.of_nat k /\ shortest_connection vid E starts goals k) \/
       (silent = true /\ br_length x = (-1)%Z /\ forall k, ~ connection vid E starts goals k))
  | Raised e _ =>
      (os = [] /\ ((e = RuntimeErrorLimit /\ lim <> None) \/ (e = KeyErrorNotFound /\ silent = false /\ forall k, ~ connection vid E starts goals k))) \/
      exists i vs, failed pass bb_asks [] answer init n i vs e
  end.
Proof using Hs Hg I_dec.
  intros Hf Hb Hcom Hans pass init HR.
  destruct (bb_aware_same VS E f b answer n Hf Hb Hans) as (nf & nb & Hnf & Hnb & [H|(i & vs & x & os2 & s2 & Hfail & H)]); fold pass init in H; rewrite HR in H.
  - pose proof (bb_run_exact V_dec I_dec vid VS PM LM nf nb labeled build silent E Hnf Hnb starts goals lim n os r) as K.
    unfold bb_run in K. rewrite Hcom in K. specialize (K (eq_sym H)). destruct r as [s|s|e s]; auto.
  - inversion H; subst. right. exists i, vs. exact Hfail.
Qed.

Lemma b2_aware_same (WT : Weights) (Hex : exact_addition WT) (DM : DMap I (w_t WT) (w_inf WT)) (E : I -> w_t WT -> I -> Prop) (f b : V -> list (V * w_t WT * L))
    (answer : nat -> @b2_state V I L WT DM PM LM -> bool * V -> exn + list (V * w_t WT * L)) first n :
  presents_weighted WT vid f E -> presents_weighted WT vid b (fun i w j => E j w i) -> nonnegative WT E ->
  (forall i, is_start vid starts i -> is_start vid goals i -> False) ->
  (forall i s d v es, answer i s (d, v) = inr es -> forall w j, In (w, j) (map (fun e => (snd (fst e), vid (fst (fst e)))) es) <-> if d : bool then E (vid v) w j else E j w (vid v)) ->
  let pass := b2_pass V_dec vid WT DM PM LM labeled build silent in let init := b2_init vid WT DM PM LM build first starts goals lim in
  exists next_f next_b, presents_weighted WT vid next_f E /\ presents_weighted WT vid next_b (fun i w j => E j w i) /\
    (aware_run pass (b2_asks vid WT) [] answer 0 n init = run (b2_step V_dec vid WT DM PM LM next_f next_b labeled build silent) n init \/
     exists i vs x os2 s2, failed pass (b2_asks vid WT) [] answer init n i vs x /\ aware_run pass (b2_asks vid WT) [] answer 0 n init = (os2, Raised x s2)).
Proof using Hs Hg I_dec.
  intros Hf Hb Hnn Hdis Hans pass init.
  assert (Hpos : forall i s v es e, answer i s v = inr es -> In e es -> w_leb WT (w_zero WT) (snd (fst e)) = true).
  { intros i s [d v] es e Ha He. assert (Hin : In (snd (fst e), vid (fst (fst e))) (map (fun e => (snd (fst e), vid (fst (fst e)))) es)) by (apply in_map_iff; eauto).
    apply (Hans _ _ _ _ _ Ha) in Hin. destruct d; eapply Hnn; exact Hin. }
  destruct (b2_aware V_dec I_dec vid WT Hex DM PM LM labeled build silent starts goals first lim answer n Hs Hg Hdis Hpos) as (T & _ & _ & (HT & HO & _)).
  set (fb := fun dv : bool * V => if fst dv then f (snd dv) else b (snd dv)). set (g := completed vid T fb).
  assert (Hfb : forall d v w j, In (w, j) (map (fun e => (snd (fst e), vid (fst (fst e)))) (fb (d, v))) <-> if d : bool then E (vid v) w j else E j w (vid v)) by (intros [|] v w j; [apply Hf|apply Hb]).
  assert (Hpres : forall d v w j, In (w, j) (map (fun e => (snd (fst e), vid (fst (fst e)))) (g (d, v))) <-> if d : bool then E (vid v) w j else E j w (vid v)).
  { intros d v w j. unfold g, completed. destruct (T (did vid (d, v))) as [|e es] eqn:Et; [apply Hfb|].
    destruct (HO (did vid (d, v))) as [Hn|(i & [d' v'] & Hv & (os & s' & _ & _ & _ & _ & Ha))]; [rewrite Hn in Et; discriminate|].
    rewrite Et in Ha. unfold did in Hv. cbn in Hv. injection Hv as -> Hv2. rewrite <- Hv2. exact (Hans _ _ _ _ _ Ha w j). }
  exists (fun v => g (true, v)), (fun v => g (false, v)). split; [intros v w j; apply (Hpres true)|]. split; [intros v w j; apply (Hpres false)|].
  destruct (follows_or_fails pass (b2_asks vid WT) [] answer (b2_local V_dec vid WT DM PM LM labeled build silent) g n 0 init) as [H|(k & os & s' & x & Hk & HR & Hx & os2 & s2 & HE)].
  - intros k os s' v es Hk HR Hn Hv Ha. cbn [Nat.add] in *.
    assert (Hd : answered pass (b2_asks vid WT) [] answer init n k v es) by (exists os, s'; repeat (split; [assumption|]); assumption).
    pose proof (HT _ _ _ Hd) as Ht. unfold g, completed. rewrite Ht. destruct es as [|e es]; [|reflexivity].
    destruct v as [d v]. destruct (fb (d, v)) as [|e es] eqn:Ef; [reflexivity|exfalso].
    assert (Hin : In (snd (fst e), vid (fst (fst e))) (map (fun e => (snd (fst e), vid (fst (fst e)))) (fb (d, v)))) by (rewrite Ef; now left).
    apply Hfb in Hin. apply (Hans _ _ _ _ _ Ha) in Hin. destruct Hin.
  - left. exact H.
  - right. exists k, (b2_asks vid WT s'), x, os2, s2. split; [exists os, s'; auto|exact HE].
Qed.
End Same.
