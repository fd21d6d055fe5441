(** Bidirectional breadth first search: which vertices are read (C95). *)
From Coq Require Import List ZArith Bool Arith Lia.
From Verif Require Import Spec Machine GearSpec Common TraversalSpec BFSModel BFSProofs BiBFSModel BiSpec BiBFSProofs BiBFSMore BiReadSpec.
Import ListNotations.

Section BiBFSRead.
Context {V I L : Type}.
Variable V_dec : forall a b : V, {a = b} + {a <> b}.
Variable I_dec : forall a b : I, {a = b} + {a <> b}.
Variable vid : V -> I.
Variable VS : VSet I.
Variable PM : PMap I V.
Variable LM : PMap I L.
Variable next_f next_b : V -> list (V * L).
Variables labeled build silent : bool.
Variable E : I -> I -> Prop.
Hypothesis Hf : presents vid next_f E.
Hypothesis Hb : presents vid next_b (fun i j => E j i).
Variables starts goals : list V.
Variable lim : option Z.
Notation cfg := (bb_cfg labeled build).
Notation nx := (nx next_f next_b).
Notation Ed := (Ed E).
Notation st := (st starts goals).
Notation SInv f := (Inv vid VS PM LM (nx f) cfg (Ed f) (st f) None).
Notation state := (@bb_state V I L VS PM LM).
Notation step := (bb_step V_dec vid VS PM LM next_f next_b labeled build silent).
Notation init := (bb_init vid VS PM LM labeled build starts goals lim).
Notation cur s := (bs_state (bb_current s)).
Notation oth s := (bs_state (bb_other s)).
Notation BB := (BB vid VS PM LM next_f next_b labeled build E starts goals).
Notation connected := (connected vid E starts goals).

Definition lag (f : bool) : nat := if f then 0 else 1.

Definition near (f : bool) (v : V) : Prop :=
  exists k, steps_away vid (Ed f) (st f) v k /\ forall l, connected l -> 2 * k + lag f < l.
Definition calls_near (f : bool) (b : @bfs_state V I L VS PM LM) : Prop := forall v, In v (b_calls b) -> near f v.

Definition dead (b : @bfs_state V I L VS PM LM) : Prop := b_pc b = BWhile /\ b_to_expand b = [].

Record RB (s : state) : Prop := {
  rb_bb : BB s;
  rb_cur : calls_near (bb_forwards s) (cur s);
  rb_oth : calls_near (negb (bb_forwards s)) (oth s);
  rb_rel : dead (cur s) \/ (b_depth (cur s) + Z.of_nat (lag (bb_forwards s)) = b_depth (oth s))%Z
}.

Lemma side_calls next b o b' : bfs_step vid VS PM LM next cfg b = Go o b' ->
  (b_calls b' = b_calls b /\ (b_depth b' = b_depth b \/ b_depth b' = b_depth b + 1 /\ b_pc b' = BWhile /\ b_to_expand b' = b_next b)%Z) \/
  (exists v q, b_pc b <> BWhile /\ b_to_expand b = v :: q /\ b_calls b' = v :: b_calls b /\ b_depth b' = b_depth b).
Proof.
  intros Hs. unfold bfs_step in Hs. destruct (b_pc b) as [| |v [|[n l] rest]] eqn:Hpc.
  - destruct (b_to_expand b); [discriminate|]. injection Hs as <- <-. left. auto.
  - destruct (b_to_expand b) as [|v q] eqn:Hte.
    + injection Hs as <- <-. left. split; [reflexivity|]. right. auto.
    + destruct (limit_check (b_limit b)); [|discriminate]. injection Hs as <- <-. right. exists v, q. split; [congruence|]. auto.
  - injection Hs as <- <-. left. auto.
  - destruct (_ && _); injection Hs as <- <-; left; auto.
Qed.

Lemma near_calls f b b' : calls_near f b -> b_calls b' = b_calls b -> calls_near f b'.
Proof. intros H E1 v Hv. rewrite E1 in Hv. auto. Qed.

Lemma new_near s v q : BB s -> (b_depth (cur s) + Z.of_nat (lag (bb_forwards s)) = b_depth (oth s))%Z -> b_to_expand (cur s) = v :: q -> near (bb_forwards s) v.
Proof using Hf Hb.
  intros [(F & d & HI) (F' & d' & HI' & HD') Hpc' HA HP] Hrel Hte.
  destruct (i_d _ _ _ _ _ _ _ _ _ _ _ _ HI) as [Hd Hd1]. destruct (i_d _ _ _ _ _ _ _ _ _ _ _ _ HI') as [Hd' Hd1'].
  destruct (i_te _ _ _ _ _ _ _ _ _ _ _ _ HI v) as (Hlv & _); [rewrite Hte; now left|].
  destruct (lv_walk vid VS PM LM (nx (bb_forwards s)) cfg (Ed (bb_forwards s)) (st (bb_forwards s)) F d (cur s) (vid v) (d - 1) HI Hlv) as (s0 & p & W1 & W2 & W3).
  exists (d - 1). split; [exists s0, p; auto|]. intros l Hl.
  pose proof (apart vid VS PM LM next_f next_b labeled build E starts goals (bb_forwards s) F d (cur s) F' d' (oth s) HI HI' HA l Hl) as H.
  lia.
Qed.

Lemma RB_step s : RB s -> match step s with Go _ s' => RB s' | Halt _ s' | Raise _ _ s' => calls_near (bb_forwards s') (cur s') /\ calls_near (negb (bb_forwards s')) (oth s') end.
Proof using Hf Hb I_dec.
  intros [HB Hc Ho Hr]. pose proof (BB_step V_dec I_dec vid VS PM LM next_f next_b labeled build silent E Hf Hb starts goals s HB) as HS.
  pose proof HB as [(F & d & HI) (F' & d' & HI' & HD') Hpc' HA HP].
  unfold bb_step in *. change (if bb_forwards s then next_f else next_b) with (nx (bb_forwards s)) in *.
  destruct (bfs_step vid VS PM LM (nx (bb_forwards s)) cfg (cur s)) as [o b|o b|o x b] eqn:Hs.
  - assert (Hnd : ~ dead (cur s)).
    { intros [D1 D2]. unfold bfs_step in Hs. rewrite D1, D2 in Hs. discriminate. }
    destruct Hr as [Hr|Hr]; [contradiction|].
    assert (Hcb : calls_near (bb_forwards s) b).
    { destruct (side_calls _ _ _ _ Hs) as [(E1 & _)|(v & q & _ & E1 & E2 & _)]; [eapply near_calls; eauto|].
      intros u Hu. rewrite E2 in Hu. destruct Hu as [<-|Hu]; [eapply new_near; eauto|auto]. }
    destruct (side_step I_dec vid VS PM LM (nx (bb_forwards s)) cfg (cfg_tree labeled build) (cfg_rdi labeled build) (Ed (bb_forwards s)) (presents_nx vid next_f next_b E Hf Hb _) (st (bb_forwards s)) F d _ _ _ HI Hs)
      as [d2 -> HI2 Hd2 _ Hv Hn|v r -> Hrv Hrd HI2 Hnew Hv Hn|v r x -> Hrv Hrd Hn HI2 Hpc2 Hv Hn2 Hte2].
    + cbn [bb_consume] in *. destruct HS as [_ HS]. constructor; cbn; auto.
      destruct (side_calls _ _ _ _ Hs) as [(_ & [E1|(E1 & E2 & E3)])|(v & q & _ & _ & _ & E1)]; [right; lia| |right; lia].
      left. split; [exact E2|]. rewrite E3.
      destruct Hd2 as [->|Hd2]; [|exact Hd2].
      destruct (i_d _ _ _ _ _ _ _ _ _ _ _ _ HI) as [Hd _]. destruct (i_d _ _ _ _ _ _ _ _ _ _ _ _ HI2) as [Hd' _]. lia.
    + cbn [bb_consume bb_set_current bb_prev bb_current bb_other bb_forwards bs_state bs_depth] in *. 
      assert (Hdb : b_depth b = b_depth (cur s)).
      { destruct (i_d _ _ _ _ _ _ _ _ _ _ _ _ HI) as [Hd _]. destruct (i_d _ _ _ _ _ _ _ _ _ _ _ _ HI2) as [Hd' _]. lia. }
      destruct (match bb_prev s with Some u => if V_dec u (br_vertex r) then true else false | None => false end).
      * destruct HS as [_ HS]. exfalso. pose proof (bb_oth_pc _ _ _ _ _ _ _ _ _ _ _ _ HS) as C. cbn in C.
        destruct (i_while _ _ _ _ _ _ _ _ _ _ _ _ HI2 C) as [C1 _]. rewrite Hn in C1. now apply app_eq_nil in C1 as [_ C1].
      * destruct (vs_mem VS (vid (br_vertex r)) (b_visited (oth s))); cbn; [auto|].
        destruct HS as [_ HS]. constructor; cbn; auto. right. lia.
    + cbn [bb_consume bb_set_current bb_prev bb_current bb_other bb_forwards bs_state bs_depth] in *. rewrite HP, Hn, rev_app_distr in HS |- *. cbn [rev app] in HS |- *.
      rewrite Hrv in HS |- *. destruct (V_dec v v) as [_|C]; [|congruence]. destruct HS as [_ HS]. constructor; cbn; auto.
      * rewrite negb_involutive. exact Hcb.
      * right. destruct (i_d _ _ _ _ _ _ _ _ _ _ _ _ HI) as [Hd _]. destruct (i_d _ _ _ _ _ _ _ _ _ _ _ _ HI2) as [Hd' _].
        destruct (bb_forwards s); cbn [lag negb] in *; lia.
  - assert (Hbc : b_calls b = b_calls (cur s)). { unfold bfs_step in Hs. destruct (b_pc (cur s)) as [| |v [|[n l] rest]]; [|destruct (b_to_expand _); [discriminate|]; destruct (limit_check _); discriminate|discriminate|destruct (_ && _); discriminate].
      destruct (b_to_expand (cur s)); [|discriminate]. injection Hs as <- <-. reflexivity. }
    unfold bb_fail. destruct silent; cbn; (split; [eapply near_calls; eauto|auto]).
  - assert (b_calls b = b_calls (cur s)).
    { unfold bfs_step in Hs. destruct (b_pc (cur s)) as [| |v [|[n l] rest]]; [destruct (b_to_expand _); discriminate| |discriminate|destruct (_ && _); discriminate].
      destruct (b_to_expand (cur s)); [discriminate|]. destruct (limit_check (b_limit (cur s))); [discriminate|]. injection Hs as <- <- <-. reflexivity. }
    cbn. split; [eapply near_calls; eauto|auto].
Qed.

Lemma bb_reads n os r : bb_run V_dec I_dec vid VS PM LM next_f next_b labeled build silent starts goals lim n = (os, r) ->
  (forall v, In v (read_forwards (outcome_state r)) -> exists k, steps_away vid E starts v k /\ forall l, connection vid E starts goals l -> 2 * k < l) /\
  (forall v, In v (read_backwards (outcome_state r)) -> exists k, steps_away vid (fun i j => E j i) goals v k /\ forall l, connection vid E starts goals l -> 2 * k + 1 < l).
Proof using Hf Hb.
  intros HR.
  assert (K : calls_near (bb_forwards (outcome_state r)) (cur (outcome_state r)) /\ calls_near (negb (bb_forwards (outcome_state r))) (oth (outcome_state r))).
  { unfold bb_run in HR. destruct (bb_common I_dec vid starts goals) as [v|] eqn:Hcm.
    - injection HR as <- <-. cbn. split; intros u [].
    - assert (HS : forall (pre : list (@bb_result V L)) s o s', RB s -> step s = Go o s' -> RB s').
      { intros pre s o s' H Hs. pose proof (RB_step s H) as K. rewrite Hs in K. exact K. }
      assert (H0 : RB init).
      { constructor; cbn; [apply (BB_init I_dec); eauto using common_none| | |right; reflexivity]; intros u []. }
      pose proof (run_inv_any step (fun _ s => RB s) HS n [] init os r H0 HR) as H. destruct r as [s|s|x s]; cbn.
      + destruct H. auto.
      + destruct H as (a & o & s1 & _ & H1 & H2). pose proof (RB_step s1 H1) as K. rewrite H2 in K. exact K.
      + destruct H as (a & o & s1 & _ & H1 & H2). pose proof (RB_step s1 H1) as K. rewrite H2 in K. exact K. }
  destruct K as (K1 & K2). unfold read_forwards, read_backwards. destruct (bb_forwards (outcome_state r)); split; intros v Hv.
  - destruct (K1 v Hv) as (k & H1 & H2). exists k. split; [exact H1|]. intros l Hl. specialize (H2 l Hl). cbn [lag] in H2. lia.
  - destruct (K2 v Hv) as (k & H1 & H2). exists k. split; [exact H1|]. intros l Hl. exact (H2 l Hl).
  - destruct (K2 v Hv) as (k & H1 & H2). exists k. split; [exact H1|]. intros l Hl. specialize (H2 l Hl). cbn [lag negb] in H2. lia.
  - destruct (K1 v Hv) as (k & H1 & H2). exists k. split; [exact H1|]. intros l Hl. exact (H2 l Hl).
Qed.
End BiBFSRead.
