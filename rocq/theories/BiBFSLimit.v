(** The calculation limit of bidirectional breadth first search. *)
From Coq Require Import List ZArith Bool Arith Lia.
From Verif Require Import Machine GearSpec Common CommonProofs LimitSim Limit2 BFSModel BFSLimit BiBFSModel.
Import ListNotations.

Section BiBFSLimit.
Context {V I L : Type}.
Variable V_dec : forall a b : V, {a = b} + {a <> b}.
Variable I_dec : forall a b : I, {a = b} + {a <> b}.
Variable vid : V -> I.
Variable VS : VSet I.
Variable PM : PMap I V.
Variable LM : PMap I L.
Variable next_f next_b : V -> list (V * L).
Variables labeled build silent : bool.
Notation state := (@bb_state V I L VS PM LM).
Notation side := (@bb_side V I L VS PM LM).
Notation cfg := (bb_cfg labeled build).
Notation step := (bb_step V_dec vid VS PM LM next_f next_b labeled build silent).
Notation forget := (bfs_forget_limit VS PM LM).

Definition side_forget (b : side) : side := {| bs_state := forget (bs_state b); bs_depth := bs_depth b |}.

(** The same state without a limit. *)
Definition bb_forget_limit (s : state) : state :=
  {| bb_forwards := bb_forwards s; bb_current := side_forget (bb_current s); bb_other := side_forget (bb_other s); bb_prev := bb_prev s |}.

(** The calls of the neighbor function so far, in one of the directions. *)
Definition bb_calls (forwards : bool) (s : state) : nat :=
  length (b_calls (bs_state (if Bool.eqb (bb_forwards s) forwards then bb_current s else bb_other s))).

Variable c : Z.
Hypothesis Hc : (0 <= c)%Z.

Definition bb_within (s : state) : Prop := forall f, (Z.of_nat (bb_calls f s) <= c)%Z.
Definition side_ok (b : @bfs_state V I L VS PM LM) : Prop := limit_state (Some c) (length (b_calls b)) (b_limit b).
Definition bb_ok (s : state) : Prop := side_ok (bs_state (bb_current s)) /\ side_ok (bs_state (bb_other s)).

Lemma ok_within s : bb_ok s -> bb_within s.
Proof. intros [[_ H1] [_ H2]] f. unfold bb_calls. destruct (Bool.eqb (bb_forwards s) f); auto. Qed.

Lemma within_forget s : bb_within (bb_forget_limit s) <-> bb_within s.
Proof. unfold bb_within, bb_calls. split; intros H f; specialize (H f); simpl in *; destruct (Bool.eqb (bb_forwards s) f); exact H. Qed.

Lemma consume_forget reports : forall s, bb_consume V_dec vid VS PM LM labeled build (bb_forget_limit s) reports =
  match bb_consume V_dec vid VS PM LM labeled build s reports with
  | Go o t => Go o (bb_forget_limit t) | Halt o t => Halt o (bb_forget_limit t) | Raise o x t => Raise o x (bb_forget_limit t) end.
Proof.
  induction reports as [|r rest IH]; intros s; [reflexivity|]. cbn [bb_consume]. change (bb_prev (bb_forget_limit s)) with (bb_prev s).
  destruct (match bb_prev s with Some u => if V_dec u (br_vertex r) then true else false | None => false end); [reflexivity|].
  change (b_visited (bs_state (bb_other (bb_forget_limit s)))) with (b_visited (bs_state (bb_other s))).
  destruct (vs_mem VS (vid (br_vertex r)) (b_visited (bs_state (bb_other s)))).
  - f_equal. f_equal. unfold bb_found, bb_set_current. simpl. destruct (bb_forwards s); reflexivity.
  - rewrite <- IH. reflexivity.
Qed.

(** Consuming reports keeps the sides. *)
Lemma consume_same reports : forall s, let t := result_state (bb_consume V_dec vid VS PM LM labeled build s reports) in
  (forall f, bb_calls f t = bb_calls f s) /\ (bb_ok s -> bb_ok t).
Proof.
  induction reports as [|r rest IH]; intros s; cbn [bb_consume]; [simpl; auto|].
  destruct (match bb_prev s with Some u => if V_dec u (br_vertex r) then true else false | None => false end).
  - simpl. split; [|unfold bb_ok; simpl; tauto]. intros f. unfold bb_calls. simpl. destruct (bb_forwards s), f; reflexivity.
  - set (s1 := bb_set_current VS PM LM s {| bs_state := bs_state (bb_current s); bs_depth := br_depth r |} (Some (br_vertex r))).
    assert (H1 : forall f, bb_calls f s1 = bb_calls f s) by (intros f; unfold bb_calls, s1; simpl; destruct (Bool.eqb (bb_forwards s) f); reflexivity).
    assert (H2 : bb_ok s -> bb_ok s1) by (intros H; exact H).
    destruct (vs_mem VS (vid (br_vertex r)) (b_visited (bs_state (bb_other s)))); [simpl; auto|]. destruct (IH s1) as [H3 H4].
    split; [intros f; rewrite <- H1; apply H3|auto].
Qed.

(** A pass of one traversal, with and without limit. *)
Lemma side_law next b : side_ok b ->
  match bfs_step vid VS PM LM next cfg (forget b) with
  | Go o t => (exists b', bfs_step vid VS PM LM next cfg b = Go o b' /\ forget b' = t /\ side_ok b') \/
              (Z.of_nat (length (b_calls t)) > c /\ o = [] /\ bfs_step vid VS PM LM next cfg b = Raise [] RuntimeErrorLimit b)%Z
  | Halt o t => exists b', bfs_step vid VS PM LM next cfg b = Halt o b' /\ forget b' = t /\ side_ok b'
  | Raise o x t => False
  end.
Proof.
  intros Hok. unfold bfs_step. change (b_pc (forget b)) with (b_pc b). change (b_to_expand (forget b)) with (b_to_expand b).
  change (b_visited (forget b)) with (b_visited b). change (b_next (forget b)) with (b_next b).
  destruct (b_pc b) as [| |v [|[n l] rest]].
  - destruct (b_to_expand b); [eexists; split; [reflexivity|]; split; [reflexivity|exact Hok]|].
    left. eexists; split; [reflexivity|]; split; [reflexivity|exact Hok].
  - destruct (b_to_expand b) as [|v q]; [left; eexists; split; [reflexivity|]; split; [reflexivity|exact Hok]|].
    simpl. destruct (limit_check (b_limit b)) as [l|] eqn:Hl.
    + left. eexists; split; [reflexivity|]; split; [reflexivity|]. exact (limit_check_some _ _ _ _ Hc Hok Hl).
    + right. split; [|split; reflexivity]. pose proof (limit_check_none _ _ _ Hc Hok Hl). lia.
  - left. eexists; split; [reflexivity|]; split; [reflexivity|exact Hok].
  - destruct (_ && _); left; eexists; split; try reflexivity; split; try reflexivity; exact Hok.
Qed.

Lemma side_calls_mono next b : length (b_calls b) <= length (b_calls (result_state (bfs_step vid VS PM LM next cfg b))).
Proof.
  unfold bfs_step. destruct (b_pc b) as [| |v [|[n l] rest]]; simpl; auto.
  - destruct (b_to_expand b); simpl; auto.
  - destruct (b_to_expand b); simpl; auto. destruct (limit_check (b_limit b)); simpl; auto.
  - destruct (vs_mem _ _ _); simpl; auto.
Qed.

Lemma calls_set f s b prev : (length (b_calls (bs_state (bb_current s))) <= length (b_calls (bs_state b))) -> bb_calls f s <= bb_calls f (bb_set_current VS PM LM s b prev).
Proof. intros H. unfold bb_calls. simpl. destruct (Bool.eqb (bb_forwards s) f); auto. Qed.

Lemma within_mono s : bb_within (result_state (step s)) -> bb_within s.
Proof.
  intros H f. specialize (H f). enough (bb_calls f s <= bb_calls f (result_state (step s))) by lia. clear H. unfold bb_step.
  pose proof (side_calls_mono (if bb_forwards s then next_f else next_b) (bs_state (bb_current s))) as Hm.
  destruct (bfs_step vid VS PM LM (if bb_forwards s then next_f else next_b) cfg (bs_state (bb_current s))) as [o b|o b|o x b]; simpl in Hm.
  - match goal with |- context [bb_consume _ _ _ _ _ _ _ ?s1 o] => destruct (consume_same o s1) as [-> _] end. apply calls_set. exact Hm.
  - unfold bb_fail. destruct silent; simpl; apply calls_set; exact Hm.
  - simpl. apply calls_set. exact Hm.
Qed.

Lemma bb_law s : bb_ok s ->
  match step (bb_forget_limit s) with
  | Go o t => (exists s', step s = Go o s' /\ bb_forget_limit s' = t /\ bb_ok s') \/ (~ bb_within t /\ exists s', step s = Raise [] RuntimeErrorLimit s' /\ bb_ok s')
  | Halt o t => exists s', step s = Halt o s' /\ bb_forget_limit s' = t /\ bb_ok s'
  | Raise o x t => (exists s', step s = Raise o x s' /\ bb_forget_limit s' = t /\ bb_ok s') \/ (~ bb_within t /\ exists s', step s = Raise [] RuntimeErrorLimit s' /\ bb_ok s')
  end.
Proof.
  intros [Hok1 Hok2]. pose proof (side_law (if bb_forwards s then next_f else next_b) _ Hok1) as HL. unfold bb_step at 1 5.
  change (bb_forwards (bb_forget_limit s)) with (bb_forwards s). change (bs_state (bb_current (bb_forget_limit s))) with (forget (bs_state (bb_current s))).
  destruct (bfs_step vid VS PM LM (if bb_forwards s then next_f else next_b) cfg (forget (bs_state (bb_current s)))) as [o b|o b|o x b]; [| |contradiction].
  - destruct HL as [(b' & H1 & <- & H3)|(H1 & -> & H2)].
    + unfold bb_step. rewrite H1.
      change (bb_set_current VS PM LM (bb_forget_limit s) {| bs_state := forget b'; bs_depth := bs_depth (bb_current (bb_forget_limit s)) |} (bb_prev (bb_forget_limit s)))
        with (bb_forget_limit (bb_set_current VS PM LM s {| bs_state := b'; bs_depth := bs_depth (bb_current s) |} (bb_prev s))).
      rewrite consume_forget.
      match goal with |- context [bb_consume _ _ _ _ _ _ _ ?s1 o] => destruct (consume_same o s1) as [_ Hk]; assert (Hk1 : bb_ok s1) by (split; assumption) end.
      specialize (Hk Hk1). destruct (bb_consume _ _ _ _ _ _ _ _ o) as [o1 t|o1 t|o1 x t]; simpl in Hk.
      * left. exists t. auto.
      * exists t. auto.
      * left. exists t. auto.
    + unfold bb_step. rewrite H2.
      cbn [bb_consume]. right. split.
      * intros C. specialize (C (bb_forwards s)). unfold bb_calls in C. simpl in C. rewrite eqb_reflx in C. simpl in C. lia.
      * eexists. split; [reflexivity|]. split; assumption.
  - destruct HL as (b' & H1 & <- & H3). unfold bb_step. rewrite H1. unfold bb_fail. destruct silent.
    + eexists. split; [reflexivity|]. split; [reflexivity|]. split; assumption.
    + left. eexists. split; [reflexivity|]. split; [reflexivity|]. split; assumption.
Qed.

Lemma bb_limit_all starts goals n os r os' r' :
  bb_run V_dec I_dec vid VS PM LM next_f next_b labeled build silent starts goals None n = (os, r) ->
  bb_run V_dec I_dec vid VS PM LM next_f next_b labeled build silent starts goals (Some c) n = (os', r') ->
  bb_within (outcome_state r') /\
  (bb_within (outcome_state r) -> os' = os /\ outcome_map bb_forget_limit r' = r) /\
  (~ bb_within (outcome_state r) -> (exists s', r' = Raised RuntimeErrorLimit s') /\ exists ext, os = os' ++ ext).
Proof.
  unfold bb_run. destruct (bb_common I_dec vid starts goals).
  - intros H1 H2. injection H1 as <- <-. injection H2 as <- <-. simpl.
    assert (Hw : forall lim, bb_within (bb_init vid VS PM LM labeled build starts goals lim)).
    { intros lim f. unfold bb_calls. simpl. destruct f; simpl; lia. }
    split; [apply Hw|]. split; [auto|]. intros C. exfalso. apply C, Hw.
  - intros H1 H2. apply (limit2 step bb_forget_limit bb_within bb_ok ok_within within_forget within_mono bb_law n (bb_init vid VS PM LM labeled build starts goals (Some c))); auto.
    split; apply (limit_state_init (Some c)).
Qed.
End BiBFSLimit.
