(** The calculation limit of the bidirectional search of shortest paths. *)
From Coq Require Import List ZArith Bool Arith Lia.
From Verif Require Import Machine GearSpec Common CommonProofs LimitSim Limit2 PathModel Weight HeapModel DijkstraModel BiSPModel.
Import ListNotations.

Section BiSPLimit.
Context {V I L : Type}.
Variable V_dec : forall a b : V, {a = b} + {a <> b}.
Variable I_dec : forall a b : I, {a = b} + {a <> b}.
Variable vid : V -> I.
Variable WT : Weights.
Notation W := (w_t WT).
Variable DM : DMap I W (w_inf WT).
Variable PM : PMap I V.
Variable LM : PMap I L.
Variable next_f next_b : V -> list (V * W * L).
Variables labeled build silent : bool.
Notation state := (@b2_state V I L WT DM PM LM).
Notation side := (@b2_side V I L WT DM PM LM).
Notation step := (b2_step V_dec vid WT DM PM LM next_f next_b labeled build silent).

Definition b2_side_forget (b : side) : side :=
  {| b2_heap := b2_heap b; b2_no := b2_no b; b2_dist := b2_dist b; b2_pred := b2_pred b; b2_labels := b2_labels b; b2_limit := None; b2_calls := b2_calls b |}.

(** The same state without a limit. *)
Definition b2_forget_limit (s : state) : state :=
  {| b2_pc_of := b2_pc_of s; b2_forwards := b2_forwards s; b2_current := b2_side_forget (b2_current s); b2_other := b2_side_forget (b2_other s);
     b2_best := b2_best s; b2_node := b2_node s; b2_others := b2_others s; b2_outdated := b2_outdated s |}.

(** The number of calls of the neighbor function so far, in one of the directions. *)
Definition b2_count (forwards : bool) (s : state) : nat :=
  length (b2_calls (if Bool.eqb (b2_forwards s) forwards then b2_current s else b2_other s)).
Definition b2_count_opt (forwards : bool) (s : option state) : nat := match s with Some s => b2_count forwards s | None => 0 end.

Variable c : Z.
Hypothesis Hc : (0 <= c)%Z.

Definition b2_within (s : state) : Prop := forall f, (Z.of_nat (b2_count f s) <= c)%Z.
Definition b2_side_ok (b : side) : Prop := limit_state (Some c) (length (b2_calls b)) (b2_limit b).
Definition b2_ok (s : state) : Prop := b2_side_ok (b2_current s) /\ b2_side_ok (b2_other s).

Lemma b2_ok_within s : b2_ok s -> b2_within s.
Proof. intros [[_ H1] [_ H2]] f. unfold b2_count. destruct (Bool.eqb (b2_forwards s) f); auto. Qed.

Lemma b2_within_forget s : b2_within (b2_forget_limit s) <-> b2_within s.
Proof.
  assert (H : forall f, b2_count f (b2_forget_limit s) = b2_count f s) by (intros f; unfold b2_count; simpl; destruct (Bool.eqb (b2_forwards s) f); reflexivity).
  split; intros Hw f; specialize (Hw f); rewrite H in *; exact Hw.
Qed.

Lemma b2_within_mono s : b2_within (result_state (step s)) -> b2_within s.
Proof.
  intros H f. specialize (H f). enough (b2_count f s <= b2_count f (result_state (step s))) by lia. clear H. unfold b2_step, b2_failed.
  destruct (b2_pc_of s) as [|v w [|[[n ew] l] rest]].
  - destruct (b2_heap (b2_current s)) as [|[[w no] v] h]; [destruct silent; auto|]. cbv zeta.
    destruct (w_ltb _ _ _); [unfold b2_count; simpl; destruct (b2_forwards s), f; simpl; auto|].
    destruct (_ && _); [unfold b2_count; simpl; destruct (b2_forwards s), f; simpl; auto|].
    destruct (limit_check _); unfold b2_count; simpl; destruct (b2_forwards s), f; simpl; auto.
  - unfold b2_count; simpl; destruct (b2_forwards s), f; simpl; auto.
  - destruct (w_leb _ _ _); [auto|]. cbv zeta. destruct (w_leb _ _ _); unfold b2_count; simpl; destruct (b2_forwards s), f; simpl; auto.
Qed.

Lemma b2_found_forget s : b2_found V_dec vid WT DM PM LM labeled build (b2_forget_limit s) = b2_found V_dec vid WT DM PM LM labeled build s.
Proof. unfold b2_found. simpl. destruct (b2_forwards s); reflexivity. Qed.

Lemma b2_law s : b2_ok s ->
  match step (b2_forget_limit s) with
  | Go o t => (exists s', step s = Go o s' /\ b2_forget_limit s' = t /\ b2_ok s') \/ (~ b2_within t /\ exists s', step s = Raise [] RuntimeErrorLimit s' /\ b2_ok s')
  | Halt o t => exists s', step s = Halt o s' /\ b2_forget_limit s' = t /\ b2_ok s'
  | Raise o x t => (exists s', step s = Raise o x s' /\ b2_forget_limit s' = t /\ b2_ok s') \/ (~ b2_within t /\ exists s', step s = Raise [] RuntimeErrorLimit s' /\ b2_ok s')
  end.
Proof.
  intros [Hok1 Hok2]. unfold b2_step, b2_failed. cbn [b2_forget_limit b2_pc_of b2_current b2_side_forget b2_heap b2_dist b2_other b2_best b2_others b2_forwards b2_node b2_outdated b2_limit b2_popped b2_calls].
  destruct (b2_pc_of s) as [|v w [|[[n ew] l] rest]].
  - destruct (b2_heap (b2_current s)) as [|[[w no] v] h].
    { destruct silent; [|left]; eexists; (split; [reflexivity|]); (split; [reflexivity|]); split; assumption. }
    cbv zeta. cbn [b2_popped b2_dist b2_limit].
    destruct (w_ltb _ _ _); [left; eexists; split; [reflexivity|]; split; [reflexivity|split; assumption]|].
    destruct (_ && _).
    { eexists; split; [f_equal; f_equal; unfold b2_found; simpl; destruct (b2_forwards s); reflexivity|]; split; [reflexivity|split; assumption]. }
    cbn [limit_check]. destruct (limit_check (b2_limit (b2_current s))) as [lim|] eqn:El.
    + left. eexists; split; [reflexivity|]; split; [reflexivity|]. split; [|exact Hok2]. exact (limit_check_some _ _ _ _ Hc Hok1 El).
    + right. pose proof (limit_check_none _ _ _ Hc Hok1 El) as Hn. split; [|eexists; split; [reflexivity|split; assumption]].
      intros Hw. specialize (Hw (b2_forwards s)). unfold b2_count in Hw. simpl in Hw. rewrite eqb_reflx in Hw. simpl in Hw. lia.
  - left. eexists; split; [reflexivity|]; split; [reflexivity|split; assumption].
  - destruct (w_leb _ _ _); [left; eexists; split; [reflexivity|]; split; [reflexivity|split; assumption]|]. cbv zeta.
    destruct (w_leb _ _ _); left; eexists; (split; [reflexivity|]); (split; [reflexivity|split; assumption]).
Qed.

Lemma b2_limit_all starts goals n os r os' r' :
  b2_run V_dec I_dec vid WT DM PM LM next_f next_b labeled build silent starts goals None n = (os, r) ->
  b2_run V_dec I_dec vid WT DM PM LM next_f next_b labeled build silent starts goals (Some c) n = (os', r') ->
  let within s := forall f, (Z.of_nat (b2_count_opt f s) <= c)%Z in
  within (outcome_state r') /\
  (within (outcome_state r) -> os' = os /\ outcome_map (option_map b2_forget_limit) r' = r) /\
  (~ within (outcome_state r) -> (exists s', r' = Raised RuntimeErrorLimit s') /\ exists ext, os = os' ++ ext).
Proof.
  assert (Hz : forall f, (Z.of_nat (b2_count_opt f None) <= c)%Z) by (intros f; simpl; exact Hc).
  assert (Htriv : forall (os0 os0' : list (@b2_result V L WT)) (r0 r0' : outcome (option state) exn), os0' = os0 -> r0' = r0 -> outcome_state r0 = None ->
    (forall f, (Z.of_nat (b2_count_opt f (outcome_state r0')) <= c)%Z) /\
    ((forall f, (Z.of_nat (b2_count_opt f (outcome_state r0)) <= c)%Z) -> os0' = os0 /\ outcome_map (option_map b2_forget_limit) r0' = r0) /\
    (~ (forall f, (Z.of_nat (b2_count_opt f (outcome_state r0)) <= c)%Z) -> (exists s', r0' = Raised RuntimeErrorLimit s') /\ exists ext, os0 = os0' ++ ext)).
  { intros os0 os0' r0 r0' -> -> Hn. rewrite Hn. split; [exact Hz|]. split.
    - intros _. split; auto. destruct r0 as [s|s|x s]; simpl in *; rewrite Hn; reflexivity.
    - intros C. exfalso. exact (C Hz). }
  unfold b2_run. intros HR HR'. cbv zeta.
  destruct starts as [|first rest].
  { rewrite HR in HR'. injection HR' as <- <-. apply Htriv; auto. unfold b2_failed in HR. destruct silent; injection HR as <- <-; reflexivity. }
  destruct goals as [|g rest'].
  { rewrite HR in HR'. injection HR' as <- <-. apply Htriv; auto. unfold b2_failed in HR. destruct silent; injection HR as <- <-; reflexivity. }
  destruct (b2_common I_dec vid (first :: rest) (g :: rest')) as [v|].
  { rewrite HR in HR'. injection HR' as <- <-. apply Htriv; auto. injection HR as <- <-; reflexivity. }
  set (i0 := b2_init vid WT DM PM LM build first (first :: rest) (g :: rest') None) in *.
  set (i1 := b2_init vid WT DM PM LM build first (first :: rest) (g :: rest') (Some c)) in *.
  assert (Hi : i0 = b2_forget_limit i1) by reflexivity.
  assert (Hok : b2_ok i1) by (split; apply limit_state_init; exact Hc).
  destruct (run step n i0) as [os1 r1] eqn:E1. destruct (run step n i1) as [os2 r2] eqn:E2. injection HR as <- <-. injection HR' as <- <-.
  rewrite Hi in E1.
  destruct (limit2 step b2_forget_limit b2_within b2_ok b2_ok_within b2_within_forget b2_within_mono b2_law n i1 os1 r1 os2 r2 Hok E1 E2) as (A & B & C).
  split; [destruct r2; exact A|]. split.
  - intros Hw. destruct B as [-> B]; [destruct r1; exact Hw|]. split; auto. rewrite <- B. destruct r2; reflexivity.
  - intros Hw. destruct C as [(s' & ->) Hext]; [destruct r1; exact Hw|]. split; eauto.
Qed.
End BiSPLimit.
