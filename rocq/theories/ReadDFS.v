(** Proofs for C94: depth first search *)
From Coq Require Import List Bool ZArith Lia Arith.
From Verif Require Import Machine Common GearSpec DFSModel ReadSpec.
Import ListNotations.

Section DFS.
Context {V I L : Type}.
Variable V_dec : forall a b : V, {a = b} + {a <> b}.
Variable vid : V -> I.
Variable VS : VSet I.
Variable PM : PMap I V.
Variable LM : PMap I L.
Variable XM : DMap I Z 0%Z.
Variable next : V -> list (V * L).
Variable cfg : dfs_cfg.
Hypothesis Hes : dc_report cfg ENTERING_START = true.
Hypothesis Hen : dc_report cfg ENTERING_SUCCESSOR = true.
Variable skip : nat -> bool.
Variable starts : list V.
Variable av : option (vs_t VS).
Variable lim : option Z.
Notation report := (@dfs_report V I L VS PM LM XM).

Lemma entered_app m (a b : list report) : entered skip m (a ++ b) = entered skip m a ++ entered skip (m + length a) b.
Proof.
  revert m. induction a as [|x a IH]; intros m; simpl.
  - now rewrite Nat.add_0_r.
  - rewrite IH, <- app_assoc. do 3 f_equal. lia.
Qed.

Definition read_outcome {S} (calls : S -> list (V * Z)) (inv : list report -> S -> Prop) (pre : list report) (r : step_result S report exn) : Prop :=
  match r with
  | Go o s' => inv (pre ++ o) s'
  | Halt o s' => o = [] /\ rev (calls s') = entered skip 0 pre
  | Raise o x s' => exists extra, entered skip 0 (pre ++ o) = rev (calls s') ++ extra /\ length extra <= 1 /\ (extra <> [] -> x = RuntimeErrorLimit)
  end.

Lemma read_run {S} (step : S -> step_result S report exn) (calls : S -> list (V * Z)) (inv : list report -> S -> Prop) (init : S) :
  (forall pre s, inv pre s -> read_outcome calls inv pre (step s)) -> (forall pre s, inv pre s -> rev (calls s) = entered skip 0 pre) -> inv [] init ->
  forall n os r, run step n init = (os, r) -> all_but_last_at_limit (rev (calls (outcome_state r))) (entered skip 0 os) r.
Proof.
  intros HS HE H0 n os r HR.
  assert (HI : forall pre s o s', inv pre s -> step s = Go o s' -> inv (pre ++ o) s').
  { intros pre s o s' H1 H2. specialize (HS pre s H1). rewrite H2 in HS. exact HS. }
  pose proof (run_inv_any step inv HI n [] init os r H0 HR) as H. destruct r as [s|s|x s]; cbn [outcome_state].
  - exists []. rewrite app_nil_r. split; [symmetry; apply HE; exact H|]. split; [auto|congruence].
  - destruct H as (a & o & s1 & -> & H1 & H2). specialize (HS _ _ H1). rewrite H2 in HS. destruct HS as (-> & HS). rewrite app_nil_r.
    exists []. rewrite app_nil_r. split; [symmetry; exact HS|]. split; [auto|congruence].
  - destruct H as (a & o & s1 & -> & H1 & H2). specialize (HS _ _ H1). rewrite H2 in HS. destruct HS as (extra & E & Hl & Hx).
    exists extra. split; [exact E|]. split; [exact Hl|]. intros H. exists s. now rewrite Hx.
Qed.

Section Trace.
Notation state := (@dfs_state V I L VS PM LM XM).
Notation step := (dfs_step V_dec vid VS PM LM XM next cfg skip).
Notation init := (dfs_init vid VS PM LM XM cfg starts av lim).

Definition dfs_read (os : list report) (s : state) : Prop :=
  rev (f_calls s) = entered skip 0 os /\ f_count s = length os /\ (f_pc s = FLoop false -> is_entering (f_event s) = false).
Notation good := (read_outcome (fun s : state => f_calls s) dfs_read).

Lemma pop_fields s m v s1 : dfs_pop VS PM LM XM cfg s m = Some (v, s1) -> f_calls s1 = f_calls s /\ f_count s1 = f_count s /\ f_pc s1 = FLoop true.
Proof.
  unfold dfs_pop. destruct (f_to_visit s) as [|u q]; [discriminate|]. destruct (dc_labeled cfg), q.
  all: try (intros H; inversion H; subst; cbn; auto; fail).
  destruct (f_to_visit_labels s); [discriminate|]. intros H; inversion H; subst; cbn; auto.
Qed.

Lemma shows s v : dc_report cfg (if is_current_start V_dec VS PM LM XM s v then ENTERING_START else ENTERING_SUCCESSOR) = true.
Proof using Hes Hen. destruct (is_current_start _ _ _ _ _ _ _); auto. Qed.

Lemma entered_none pre (r : report) : is_entering (fr_event r) = false -> entered skip 0 (pre ++ [r]) = entered skip 0 pre.
Proof. intros H1. rewrite entered_app. cbn. rewrite H1. cbn. now rewrite app_nil_r. Qed.

Lemma visit_read pre s v : dfs_read pre s -> good pre (dfs_visit V_dec vid VS PM LM XM next cfg skip s v).
Proof using Hes Hen.
  intros (HA & HB & HC). unfold dfs_visit. cbv zeta. rewrite (shows s v). cbn [andb length].
  set (s1 := dfs_enter V_dec vid VS PM LM XM cfg s v). set (rp := dfs_observe VS PM LM XM v s1).
  assert (Hev : is_entering (fr_event rp) = true).
  { cbn. destruct (is_current_start _ _ _ _ _ _ _); reflexivity. }
  assert (E : entered skip 0 (pre ++ [rp]) = rev (f_calls s) ++ (if skip (f_count s) then [] else [(v, f_depth s1)])).
  { rewrite entered_app, <- HA. cbn [entered Nat.add]. rewrite Hev, <- HB. destruct (skip (f_count s)); reflexivity. }
  assert (K : good pre (if skip (f_count s) then Go [rp] (dfs_count VS PM LM XM s1 1)
      else match limit_check (f_limit s1) with
           | Some lm => Go [rp] (dfs_expand VS PM LM XM next cfg s1 v lm 1)
           | None => Raise [rp] RuntimeErrorLimit (dfs_count VS PM LM XM s1 1)
           end)).
  { destruct (skip (f_count s)) eqn:Hsk.
    - cbn [read_outcome]. split; [|split].
      + rewrite E, app_nil_r. reflexivity.
      + cbn [dfs_count f_count s1 dfs_enter]. rewrite app_length. cbn. lia.
      + cbn. discriminate.
    - destruct (limit_check _) as [lm|]; cbn [read_outcome].
      + split; [|split].
        * rewrite E. reflexivity.
        * cbn [dfs_expand f_count s1 dfs_enter]. rewrite app_length. cbn. lia.
        * cbn. discriminate.
      + eexists. split; [exact E|]. split; [cbn; lia|auto]. }
  destruct (f_trace s), (dc_labeled cfg), (f_var_labels s); try exact K.
  cbn [read_outcome]. exists []. rewrite !app_nil_r. split; [symmetry; exact HA|]. split; [cbn; lia|congruence].
Qed.

Lemma classify_event s v back ev : dfs_classify vid VS PM LM XM cfg s v back = Some ev -> is_entering (Some ev) = false.
Proof.
  intros He. unfold dfs_classify in He. destruct (dc_report cfg SOME_NON_TREE_EDGE); [inversion He; reflexivity|].
  destruct (_ || _); [|discriminate]. destruct (_ && _); [inversion He; reflexivity|]. destruct (_ || _); [|discriminate].
  destruct (f_trace s); [discriminate|]. destruct (_ <? _)%Z; [destruct (dc_report cfg FORWARD_EDGE)|destruct (dc_report cfg CROSS_EDGE)]; inversion He; reflexivity.
Qed.

Lemma revisit_read pre s v back : dfs_read pre s -> f_pc s = FLoop true -> good pre (dfs_revisit vid VS PM LM XM cfg s v back).
Proof.
  intros HI Hpc. pose proof HI as (HA & HB & HC). unfold dfs_revisit.
  assert (K0 : good pre (Go [] s)) by (cbn [read_outcome]; rewrite app_nil_r; exact HI).
  assert (K1 : forall ev tr trl, is_entering (Some ev) = false ->
     good pre (Go [dfs_observe VS PM LM XM v (dfs_show VS PM LM XM s (Some ev) tr trl)] (dfs_reported VS PM LM XM s (Some ev)))).
  { intros ev tr trl He. cbn [read_outcome]. split; [|split].
    - rewrite entered_none; auto.
    - cbn [dfs_reported f_count]. rewrite app_length. cbn. lia.
    - cbn [dfs_reported f_pc]. rewrite Hpc. discriminate. }
  assert (K2 : good pre (Raise [] AssertionModel s)).
  { cbn [read_outcome]. exists []. rewrite !app_nil_r. split; [symmetry; exact HA|]. split; [cbn; lia|congruence]. }
  destruct (f_trace s) as [|p t].
  - destruct (dc_report cfg SKIPPING_START); [|exact K0]. apply K1. reflexivity.
  - destruct (dfs_classify vid VS PM LM XM cfg s v back) as [ev|] eqn:Hc; [|exact K0].
    apply classify_event in Hc.
    destruct (dc_labeled cfg), (f_var_labels s); auto.
Qed.

Lemma leave_read pre s nl m : dfs_read pre s -> f_pc s = FLoop nl -> good pre (dfs_leave vid VS PM LM XM cfg s nl m).
Proof.
  intros (HA & HB & HC) Hpc. unfold dfs_leave.
  assert (K0 : forall (s1 : state) o x, f_calls s1 = f_calls s -> entered skip (length pre) o = [] -> good pre (Raise o x s1)).
  { intros s1 o x H1 H2. cbn [read_outcome]. exists []. rewrite entered_app. cbn [Nat.add]. rewrite H2, H1, !app_nil_r. split; [symmetry; exact HA|]. split; [cbn; lia|congruence]. }
  destruct (f_trace s) as [|v t]; [apply K0; reflexivity|]. cbv zeta.
  assert (K : forall (s1 : state) nl' m' t' tl o', f_calls s1 = f_calls s -> f_count s1 = f_count s -> entered skip (length pre) o' = [] -> (nl' = false -> is_entering (f_event s1) = false) ->
     good pre (Go o' (dfs_left vid VS PM LM XM cfg s1 nl' v m' t' tl (length o')))).
  { intros s1 nl' m' t' tl o' H1 H2 H3 H4. cbn [read_outcome]. split; [|split].
    - cbn [dfs_left f_calls]. rewrite H1, entered_app. cbn [Nat.add]. rewrite H3, app_nil_r. exact HA.
    - cbn [dfs_left f_count]. rewrite H2, app_length, HB. reflexivity.
    - cbn [dfs_left f_pc f_event]. intros H. apply H4. now inversion H. }
  destruct m as [|b m].
  - destruct (dc_report cfg LEAVING_START); apply K; try reflexivity. intros ->. now apply HC.
  - destruct (dc_report cfg LEAVING_SUCCESSOR) eqn:HR.
    + destruct nl; cbn [andb].
      * destruct (dc_labeled cfg).
        -- match goal with |- read_outcome _ _ _ match ?x with _ => _ end => destruct x end; [apply K0|apply K]; try reflexivity.
        -- apply K; try reflexivity.
      * specialize (HC Hpc).
        assert (E : entered skip (length pre) [dfs_observe VS PM LM XM v s] = []) by (cbn; rewrite HC; reflexivity).
        destruct (dc_labeled cfg).
        -- destruct (f_trace_labels s); [apply K0|apply K]; auto.
        -- apply K; auto.
    + cbn [andb negb]. rewrite andb_true_r.
      assert (HN : nl = false -> is_entering (f_event s) = false) by (intros ->; auto).
      destruct (dc_labeled cfg).
      * destruct (f_trace_labels s); [apply K0|apply K]; auto.
      * apply K; auto.
Qed.

Lemma dfs_read_step pre s : dfs_read pre s -> good pre (step s).
Proof using Hes Hen.
  intros HI. pose proof HI as (HA & HB & HC). unfold dfs_step. destruct (f_pc s) as [|nl] eqn:Hpc.
  - destruct (f_starts s) as [|v rest]; cbn [read_outcome].
    + split; [reflexivity|exact HA].
    + rewrite app_nil_r. split; [exact HA|]. split; [exact HB|]. cbn. discriminate.
  - destruct (f_markers s) as [|[|] m].
    + cbn [read_outcome]. rewrite app_nil_r. split; [exact HA|]. split; [exact HB|]. cbn. discriminate.
    + apply leave_read; auto.
    + destruct (dfs_pop VS PM LM XM cfg s m) as [[v s1]|] eqn:HP.
      2:{ cbn [read_outcome]. exists []. rewrite !app_nil_r. split; [symmetry; exact HA|]. split; [cbn; lia|congruence]. }
      destruct (pop_fields _ _ _ _ HP) as (E1 & E2 & E3).
      assert (HI1 : dfs_read pre s1). { split; [now rewrite E1|]. split; [now rewrite E2|]. rewrite E3. discriminate. }
      destruct (_ && _); [|apply visit_read; exact HI1].
      destruct (is_dfs_tree (dc_mode cfg)).
      * destruct (vs_mem VS (vid v) (f_visited s1)); [apply revisit_read|apply visit_read]; auto.
      * destruct (vs_mem VS (vid v) (f_on_trace s1)); [apply revisit_read|apply visit_read]; auto.
Qed.

Lemma dfs_read_run n os r : run step n init = (os, r) -> all_but_last_at_limit (rev (f_calls (outcome_state r))) (entered skip 0 os) r.
Proof using Hes Hen.
  apply (read_run step (fun s : state => f_calls s) dfs_read init).
  - exact dfs_read_step.
  - intros pre s H. apply H.
  - split; [reflexivity|]. split; [reflexivity|]. cbn. discriminate.
Qed.
End Trace.

Section NoTrace.
Notation state := (@dfw_state V I L VS PM LM).
Notation step := (dfw_step V_dec vid VS PM LM XM next cfg skip).
Notation init := (dfw_init vid VS PM LM cfg starts av lim).

Definition dfw_event_ok (s : state) : Prop :=
  match w_pc s with
  | WStarts => w_to_visit s = []
  | WLoop => w_event s = Some ENTERING_SUCCESSOR \/ forall v, In v (w_to_visit s) -> w_start s = Some v
  | WEdges v _ => w_event s = Some ENTERING_SUCCESSOR \/ w_start s = Some v
  end.
Definition dfw_read (os : list report) (s : state) : Prop :=
  rev (w_calls s) = entered skip 0 os /\ w_count s = length os /\ dfw_event_ok s.
Notation good := (read_outcome (fun s : state => w_calls s) dfw_read).

Lemma is_start_eq (s : state) v : w_start s = Some v -> dfw_is_start V_dec VS PM LM s v = true.
Proof. intros H. unfold dfw_is_start. rewrite H. destruct (V_dec v v); congruence. Qed.
Lemma is_start_inv (s : state) v : dfw_is_start V_dec VS PM LM s v = true -> w_start s = Some v.
Proof. unfold dfw_is_start. destruct (w_start s) as [u|]; [|discriminate]. destruct (V_dec v u); congruence. Qed.

Lemma dfw_visit_read pre s v : rev (w_calls s) = entered skip 0 pre -> w_count s = length pre -> (w_event s = Some ENTERING_SUCCESSOR \/ w_start s = Some v) ->
  good pre (dfw_visit V_dec vid VS PM LM XM next cfg skip s v).
Proof using Hes Hen.
  intros HA HB HC. unfold dfw_visit. cbv zeta.
  assert (Hsh : dc_report cfg (if dfw_is_start V_dec VS PM LM s v then ENTERING_START else ENTERING_SUCCESSOR) = true) by (destruct (dfw_is_start _ _ _ _ _ _); auto).
  rewrite Hsh. cbn [andb length].
  set (s1 := dfw_enter V_dec vid VS PM LM cfg s v). set (rp := dfw_observe VS PM LM XM v s1).
  assert (Hev1 : w_event s1 = Some (if dfw_is_start V_dec VS PM LM s v then ENTERING_START else ENTERING_SUCCESSOR)).
  { cbn [s1 dfw_enter w_event]. destruct (dfw_is_start V_dec VS PM LM s v) eqn:E; [reflexivity|].
    destruct HC as [HC|HC]; [exact HC|]. apply is_start_eq in HC. congruence. }
  assert (Hev : is_entering (fr_event rp) = true).
  { change (fr_event rp) with (w_event s1). rewrite Hev1. destruct (dfw_is_start _ _ _ _ _ _); reflexivity. }
  assert (E : entered skip 0 (pre ++ [rp]) = rev (w_calls s) ++ (if skip (w_count s) then [] else [(v, w_depth s1)])).
  { rewrite entered_app, <- HA. cbn [entered Nat.add]. rewrite Hev, <- HB. destruct (skip (w_count s)); reflexivity. }
  destruct (skip (w_count s)) eqn:Hsk.
  - cbn [read_outcome]. split; [|split].
    + rewrite E, app_nil_r. reflexivity.
    + cbn [dfw_continue w_count s1 dfw_enter]. rewrite app_length. cbn. lia.
    + cbn [dfw_event_ok dfw_continue w_pc w_event]. left.
      change (dfw_is_start V_dec VS PM LM s1 v) with (dfw_is_start V_dec VS PM LM s v).
      rewrite Hev1. destruct (dfw_is_start _ _ _ _ _ _); reflexivity.
  - destruct (limit_check _) as [lm|]; cbn [read_outcome].
    + split; [|split].
      * rewrite E. reflexivity.
      * cbn [dfw_expand w_count s1 dfw_enter]. rewrite app_length. cbn. lia.
      * cbn [dfw_event_ok dfw_expand w_pc w_event w_start]. rewrite Hev1. change (w_start s1) with (w_start s).
        destruct (dfw_is_start V_dec VS PM LM s v) eqn:Es; [right; now apply is_start_inv|left; reflexivity].
    + eexists. split; [exact E|]. split; [cbn; lia|auto].
Qed.

Lemma dfw_read_step pre s : dfw_read pre s -> good pre (step s).
Proof using Hes Hen.
  intros (HA & HB & HC). unfold dfw_step, dfw_event_ok in *. destruct (w_pc s) as [| |v [|[x l] rest]] eqn:Hpc.
  - destruct (w_starts s) as [|v rest]; cbn [read_outcome].
    + split; [reflexivity|exact HA].
    + rewrite app_nil_r. split; [exact HA|]. split; [exact HB|].
      cbn [dfw_event_ok dfw_begin w_pc w_to_visit w_start]. right. rewrite HC. intros u [->|[]]. reflexivity.
  - destruct (if dc_compute_depth cfg then _ else _) as [m depth]. destruct (w_to_visit s) as [|v q] eqn:Hq.
    + cbn [read_outcome]. rewrite app_nil_r. split; [exact HA|]. split; [exact HB|]. reflexivity.
    + destruct (_ && _).
      * cbn [read_outcome]. rewrite app_nil_r. split; [exact HA|]. split; [exact HB|].
        cbn [dfw_event_ok dfw_set w_pc w_event w_to_visit w_start]. destruct HC as [HC|HC]; [left; exact HC|right]. intros u Hu. apply HC. now right.
      * apply dfw_visit_read; [exact HA|exact HB|]. cbn [dfw_set w_event w_start]. destruct HC as [HC|HC]; [now left|right; apply HC; now left].
  - cbn [read_outcome]. rewrite app_nil_r. split; [exact HA|]. split; [cbn [dfw_continue w_count]; rewrite Nat.add_0_r; exact HB|].
    cbn [dfw_event_ok dfw_continue w_pc w_event]. left. destruct (dfw_is_start V_dec VS PM LM s v) eqn:Es; [reflexivity|].
    destruct HC as [HC|HC]; [exact HC|]. apply is_start_eq in HC. congruence.
  - destruct (_ && _); cbn [read_outcome]; rewrite app_nil_r; (split; [exact HA|]); (split; [exact HB|]); exact HC.
Qed.

Lemma dfw_read_run n os r : run step n init = (os, r) -> all_but_last_at_limit (rev (w_calls (outcome_state r))) (entered skip 0 os) r.
Proof using Hes Hen.
  apply (read_run step (fun s : state => w_calls s) dfw_read init).
  - exact dfw_read_step.
  - intros pre s H. apply H.
  - split; [reflexivity|]. split; reflexivity.
Qed.
End NoTrace.

Lemma limit_map {S} (f : S -> list (V * Z)) (part all : list (V * Z)) (r : outcome S exn) :
  all_but_last_at_limit part all r -> all_but_last_at_limit part all (outcome_map f r).
Proof. intros (e & E & H1 & H2). exists e. split; [exact E|]. split; [exact H1|]. intros H. destruct (H2 H) as (s & ->). eexists. reflexivity. Qed.

Lemma traverse_asked n os r : dfs_traverse V_dec vid VS PM LM XM next cfg skip starts av lim n = (os, r) ->
  all_but_last_at_limit (rev (outcome_state r)) (entered skip 0 os) r.
Proof using Hes Hen.
  unfold dfs_traverse. destruct (dfs_uses_trace cfg).
  - destruct (dfs_run _ _ _ _ _ _ _ _ _ _ _ _ n) as [os1 r1] eqn:HR. intros H; inversion H; subst; clear H.
    replace (outcome_state (outcome_map f_calls r1)) with (f_calls (outcome_state r1)) by (destruct r1; reflexivity).
    apply limit_map. eapply dfs_read_run; exact HR.
  - destruct (dfw_run _ _ _ _ _ _ _ _ _ _ _ _ n) as [os1 r1] eqn:HR. intros H; inversion H; subst; clear H.
    replace (outcome_state (outcome_map w_calls r1)) with (w_calls (outcome_state r1)) by (destruct r1; reflexivity).
    apply limit_map. eapply dfw_read_run; exact HR.
Qed.
End DFS.
