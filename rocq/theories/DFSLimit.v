(** The calculation limit of the depth-first search. *)
From Coq Require Import List ZArith Bool Arith Lia.
From Verif Require Import Machine GearSpec Common CommonProofs LimitSim LimitAll DFSModel.
Import ListNotations.

Section DFSLimit.
Context {V I L : Type}.
Variable V_dec : forall a b : V, {a = b} + {a <> b}.
Variable vid : V -> I.
Variable VS : VSet I.
Variable PM : PMap I V.
Variable LM : PMap I L.
Variable XM : DMap I Z 0%Z.
Variable next : V -> list (V * L).
Variable cfg : dfs_cfg.
Variable skip : nat -> bool.
Notation state := (@dfs_state V I L VS PM LM XM).
Notation wstate := (@dfw_state V I L VS PM LM).
Notation step := (dfs_step V_dec vid VS PM LM XM next cfg skip).
Notation wstep := (dfw_step V_dec vid VS PM LM XM next cfg skip).

(** The same state without a limit. *)
Definition dfs_forget_limit (s : state) : state :=
  {| f_pc := f_pc s; f_starts := f_starts s; f_start := f_start s; f_to_visit := f_to_visit s;
     f_to_visit_labels := f_to_visit_labels s; f_markers := f_markers s; f_var_labels := f_var_labels s;
     f_trace := f_trace s; f_trace_labels := f_trace_labels s; f_on_trace := f_on_trace s; f_index := f_index s;
     f_time := f_time s; f_depth := f_depth s; f_event := f_event s; f_visited := f_visited s; f_pred := f_pred s;
     f_labels := f_labels s; f_limit := None; f_count := f_count s; f_calls := f_calls s |}.
Definition dfw_forget_limit (s : wstate) : wstate :=
  {| w_pc := w_pc s; w_starts := w_starts s; w_start := w_start s; w_to_visit := w_to_visit s; w_markers := w_markers s;
     w_loop_depth := w_loop_depth s; w_depth := w_depth s; w_event := w_event s; w_visited := w_visited s; w_pred := w_pred s;
     w_labels := w_labels s; w_limit := None; w_count := w_count s; w_calls := w_calls s |}.

Notation ncalls := (fun s : state => length (f_calls s)).
Notation wcalls := (fun s : wstate => length (w_calls s)).

(** One pass [a] without limit, and the same pass [b] with the limit. *)
Definition law (lim : option Z) (k : nat) (a b : step_result state (dfs_report VS PM LM XM) exn) : Prop :=
  match a with
  | Go o t => (ncalls t = k /\ exists s', b = Go o s' /\ dfs_forget_limit s' = t /\ f_limit s' = lim) \/
      (ncalls t = S k /\ match limit_check lim with
                         | None => exists o1 o2 s', o = o1 ++ o2 /\ b = Raise o1 RuntimeErrorLimit s' /\ ncalls s' = k
                         | Some l => exists s', b = Go o s' /\ dfs_forget_limit s' = t /\ f_limit s' = l
                         end)
  | Halt o t => ncalls t = k /\ exists s', b = Halt o s' /\ dfs_forget_limit s' = t
  | Raise o x t => ncalls t = k /\ exists s', b = Raise o x s' /\ dfs_forget_limit s' = t
  end.

Ltac same := left; split; [reflexivity|eexists; repeat split].

Lemma leave_law s b m : law (f_limit s) (ncalls s) (dfs_leave vid VS PM LM XM cfg (dfs_forget_limit s) b m) (dfs_leave vid VS PM LM XM cfg s b m).
Proof.
  unfold dfs_leave. cbn [dfs_forget_limit f_trace]. destruct (f_trace s) as [|v t] eqn:Ht; [split; [reflexivity|eexists; repeat split]|].
  destruct m as [|x m].
  - destruct (dc_report cfg LEAVING_START); same; rewrite Ht; reflexivity.
  - destruct (dc_report cfg LEAVING_SUCCESSOR), b; cbn [andb negb dfs_show f_trace_labels dfs_forget_limit]; (destruct (dc_labeled cfg); [|same; rewrite Ht; reflexivity]);
    (destruct (f_trace_labels s) eqn:Hl; cbn [dfs_show f_trace_labels]; [split; [reflexivity|eexists; split; [reflexivity|]]; unfold dfs_show, dfs_forget_limit; cbn; rewrite ?Ht, ?Hl; reflexivity
      |same; unfold dfs_show, dfs_forget_limit, dfs_observe; cbn; rewrite ?Ht, ?Hl; reflexivity]).
Qed.

Lemma pop_law s m : dfs_pop VS PM LM XM cfg (dfs_forget_limit s) m =
  match dfs_pop VS PM LM XM cfg s m with None => None | Some (v, t) => Some (v, dfs_forget_limit t) end.
Proof.
  unfold dfs_pop. cbn [dfs_forget_limit f_to_visit f_to_visit_labels]. destruct (f_to_visit s) as [|v [|u q]]; auto; destruct (dc_labeled cfg); auto.
  destruct (f_to_visit_labels s); auto.
Qed.
Lemma pop_keeps s m v t : dfs_pop VS PM LM XM cfg s m = Some (v, t) -> f_limit t = f_limit s /\ f_calls t = f_calls s.
Proof.
  unfold dfs_pop. destruct (f_to_visit s) as [|u [|w q]]; [discriminate| |].
  - destruct (dc_labeled cfg); intros H; injection H as <- <-; auto.
  - destruct (dc_labeled cfg); [destruct (f_to_visit_labels s); [discriminate|]|]; intros H; injection H as <- <-; auto.
Qed.

Lemma revisit_law s v b : law (f_limit s) (ncalls s) (dfs_revisit vid VS PM LM XM cfg (dfs_forget_limit s) v b) (dfs_revisit vid VS PM LM XM cfg s v b).
Proof.
  unfold dfs_revisit. change (dfs_classify vid VS PM LM XM cfg (dfs_forget_limit s) v b) with (dfs_classify vid VS PM LM XM cfg s v b).
  cbn [dfs_forget_limit f_trace f_var_labels]. destruct (f_trace s) as [|p t] eqn:Ht.
  - destruct (dc_report cfg SKIPPING_START); same; reflexivity.
  - destruct (dfs_classify _ _ _ _ _ _ _ _ _); [|same].
    destruct (dc_labeled cfg); [destruct (f_var_labels s) eqn:Hv|]; try same; try reflexivity.
    split; [reflexivity|]. eexists. repeat split.
Qed.

Lemma visit_law s v : law (f_limit s) (ncalls s) (dfs_visit V_dec vid VS PM LM XM next cfg skip (dfs_forget_limit s) v)
  (dfs_visit V_dec vid VS PM LM XM next cfg skip s v).
Proof.
  unfold dfs_visit. change (is_current_start V_dec VS PM LM XM (dfs_forget_limit s) v) with (is_current_start V_dec VS PM LM XM s v).
  change (f_count (dfs_forget_limit s)) with (f_count s). change (f_trace (dfs_forget_limit s)) with (f_trace s).
  change (f_var_labels (dfs_forget_limit s)) with (f_var_labels s).
  change (f_limit (dfs_enter V_dec vid VS PM LM XM cfg (dfs_forget_limit s) v)) with (@None Z).
  change (f_limit (dfs_enter V_dec vid VS PM LM XM cfg s v)) with (f_limit s).
  cbn [limit_check].
  assert (K : law (f_limit s) (ncalls s)
    (let o := if dc_report cfg (if is_current_start V_dec VS PM LM XM s v then ENTERING_START else ENTERING_SUCCESSOR)
              then [dfs_observe VS PM LM XM v (dfs_enter V_dec vid VS PM LM XM cfg (dfs_forget_limit s) v)] else [] in
     if dc_report cfg (if is_current_start V_dec VS PM LM XM s v then ENTERING_START else ENTERING_SUCCESSOR) && skip (f_count s)
     then Go o (dfs_count VS PM LM XM (dfs_enter V_dec vid VS PM LM XM cfg (dfs_forget_limit s) v) (length o))
     else Go o (dfs_expand VS PM LM XM next cfg (dfs_enter V_dec vid VS PM LM XM cfg (dfs_forget_limit s) v) v None (length o)))
    (let o := if dc_report cfg (if is_current_start V_dec VS PM LM XM s v then ENTERING_START else ENTERING_SUCCESSOR)
              then [dfs_observe VS PM LM XM v (dfs_enter V_dec vid VS PM LM XM cfg s v)] else [] in
     if dc_report cfg (if is_current_start V_dec VS PM LM XM s v then ENTERING_START else ENTERING_SUCCESSOR) && skip (f_count s)
     then Go o (dfs_count VS PM LM XM (dfs_enter V_dec vid VS PM LM XM cfg s v) (length o))
     else match limit_check (f_limit s) with
          | None => Raise o RuntimeErrorLimit (dfs_count VS PM LM XM (dfs_enter V_dec vid VS PM LM XM cfg s v) (length o))
          | Some lim => Go o (dfs_expand VS PM LM XM next cfg (dfs_enter V_dec vid VS PM LM XM cfg s v) v lim (length o))
          end)).
  { cbv zeta. destruct (dc_report cfg _), (skip (f_count s)); cbn [andb]; try (same; reflexivity);
    (right; split; [reflexivity|]; destruct (limit_check (f_limit s));
      [eexists; repeat split; reflexivity|eexists _, [], _; rewrite app_nil_r; repeat split]). }
  destruct (f_trace s); auto. destruct (dc_labeled cfg); auto. destruct (f_var_labels s); auto.
  split; [reflexivity|]. eexists; repeat split.
Qed.

Lemma step_law s : law (f_limit s) (ncalls s) (step (dfs_forget_limit s)) (step s).
Proof.
  unfold dfs_step. cbn [dfs_forget_limit f_pc f_starts f_markers]. destruct (f_pc s).
  - destruct (f_starts s) eqn:Hs; [split; [reflexivity|eexists; split; [reflexivity|unfold dfs_forget_limit; rewrite Hs; reflexivity]]|same].
  - destruct (f_markers s) as [|[|] m] eqn:Hm; [same; reflexivity|apply leave_law|].
    fold (dfs_forget_limit s). 
    change (dfs_pop VS PM LM XM cfg _ m) with (dfs_pop VS PM LM XM cfg (dfs_forget_limit s) m) at 1. rewrite pop_law.
    destruct (dfs_pop VS PM LM XM cfg s m) as [(v & t)|] eqn:Hp; [|split; [reflexivity|eexists; repeat split]].
    destruct (pop_keeps _ _ _ _ Hp) as (<- & Hc). rewrite <- Hc.
    change (f_visited (dfs_forget_limit t)) with (f_visited t). change (f_on_trace (dfs_forget_limit t)) with (f_on_trace t).
    destruct (_ && _); [|apply visit_law]. destruct (is_dfs_tree _); [destruct (vs_mem VS (vid v) (f_visited t))|destruct (vs_mem VS (vid v) (f_on_trace t))];
    first [apply visit_law|apply revisit_law].
Qed.

Definition wlaw (lim : option Z) (k : nat) (a b : step_result wstate (dfs_report VS PM LM XM) exn) : Prop :=
  match a with
  | Go o t => (wcalls t = k /\ exists s', b = Go o s' /\ dfw_forget_limit s' = t /\ w_limit s' = lim) \/
      (wcalls t = S k /\ match limit_check lim with
                         | None => exists o1 o2 s', o = o1 ++ o2 /\ b = Raise o1 RuntimeErrorLimit s' /\ wcalls s' = k
                         | Some l => exists s', b = Go o s' /\ dfw_forget_limit s' = t /\ w_limit s' = l
                         end)
  | Halt o t => wcalls t = k /\ exists s', b = Halt o s' /\ dfw_forget_limit s' = t
  | Raise o x t => wcalls t = k /\ exists s', b = Raise o x s' /\ dfw_forget_limit s' = t
  end.

Lemma wvisit_law s v : wlaw (w_limit s) (wcalls s) (dfw_visit V_dec vid VS PM LM XM next cfg skip (dfw_forget_limit s) v)
  (dfw_visit V_dec vid VS PM LM XM next cfg skip s v).
Proof.
  unfold dfw_visit. change (dfw_is_start V_dec VS PM LM (dfw_forget_limit s) v) with (dfw_is_start V_dec VS PM LM s v).
  change (w_count (dfw_forget_limit s)) with (w_count s).
  change (w_limit (dfw_enter V_dec vid VS PM LM cfg (dfw_forget_limit s) v)) with (@None Z).
  change (w_limit (dfw_enter V_dec vid VS PM LM cfg s v)) with (w_limit s).
  cbn [limit_check].
  destruct (dc_report cfg _), (skip (w_count s)); cbn [andb]; try (same; reflexivity);
    (right; split; [reflexivity|]; destruct (limit_check (w_limit s));
      [eexists; repeat split; reflexivity|eexists _, [], _; rewrite app_nil_r; repeat split]).
Qed.

Lemma wstep_law s : wlaw (w_limit s) (wcalls s) (wstep (dfw_forget_limit s)) (wstep s).
Proof.
  unfold dfw_step. change (w_pc (dfw_forget_limit s)) with (w_pc s). change (w_starts (dfw_forget_limit s)) with (w_starts s).
  change (w_markers (dfw_forget_limit s)) with (w_markers s). change (w_to_visit (dfw_forget_limit s)) with (w_to_visit s).
  change (w_loop_depth (dfw_forget_limit s)) with (w_loop_depth s). change (w_visited (dfw_forget_limit s)) with (w_visited s).
  destruct (w_pc s) as [| |v [|(n, l) rest]].
  - destruct (w_starts s) eqn:Hs; [split; [reflexivity|eexists; split; [reflexivity|unfold dfw_forget_limit; cbn; rewrite Hs; reflexivity]]|same].
  - destruct (if dc_compute_depth cfg then _ else _) as [m d]. destruct (w_to_visit s) as [|v q]; [same|].
    change (w_visited (dfw_set VS PM LM (dfw_forget_limit s) WLoop q m d)) with (w_visited s).
    change (w_visited (dfw_set VS PM LM s WLoop q m d)) with (w_visited s).
    destruct (negb (dc_is_tree cfg) && vs_mem VS (vid v) (w_visited s)); [same|].
    apply (wvisit_law (dfw_set VS PM LM s WLoop q m d) v).
  - same. 
  - destruct (_ && _); same.
Qed.

Lemma traverse_limit starts av c n os r os' r' : (0 <= c)%Z ->
  dfs_traverse V_dec vid VS PM LM XM next cfg skip starts av None n = (os, r) ->
  dfs_traverse V_dec vid VS PM LM XM next cfg skip starts av (Some c) n = (os', r') ->
  (Z.of_nat (length (outcome_state r')) <= c)%Z /\
  ((Z.of_nat (length (outcome_state r)) <= c)%Z -> os' = os /\ r' = r) /\
  ((c < Z.of_nat (length (outcome_state r)))%Z ->
     (exists calls, r' = Raised RuntimeErrorLimit calls) /\ Z.of_nat (length (outcome_state r')) = c /\ exists ext, os = os' ++ ext).
Proof.
  intros Hc. unfold dfs_traverse. destruct (dfs_uses_trace cfg).
  - destruct (dfs_run _ _ _ _ _ _ _ _ _ _ _ None n) as [o1 r1] eqn:H1. destruct (dfs_run _ _ _ _ _ _ _ _ _ _ _ (Some c) n) as [o2 r2] eqn:H2.
    intros E1 E2. injection E1 as <- <-. injection E2 as <- <-.
    assert (K : (Z.of_nat (length (f_calls (outcome_state r2))) <= c)%Z /\
      ((Z.of_nat (length (f_calls (outcome_state r1))) <= c)%Z -> o2 = o1 /\ LimitSim.outcome_map dfs_forget_limit r2 = r1) /\
      ((c < Z.of_nat (length (f_calls (outcome_state r1))))%Z ->
         (exists s', r2 = Raised RuntimeErrorLimit s') /\ Z.of_nat (length (f_calls (outcome_state r2))) = c /\ exists ext, o1 = o2 ++ ext)).
    { eapply (limit_all step f_limit (fun s => length (f_calls s)) dfs_forget_limit) with
        (s0 := dfs_init vid VS PM LM XM cfg starts av None) (s1 := dfs_init vid VS PM LM XM cfg starts av (Some c));
      [| | |exact Hc| |apply (limit_state_init (Some c))|exact H1|exact H2]; auto.
      - intros s. pose proof (step_law s) as K. pose proof (step_law (dfs_forget_limit s)) as K2. unfold law in *. unfold result_state.
        destruct (step s) as [o t|o t|o x t] eqn:Es; destruct (step (dfs_forget_limit s)) as [o0 t0|o0 t0|o0 x0 t0];
        repeat match goal with
        | H : _ \/ _ |- _ => destruct H
        | H : _ /\ _ |- _ => destruct H
        | H : exists _, _ |- _ => destruct H
        | H : Go _ _ = _ |- _ => first [discriminate H|injection H as -> ->]
        | H : Halt _ _ = _ |- _ => first [discriminate H|injection H as -> ->]
        | H : Raise _ _ _ = _ |- _ => first [discriminate H|injection H as -> -> ->]
        | H : match limit_check _ with _ => _ end |- _ => destruct (limit_check (f_limit s))
        | H : dfs_forget_limit _ = _ |- _ => subst
        end; cbn [dfs_forget_limit f_calls] in *; try lia.
      - intros s. pose proof (step_law s) as K. unfold law in K. destruct (step (dfs_forget_limit s)); auto. }
    destruct K as (K1 & K2 & K3). split; [destruct r2; exact K1|split].
    + intros H. destruct K2 as (-> & K); [destruct r1; exact H|]. split; auto. rewrite <- K. destruct r2; reflexivity.
    + intros H. destruct K3 as ((s' & ->) & K & Ke); [destruct r1; exact H|]. split; [eexists; reflexivity|auto].
  - destruct (dfw_run _ _ _ _ _ _ _ _ _ _ _ None n) as [o1 r1] eqn:H1. destruct (dfw_run _ _ _ _ _ _ _ _ _ _ _ (Some c) n) as [o2 r2] eqn:H2.
    intros E1 E2. injection E1 as <- <-. injection E2 as <- <-.
    assert (K : (Z.of_nat (length (w_calls (outcome_state r2))) <= c)%Z /\
      ((Z.of_nat (length (w_calls (outcome_state r1))) <= c)%Z -> o2 = o1 /\ LimitSim.outcome_map dfw_forget_limit r2 = r1) /\
      ((c < Z.of_nat (length (w_calls (outcome_state r1))))%Z ->
         (exists s', r2 = Raised RuntimeErrorLimit s') /\ Z.of_nat (length (w_calls (outcome_state r2))) = c /\ exists ext, o1 = o2 ++ ext)).
    { eapply (limit_all wstep w_limit (fun s => length (w_calls s)) dfw_forget_limit) with
        (s0 := dfw_init vid VS PM LM cfg starts av None) (s1 := dfw_init vid VS PM LM cfg starts av (Some c));
      [| | |exact Hc| |apply (limit_state_init (Some c))|exact H1|exact H2]; auto.
      - intros s. pose proof (wstep_law s) as K. unfold wlaw in *. unfold result_state.
        destruct (wstep s) as [o t|o t|o x t] eqn:Es; destruct (wstep (dfw_forget_limit s)) as [o0 t0|o0 t0|o0 x0 t0];
        repeat match goal with
        | H : _ \/ _ |- _ => destruct H
        | H : _ /\ _ |- _ => destruct H
        | H : exists _, _ |- _ => destruct H
        | H : Go _ _ = _ |- _ => first [discriminate H|injection H as -> ->]
        | H : Halt _ _ = _ |- _ => first [discriminate H|injection H as -> ->]
        | H : Raise _ _ _ = _ |- _ => first [discriminate H|injection H as -> -> ->]
        | H : match limit_check _ with _ => _ end |- _ => destruct (limit_check (w_limit s))
        | H : dfw_forget_limit _ = _ |- _ => subst
        end; cbn [dfw_forget_limit w_calls] in *; try lia.
      - intros s. pose proof (wstep_law s) as K. unfold wlaw in K. destruct (wstep (dfw_forget_limit s)); auto. }
    destruct K as (K1 & K2 & K3). split; [destruct r2; exact K1|split].
    + intros H. destruct K2 as (-> & K); [destruct r1; exact H|]. split; auto. rewrite <- K. destruct r2; reflexivity.
    + intros H. destruct K3 as ((s' & ->) & K & Ke); [destruct r1; exact H|]. split; [eexists; reflexivity|auto].
Qed.
End DFSLimit.
