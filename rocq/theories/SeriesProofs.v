(** Proofs about several traversals that share the set of visited vertices. *)
From Coq Require Import List Bool Arith ZArith Lia.
From Verif Require Import Machine Common CommonProofs GearSpec GearProofs Spec TraversalSpec BFSModel BFSProofs BFSMore NTDModel NTDProofs DFSModel DFSSpec DFSTreeSpec DFSProofs DFSMore DFSFinal
  AwareModel AwareOnce SeriesModel.
Import ListNotations.

(** ** What a single round does, as a relation between the sets before and after *)
Section Facts.
Context {I : Type}.
Record round_facts (E : I -> I -> Prop) (P src isstart : I -> Prop) (ids : list I) (ended : bool) (P' : I -> Prop) : Prop := {
  rf_nodup : NoDup ids;
  rf_ids : forall i, In i ids -> ~ P i /\ reachable (avoiding E P) src i;
  rf_keeps : forall i, P i \/ In i ids -> P' i;
  rf_adds : forall i, P' i -> P i \/ reachable (avoiding E P) src i;
  rf_ended : ended = true -> forall i, reachable (avoiding E P) src i -> P' i /\ (isstart i \/ In i ids)
}.
End Facts.

(** A run whose passes add exactly what they report. *)
Lemma run_adds {S O X I} (step : S -> step_result S O X) (vis : S -> I -> Prop) (id : O -> I) :
  (forall s, match step s with
             | Go o s' | Halt o s' | Raise o _ s' => forall i, vis s' i <-> vis s i \/ In i (map id o)
             end) ->
  forall n s os r, run step n s = (os, r) -> forall i, vis (outcome_state r) i <-> vis s i \/ In i (map id os).
Proof.
  intros H. induction n as [|n IH]; simpl; intros s os r HR i; [inversion HR; subst; simpl; tauto|].
  specialize (H s). destruct (step s) as [o s1|o s1|o x s1]; [|inversion HR; subst; simpl; auto..].
  destruct (run step n s1) as [os1 r1] eqn:E1. inversion HR; subst. rewrite (IH _ _ _ E1 i), (H i), map_app, in_app_iff. simpl. tauto.
Qed.

Lemma define_visited_some {I} (VS : VSet I) s ids i : vs_mem VS i (define_visited VS (Some s) ids false) = true <-> vs_mem VS i s = true \/ In i ids.
Proof. unfold define_visited. rewrite vs_mem_of_list. tauto. Qed.

Section Rounds.
Context {V I L : Type}.
Variable V_dec : forall a b : V, {a = b} + {a <> b}.
Variable I_dec : forall a b : I, {a = b} + {a <> b}.
Variable vid : V -> I.
Variable VS : VSet I.
Variable PM : PMap I V.
Variable LM : PMap I L.
Variable XM : DMap I Z 0%Z.
Variable next : V -> list (V * L).
Variable E : I -> I -> Prop.
Hypothesis Hnext : presents vid next E.
Notation mem s := (fun i => vs_mem VS i s = true).

(** Breadth first *)
Lemma bfs_step_adds cfg (Ht : bc_is_tree cfg = false) (Hr : bc_report_depth_increase cfg = false) s :
  match bfs_step vid VS PM LM next cfg s with
  | Go o s' | Halt o s' | Raise o _ s' => forall i, vs_mem VS i (b_visited s') = true <-> vs_mem VS i (b_visited s) = true \/ In i (map (fun rep => vid (br_vertex rep)) o)
  end.
Proof.
  unfold bfs_step. destruct (b_pc s) as [| |v [|[n l] rest]].
  - destruct (b_to_expand s); simpl; tauto.
  - destruct (b_to_expand s); [rewrite Hr; simpl; tauto|]. destruct (limit_check (b_limit s)); simpl; tauto.
  - simpl. tauto.
  - rewrite Ht. cbn [negb andb]. destruct (vs_mem VS (vid n) (b_visited s)) eqn:Em; [simpl; tauto|]. intros i. cbn [b_visited bfs_mark map br_vertex bfs_observe In]. rewrite Ht.
    rewrite vs_mem_add. simpl. intuition congruence.
Qed.

Lemma bfs_round_facts cfg starts lim n shared os e s' : round_ok (RBreadthFirst cfg starts lim n) ->
  round_run V_dec vid VS PM LM XM next shared (RBreadthFirst cfg starts lim n) = (os, e, s') ->
  round_facts E (mem shared) (is_start vid starts) (is_start vid starts) (map vid os) e (mem s').
Proof.
  intros [Ht Hr]. cbn [round_run]. destruct (bfs_run vid VS PM LM next cfg starts (Some shared) lim n) as [ob r] eqn:ER. intros H. inversion H; subst; clear H.
  destruct (bfs_av_reported I_dec vid VS PM LM next cfg Ht Hr E Hnext starts (Some shared) lim n ob r ER) as (H1 & H2 & _ & H4).
  assert (HV : forall i, vs_mem VS i (b_visited (outcome_state r)) = true <-> (vs_mem VS i shared = true \/ is_start vid starts i) \/ In i (bfs_ids vid ob)).
  { intros i. rewrite (run_adds _ (fun s i => vs_mem VS i (b_visited s) = true) (fun rep => vid (br_vertex rep)) (bfs_step_adds cfg Ht Hr) _ _ _ _ ER i).
    cbn [b_visited bfs_init]. rewrite Ht, define_visited_some. reflexivity. }
  assert (Hids : map vid (map br_vertex ob) = bfs_ids vid ob) by (rewrite map_map; reflexivity). rewrite Hids. constructor.
  - exact H1.
  - intros i Hi. unfold bfs_ids in Hi. apply in_map_iff in Hi. destruct Hi as (rep & <- & Hi). destruct (H2 rep Hi) as (_ & A & B). split; assumption.
  - intros i Hi. apply HV. tauto.
  - intros i Hi. apply HV in Hi. destruct Hi as [[Hi|Hi]|Hi]; [now left|right; now apply reachable_start|right].
    unfold bfs_ids in Hi. apply in_map_iff in Hi. destruct Hi as (rep & <- & Hi). destruct (H2 rep Hi) as (_ & A & B). assumption.
  - destruct r as [s|s|x s]; try discriminate. intros _ i Hi. destruct (H4 s eq_refl) as [HA _]. specialize (HA i Hi). split; [|exact HA]. apply HV. tauto.
Qed.

(** Neighbors, then depth *)
Lemma ntd_step_adds cfg (Ht : nc_is_tree cfg = false) s :
  match ntd_step vid VS PM LM next cfg s with
  | Go o s' | Halt o s' | Raise o _ s' => forall i, vs_mem VS i (n_visited s') = true <-> vs_mem VS i (n_visited s) = true \/ In i (map (fun rep => vid (nr_vertex rep)) o)
  end.
Proof.
  unfold ntd_step. destruct (n_pc s) as [|v [|[n l] rest]].
  - destruct (n_to_expand s) as [|v r]; [simpl; tauto|]. destruct (ntd_enter VS PM LM cfg s r) as [s1|] eqn:E1; [|simpl; tauto].
    destruct (ntd_enter_keeps VS PM LM cfg _ _ _ E1) as (_ & _ & K). destruct (limit_check (n_limit s1)); cbn [ntd_expand n_visited map In]; rewrite K; tauto.
  - simpl. tauto.
  - rewrite Ht. cbn [negb andb]. destruct (vs_mem VS (vid n) (n_visited s)) eqn:Em; [simpl; tauto|]. intros i. cbn [n_visited ntd_push ntd_mark map nr_vertex ntd_observe In]. rewrite Ht.
    rewrite vs_mem_add. simpl. intuition congruence.
Qed.

Lemma ntd_round_facts cfg starts lim n shared os e s' : round_ok (RNeighborsThenDepth cfg starts lim n) ->
  round_run V_dec vid VS PM LM XM next shared (RNeighborsThenDepth cfg starts lim n) = (os, e, s') ->
  round_facts E (mem shared) (is_start vid starts) (is_start vid starts) (map vid os) e (mem s').
Proof.
  intros Ht. cbn [round_ok] in Ht. cbn [round_run]. destruct (ntd_run vid VS PM LM next cfg starts (Some shared) lim n) as [ob r] eqn:ER. intros H. inversion H; subst; clear H.
  destruct (ntd_av_reported I_dec vid VS PM LM next cfg Ht E Hnext starts (Some shared) lim n ob r ER) as (H1 & H2 & _ & _ & _ & H4).
  assert (HV : forall i, vs_mem VS i (n_visited (outcome_state r)) = true <-> (vs_mem VS i shared = true \/ is_start vid starts i) \/ In i (ntd_ids vid ob)).
  { intros i. rewrite (run_adds _ (fun s i => vs_mem VS i (n_visited s) = true) (fun rep => vid (nr_vertex rep)) (ntd_step_adds cfg Ht) _ _ _ _ ER i).
    cbn [n_visited ntd_init]. rewrite Ht, define_visited_some. reflexivity. }
  assert (Hids : map vid (map nr_vertex ob) = ntd_ids vid ob) by (rewrite map_map; reflexivity). rewrite Hids. constructor.
  - exact H1.
  - intros i Hi. unfold ntd_ids in Hi. apply in_map_iff in Hi. destruct Hi as (rep & <- & Hi). destruct (H2 rep Hi) as (_ & A & B). split; assumption.
  - intros i Hi. apply HV. tauto.
  - intros i Hi. apply HV in Hi. destruct Hi as [[Hi|Hi]|Hi]; [now left|right; now apply reachable_start|right].
    unfold ntd_ids in Hi. apply in_map_iff in Hi. destruct Hi as (rep & <- & Hi). destruct (H2 rep Hi) as (_ & A & B). assumption.
  - destruct r as [s|s|x s]; try discriminate. intros _ i Hi. destruct (H4 s eq_refl) as [HA _]. specialize (HA i Hi). split; [|exact HA]. apply HV. tauto.
Qed.

(** Depth first: visited are the vertices of the set given and those the neighbor function has been called for. *)
Section DepthFirst.
Variable cfg : dfs_cfg.
Hypothesis Ht : DFSModel.dc_is_tree cfg = false.
Hypothesis Hm : dc_mode cfg = DFS_TREE.
Variable P : I -> Prop.
Notation never := (fun _ : nat => false).
Notation step := (dfs_step V_dec vid VS PM LM XM next cfg never).
Notation cids s := (map vid (map fst (f_calls s))).
Notation wstep := (dfw_step V_dec vid VS PM LM XM next cfg never).
Notation wcids s := (map vid (map fst (w_calls s))).
Let Q (s : @dfs_state V I L VS PM LM XM) : Prop := f_limit s = None /\ forall i, vs_mem VS i (f_visited s) = true <-> P i \/ In i (cids s).
Let WQ (s : @dfw_state V I L VS PM LM) : Prop := w_limit s = None /\ forall i, vs_mem VS i (w_visited s) = true <-> P i \/ In i (wcids s).

Ltac brute H := repeat match type of H with context [match ?c with _ => _ end] => destruct c eqn:?; try discriminate end; inversion H; subst.

Lemma revisit_Q s v b : Q s -> match dfs_revisit vid VS PM LM XM cfg s v b with Go _ s' => Q s' | Halt _ _ => False | Raise _ x _ => x <> RuntimeErrorLimit end.
Proof.
  intros HQ. destruct (dfs_revisit vid VS PM LM XM cfg s v b) eqn:H; unfold dfs_revisit in H; brute H; try discriminate; try exact HQ.
Qed.
Lemma leave_Q s b m : Q s -> match dfs_leave vid VS PM LM XM cfg s b m with Go _ s' => Q s' | Halt _ _ => False | Raise _ x _ => x <> RuntimeErrorLimit end.
Proof.
  intros HQ. destruct (dfs_leave vid VS PM LM XM cfg s b m) eqn:H; unfold dfs_leave in H; brute H; try discriminate; try exact HQ.
Qed.
Lemma visit_Q s v : Q s -> match dfs_visit V_dec vid VS PM LM XM next cfg never s v with Go _ s' => Q s' | Halt _ _ => False | Raise _ x _ => x <> RuntimeErrorLimit end.
Proof.
  intros [H1 H2]. unfold dfs_visit. rewrite andb_false_r. cbn [dfs_enter f_limit]. rewrite H1. cbn [limit_check].
  assert (HG : forall k, Q (dfs_expand VS PM LM XM next cfg (dfs_enter V_dec vid VS PM LM XM cfg s v) v None k)).
  { intros k. split; [reflexivity|]. intros i. cbn [dfs_expand dfs_enter f_visited f_calls map fst In]. rewrite Ht, Hm. cbn [negb is_dfs_tree andb]. rewrite vs_mem_add, H2. intuition congruence. }
  destruct (f_trace s); [apply HG|]. destruct (DFSModel.dc_labeled cfg); [destruct (f_var_labels s); [apply HG|discriminate]|apply HG].
Qed.
Lemma step_Q s : Q s -> match step s with Go _ s' | Halt _ s' => Q s' | Raise _ x _ => x <> RuntimeErrorLimit end.
Proof.
  intros HQ. destruct (f_pc s) as [|b] eqn:E1.
  { unfold dfs_step. rewrite E1. destruct (f_starts s); exact HQ. }
  destruct (f_markers s) as [|[|] m] eqn:E2.
  - unfold dfs_step. rewrite E1, E2. exact HQ.
  - unfold dfs_step. rewrite E1, E2. pose proof (leave_Q s b m HQ) as H. destruct (dfs_leave vid VS PM LM XM cfg s b m); tauto.
  - destruct (dfs_pop VS PM LM XM cfg s m) as [[v s1]|] eqn:E3; [|unfold dfs_step; rewrite E1, E2, E3; discriminate].
    rewrite (dfs_step_pop V_dec vid VS PM LM XM cfg never _ _ _ _ _ _ E1 E2 E3).
    assert (HQ1 : Q s1). { unfold dfs_pop in E3. brute E3; exact HQ. }
    match goal with |- context [if ?c then _ else _] => destruct c end.
    + pose proof (revisit_Q s1 v (negb (is_dfs_tree (dc_mode cfg))) HQ1) as H. destruct (dfs_revisit _ _ _ _ _ _ _ _ _); tauto.
    + pose proof (visit_Q s1 v HQ1) as H. destruct (dfs_visit _ _ _ _ _ _ _ _ _ _ _); tauto.
Qed.
Lemma wstep_Q s : WQ s -> match wstep s with Go _ s' | Halt _ s' => WQ s' | Raise _ x _ => x <> RuntimeErrorLimit end.
Proof.
  intros HQ. unfold dfw_step. destruct (w_pc s) as [| |v rest].
  - destruct (w_starts s); exact HQ.
  - destruct (if DFSModel.dc_compute_depth cfg then _ else _) as [m d]. destruct (w_to_visit s) as [|v q]; [exact HQ|].
    cbn [w_visited dfw_set]. rewrite Ht. cbn [negb andb]. destruct (vs_mem VS (vid v) (w_visited s)) eqn:Em; [exact HQ|].
    unfold dfw_visit. rewrite andb_false_r. cbn [dfw_enter dfw_set w_limit]. destruct HQ as [H1 H2]. rewrite H1. cbn [limit_check]. split; [reflexivity|].
    intros i. cbn [dfw_expand dfw_enter dfw_set w_visited w_calls map fst In]. rewrite Ht, vs_mem_add, H2. intuition congruence.
  - destruct rest as [|[x l] rest]; [exact HQ|]. destruct ((_ || _) && _); exact HQ.
Qed.

Lemma run_Q {S O} (st : S -> step_result S O exn) (q : S -> Prop) : (forall s, q s -> match st s with Go _ s' | Halt _ s' => q s' | Raise _ x _ => x <> RuntimeErrorLimit end) ->
  forall n s os r, q s -> run st n s = (os, r) -> match r with Running s' | Ended s' => q s' | Raised x _ => x <> RuntimeErrorLimit end.
Proof.
  intros H. induction n as [|n IH]; simpl; intros s os r Hq HR; [inversion HR; now subst|].
  specialize (H s Hq). destruct (st s) as [o s1|o s1|o x s1]; [|inversion HR; now subst..].
  destruct (run st n s1) as [os1 r1] eqn:E1. inversion HR; subst. exact (IH _ _ _ H E1).
Qed.
End DepthFirst.

Lemma dfs_round_facts cfg starts n shared os e s' : round_ok (RDepthFirst cfg starts n) ->
  round_run V_dec vid VS PM LM XM next shared (RDepthFirst cfg starts n) = (os, e, s') ->
  round_facts E (mem shared) (fun i => is_start vid starts i /\ vs_mem VS i shared <> true) (is_start vid starts) (map vid os) e (mem s').
Proof.
  intros ((o & Ho) & Hm & Ht & Honly & Hsucc) HR.
  set (P := mem shared).
  assert (HT : exists ob c r, dfs_traverse V_dec vid VS PM LM XM next cfg (fun _ => false) starts (Some shared) None n = (ob, r) /\ os = map fr_vertex ob /\
     (forall x c, r = Raised x c -> x <> RuntimeErrorLimit) /\ (e = true -> r = Ended c) /\ outcome_state r = c /\
     ((forall x c, r <> Raised x c) -> forall i, vs_mem VS i s' = true <-> P i \/ In i (map vid (map fst c)))).
  { unfold dfs_traverse. cbn [round_run] in HR. destruct (dfs_uses_trace cfg).
    - destruct (dfs_run V_dec vid VS PM LM XM next cfg (fun _ => false) starts (Some shared) None n) as [ob r] eqn:ER. inversion HR; subst; clear HR.
      assert (HI : f_limit (dfs_init vid VS PM LM XM cfg starts (Some shared) None) = None /\
        forall i, vs_mem VS i (f_visited (dfs_init vid VS PM LM XM cfg starts (Some shared) None)) = true <-> P i \/ In i (map vid (map fst (f_calls (dfs_init vid VS PM LM XM cfg starts (Some shared) None))))).
      { split; [reflexivity|]. intros i. cbn [dfs_init f_visited f_calls map]. rewrite Ht, define_visited_some. reflexivity. }
      pose proof (run_Q _ _ (step_Q cfg Ht Hm P) n _ _ _ HI ER) as HQ.
      exists ob, (f_calls (outcome_state r)), (outcome_map f_calls r). split; [reflexivity|]. split; [reflexivity|].
      split; [destruct r; try discriminate; cbn [outcome_map]; intros x' c' Hx; inversion Hx; subst; exact HQ|].
      split; [destruct r; discriminate || reflexivity|]. split; [destruct r; reflexivity|].
      intros Hn. destruct r as [s|s|x s]; [exact (proj2 HQ)|exact (proj2 HQ)|now elim (Hn x (f_calls s))].
    - destruct (dfw_run V_dec vid VS PM LM XM next cfg (fun _ => false) starts (Some shared) None n) as [ob r] eqn:ER. inversion HR; subst; clear HR.
      assert (HI : w_limit (dfw_init vid VS PM LM cfg starts (Some shared) None) = None /\
        forall i, vs_mem VS i (w_visited (dfw_init vid VS PM LM cfg starts (Some shared) None)) = true <-> P i \/ In i (map vid (map fst (w_calls (dfw_init vid VS PM LM cfg starts (Some shared) None))))).
      { split; [reflexivity|]. intros i. cbn [dfw_init w_visited w_calls map]. rewrite Ht, define_visited_some. reflexivity. }
      pose proof (run_Q _ _ (wstep_Q cfg Ht P) n _ _ _ HI ER) as HQ.
      exists ob, (w_calls (outcome_state r)), (outcome_map w_calls r). split; [reflexivity|]. split; [reflexivity|].
      split; [destruct r; try discriminate; cbn [outcome_map]; intros x' c' Hx; inversion Hx; subst; exact HQ|].
      split; [destruct r; discriminate || reflexivity|]. split; [destruct r; reflexivity|].
      intros Hn. destruct r as [s|s|x s]; [exact (proj2 HQ)|exact (proj2 HQ)|now elim (Hn x (w_calls s))]. }
  destruct HT as (ob & c & r & ET & -> & Hx & He & Hc & HV).
  destruct (dfs_tree_main V_dec vid VS PM LM XM next starts cfg (fun _ => false) (Some shared) Ht Hm o Ho E None n ob r Hnext ET) as (tree & Hsh & Hdf & Hre & Hend).
  assert (Hok : forall x c, r <> Raised x c) by (intros x c' Hr; subst r; elim (Hx x c' eq_refl); apply Hend).
  specialize (HV Hok).
  assert (Hev : forall rep, In rep ob -> entering (fr_event rep) = true).
  { intros rep Hin. destruct (only_requested V_dec vid VS PM LM XM next starts cfg (fun _ => false) (Some shared) o Ho Ht _ _ _ _ ET rep Hin) as (ev & -> & Hev). destruct (Honly _ Hev) as [->| ->]; reflexivity. }
  destruct (shows_only _ _ _ _ _ _ _ _ Hsh Hev) as (Hos & Hexp). specialize (Hexp (fun _ => eq_refl)).
  assert (Hfil : filter en_expanded tree = tree).
  { clear - Hexp. induction tree as [|x t IH]; auto. simpl. rewrite (Hexp x) by now left. f_equal. apply IH. intros y Hy. apply Hexp. now right. }
  assert (Hcalls : map fst (rev c) = map en_vertex tree).
  { destruct r as [c'|c'|x c']; [| |now elim (Hok x c')]; cbn [outcome_state] in Hc; subst c'; rewrite <- Hfil; [exact Hend|exact (proj1 Hend)]. }
  assert (HV' : forall i, vs_mem VS i s' = true <-> P i \/ In i (map (fun e => vid (en_vertex e)) tree)).
  { intros i. rewrite HV, <- (map_map en_vertex vid), <- Hcalls, map_rev, map_rev, <- in_rev. reflexivity. }
  destruct (dfs_reach V_dec vid VS PM LM XM next starts cfg (fun _ => false) (Some shared) o Ho Ht Hm Honly Hsucc E None n ob r Hnext ET) as (H1 & H2 & _ & H4).
  rewrite map_map. constructor.
  - exact H1.
  - exact H2.
  - intros i [Hi|Hi]; apply HV'; [now left|right]. rewrite <- (map_map fr_vertex vid), Hos, map_map in Hi. apply in_map_iff in Hi. destruct Hi as (x & <- & Hi).
    apply filter_In in Hi. apply in_map_iff. exists x. tauto.
  - intros i Hi. apply HV' in Hi. destruct Hi as [Hi|Hi]; [now left|right]. apply in_map_iff in Hi. destruct Hi as (x & <- & Hi). exact (Hre x Hi).
  - intros Hend' i Hi. specialize (He Hend'). subst r. destruct (H4 c eq_refl (fun _ => eq_refl) i Hi) as [H|[_ H]]; (split; [|tauto]); apply HV'; right.
    all: destruct Hend as [_ Hall]; apply Hall; clear - Hi Hexp; revert i Hi; apply reachable_ind'; [intros i Hs; apply reachable_start; exact Hs|];
      intros i j _ IH Hij; eapply reachable_step; [exact IH|]; split; auto.
Qed.

Lemma round_any r shared os e s' : round_ok r -> round_run V_dec vid VS PM LM XM next shared r = (os, e, s') ->
  round_facts E (mem shared) (starts_from vid (mem shared) r) (is_start vid (round_starts r)) (map vid os) e (mem s').
Proof. destruct r; [apply bfs_round_facts|apply ntd_round_facts|apply dfs_round_facts]. Qed.

(** ** Sequences of rounds *)
Lemma reachable_mono (E1 E2 : I -> I -> Prop) (S1 S2 : I -> Prop) : (forall i j, E1 i j -> E2 i j) -> (forall i, S1 i -> S2 i) -> forall i, reachable E1 S1 i -> reachable E2 S2 i.
Proof. intros HE HS. apply reachable_ind'; [intros i Hi; apply reachable_start; auto|]. intros i j _ IH Hij. eapply reachable_step; eauto. Qed.

Notation sources P rs := (fun i => exists r, In r rs /\ starts_from vid P r i).

Lemma starts_from_less (P P1 : I -> Prop) r i : (forall i, P i -> P1 i) -> starts_from vid P1 r i -> starts_from vid P r i.
Proof. intros H. destruct r; simpl; auto. intros [A B]. split; auto. Qed.
Lemma starts_from_more (P : I -> Prop) s1 r i : starts_from vid P r i -> starts_from vid (mem s1) r i \/ (vs_mem VS i s1 = true /\ ~ P i).
Proof. destruct r; simpl; auto. intros [A B]. destruct (vs_mem VS i s1) eqn:E1; [right; auto|left; split; [exact A|discriminate]]. Qed.

Lemma series_reports rs : (forall r, In r rs -> round_ok r) -> forall shared oss e s', series V_dec vid VS PM LM XM next shared rs = (oss, e, s') ->
  length oss = length rs /\ NoDup (map vid (concat oss)) /\
  (forall i, In i (map vid (concat oss)) -> vs_mem VS i shared <> true /\ vs_mem VS i s' = true) /\
  (forall i, vs_mem VS i shared = true -> vs_mem VS i s' = true) /\
  (forall i, vs_mem VS i s' = true -> vs_mem VS i shared = true \/ reachable (avoiding E (mem shared)) (sources (mem shared) rs) i) /\
  (forall k os r, nth_error oss k = Some os -> nth_error rs k = Some r -> forall i, In i (map vid os) -> reachable (avoiding E (mem shared)) (starts_from vid (mem shared) r) i).
Proof.
  induction rs as [|r rs IH]; simpl; intros Hok shared oss e s' HR.
  - inversion HR; subst. repeat split; try tauto; [constructor|contradiction..|]. intros [|k]; discriminate.
  - destruct (round_run V_dec vid VS PM LM XM next shared r) as [[os e1] s1] eqn:E1. destruct (series V_dec vid VS PM LM XM next s1 rs) as [[oss' e2] s2] eqn:E2. inversion HR; subst; clear HR.
    destruct (round_any r shared os e1 s1 (Hok r (or_introl eq_refl)) E1) as [F1 F2 F3 F4 F5].
    destruct (IH (fun r Hr => Hok r (or_intror Hr)) s1 oss' e2 s' E2) as (G0 & G1 & G2 & G3 & G4 & G5).
    assert (Hav : forall i j, avoiding E (mem s1) i j -> avoiding E (mem shared) i j) by (intros i j [A B]; split; auto).
    split; [simpl; congruence|]. cbn [concat]. rewrite map_app. split; [|split; [|split; [|split]]].
    + clear - F1 G1 F3 G2. revert F3. induction F1 as [|x l Hx Hl IHl]; intros F3; [exact G1|]. simpl. constructor.
      * rewrite in_app_iff. intros [H|H]; [auto|]. apply (proj1 (G2 x H)). apply F3. right. now left.
      * apply IHl. intros i [H|H]; apply F3; [now left|right; now right].
    + intros i Hi. rewrite in_app_iff in Hi. destruct Hi as [Hi|Hi]; [destruct (F2 i Hi); split; auto; apply G3, F3; now right|]. destruct (G2 i Hi) as [A B]. split; auto.
    + auto.
    + intros i Hi. destruct (G4 i Hi) as [H|H].
      * destruct (F4 i H) as [A|A]; [now left|right]. revert A. apply reachable_mono; auto. intros j Hj. exists r. auto.
      * right. revert H. apply reachable_mono; auto. intros j (r' & A & B). exists r'. split; auto. eapply starts_from_less; [|exact B]. intros k' Hk'. apply F3. now left.
    + intros [|k] os' r' H1 H2 i Hi; cbn [nth_error] in H1, H2.
      * inversion H1; inversion H2; subst. exact (proj2 (F2 i Hi)).
      * generalize (G5 k os' r' H1 H2 i Hi). apply reachable_mono; auto. intros j Hj. eapply starts_from_less; [|exact Hj]. intros k' Hk'. apply F3. now left.
Qed.

Lemma series_ended rs : (forall r, In r rs -> round_ok r) -> forall shared oss s', series V_dec vid VS PM LM XM next shared rs = (oss, true, s') ->
  forall i, reachable (avoiding E (mem shared)) (sources (mem shared) rs) i -> vs_mem VS i s' = true /\ (vs_mem VS i shared = true \/ (exists r, In r rs /\ is_start vid (round_starts r) i) \/ In i (map vid (concat oss))).
Proof.
  induction rs as [|r rs IH]; simpl; intros Hok shared oss s' HR i Hi.
  - exfalso. revert i Hi. apply reachable_ind'; [intros i (r & [] & _)|auto].
  - destruct (round_run V_dec vid VS PM LM XM next shared r) as [[os e1] s1] eqn:E1. destruct (series V_dec vid VS PM LM XM next s1 rs) as [[oss' e2] s2] eqn:E2. inversion HR as [[H1 H2 H3]]; subst s2 oss; clear HR.
    apply andb_true_iff in H2. destruct H2 as [-> ->].
    destruct (round_any r shared os true s1 (Hok r (or_introl eq_refl)) E1) as [F1 F2 F3 F4 F5]. specialize (F5 eq_refl).
    destruct (series_reports rs (fun r Hr => Hok r (or_intror Hr)) s1 oss' true s' E2) as (_ & _ & _ & G3 & _).
    assert (HC : reachable (avoiding E (mem shared)) (starts_from vid (mem shared) r) i \/ reachable (avoiding E (mem s1)) (sources (mem s1) rs) i).
    { revert i Hi. apply reachable_ind'.
      - intros i (r' & [<-|Hr] & Hs); [left; now apply reachable_start|].
        destruct (starts_from_more (mem shared) s1 r' i Hs) as [H|[H Hn]]; [right; apply reachable_start; exists r'; auto|].
        destruct (F4 i H) as [?|?]; [contradiction|now left].
      - intros i j _ [IHl|IHl] [Hij Hn]; [left; eapply reachable_step; [exact IHl|split; auto]|].
        destruct (vs_mem VS j s1) eqn:Ej; [destruct (F4 j Ej) as [?|?]; [contradiction|now left]|].
        right. eapply reachable_step; [exact IHl|]. split; auto. rewrite Ej. discriminate. }
    cbn [concat]. rewrite map_app, in_app_iff. destruct HC as [H|H].
    + destruct (F5 i H) as [A [B|B]]; split; auto. right. left. exists r. auto.
    + destruct (IH (fun r Hr => Hok r (or_intror Hr)) s1 oss' s' E2 i H) as [A [B|[(r' & B & C)|B]]]; split; auto.
      * destruct (F4 i B) as [C|C]; [now left|]. destruct (F5 i C) as [_ [D|D]]; [right; left; exists r; auto|auto].
      * right. left. exists r'. auto.
Qed.
End Rounds.

Section Specs.
Context {V I L : Type}.
Variable V_dec : forall a b : V, {a = b} + {a <> b}.
Variable I_dec : forall a b : I, {a = b} + {a <> b}.
Variable vid : V -> I.
Variable VS : VSet I.
Variable PM : PMap I V.
Variable LM : PMap I L.
Variable XM : DMap I Z 0%Z.
Variable next : V -> list (V * L).
Variable E : I -> I -> Prop.
Hypothesis Hnext : presents vid next E.
Variable rs : list (round V).
Hypothesis Hok : forall r, In r rs -> round_ok r.
Variable shared : vs_t VS.

Lemma starts_from_is_start P r i : starts_from vid P r i -> is_start vid (round_starts r) i.
Proof. destruct r; simpl; auto. now intros [A _]. Qed.

Lemma series_reports_spec reports e after : series V_dec vid VS PM LM XM next shared rs = (reports, e, after) ->
  let initially := fun i => vs_mem VS i shared = true in
  length reports = length rs /\ NoDup (map vid (concat reports)) /\
  (forall v, In v (concat reports) -> ~ initially (vid v)) /\
  (forall k r os, nth_error rs k = Some r -> nth_error reports k = Some os ->
     forall v, In v os -> reachable (avoiding E initially) (is_start vid (round_starts r)) (vid v)).
Proof.
  intros HR. destruct (series_reports V_dec I_dec vid VS PM LM XM next E Hnext rs Hok shared reports e after HR) as (A & B & C & D & F & G).
  split; [exact A|]. split; [exact B|]. split; [intros v Hv; exact (proj1 (C (vid v) (in_map vid _ v Hv)))|].
  intros k r os H1 H2 v Hv. generalize (G k os r H2 H1 (vid v) (in_map vid _ v Hv)). apply reachable_mono; [auto|]. intros i. apply starts_from_is_start.
Qed.

Lemma series_visited_spec reports e after : series V_dec vid VS PM LM XM next shared rs = (reports, e, after) ->
  let initially := fun i => vs_mem VS i shared = true in
  let finally := fun i => vs_mem VS i after = true in
  let sources := fun i => exists r, In r rs /\ starts_from vid initially r i in
  (forall i, initially i -> finally i) /\ (forall v, In v (concat reports) -> finally (vid v)) /\
  (forall i, finally i -> initially i \/ reachable (avoiding E initially) sources i) /\
  (e = true -> forall i, finally i <-> initially i \/ reachable (avoiding E initially) sources i).
Proof.
  intros HR. destruct (series_reports V_dec I_dec vid VS PM LM XM next E Hnext rs Hok shared reports e after HR) as (A & B & C & D & F & G).
  cbv zeta. split; [exact D|]. split; [intros v Hv; exact (proj2 (C (vid v) (in_map vid _ v Hv)))|]. split; [exact F|].
  intros -> i. split; [apply F|]. intros [H|H]; [auto|]. exact (proj1 (series_ended V_dec I_dec vid VS PM LM XM next E Hnext rs Hok shared reports after HR i H)).
Qed.

Lemma NoDup_concat_unique {A} (f : V -> A) (ll : list (list V)) : NoDup (map f (concat ll)) -> forall k1 k2 l1 l2 v1 v2,
  nth_error ll k1 = Some l1 -> nth_error ll k2 = Some l2 -> In v1 l1 -> In v2 l2 -> f v1 = f v2 -> k1 = k2.
Proof.
  induction ll as [|l ll IH]; intros HN k1 k2 l1 l2 v1 v2 H1 H2 I1 I2 Hf; [destruct k1; discriminate|].
  cbn [concat] in HN. rewrite map_app in HN.
  assert (Hd : forall x, In x (map f l) -> ~ In x (map f (concat ll))).
  { clear - HN. induction (map f l) as [|y m IHm]; [intros x []|]. simpl in HN. inversion HN as [|? ? Hy Hm]; subst. rewrite in_app_iff in Hy. intros x [<-|Hx]; [tauto|]. apply IHm; auto. }
  assert (HN' : NoDup (map f (concat ll))) by (clear - HN; induction (map f l) as [|y m IHm]; [exact HN|]; simpl in HN; inversion HN; auto).
  assert (Hin : forall k l' v, nth_error ll k = Some l' -> In v l' -> In (f v) (map f (concat ll))).
  { intros k l' v Hk Hv. apply in_map, in_concat. exists l'. split; [eapply nth_error_In; eauto|auto]. }
  destruct k1 as [|k1], k2 as [|k2]; cbn [nth_error] in H1, H2; [reflexivity| | |f_equal; eapply IH; eauto].
  - inversion H1; subst. exfalso. apply (Hd (f v1)); [now apply in_map|]. rewrite Hf. eauto.
  - inversion H2; subst. exfalso. apply (Hd (f v2)); [now apply in_map|]. rewrite <- Hf. eauto.
Qed.

Lemma series_complete_spec reports after : series V_dec vid VS PM LM XM next shared rs = (reports, true, after) ->
  let initially := fun i => vs_mem VS i shared = true in
  forall i, reachable (avoiding E initially) (fun j => exists r, In r rs /\ starts_from vid initially r j) i -> ~ initially i ->
  (exists r, In r rs /\ is_start vid (round_starts r) i) \/
  (exists! k, exists os v, nth_error reports k = Some os /\ In v os /\ vid v = i).
Proof.
  intros HR initially i Hi Hn. destruct (series_reports V_dec I_dec vid VS PM LM XM next E Hnext rs Hok shared reports true after HR) as (_ & B & _).
  destruct (series_ended V_dec I_dec vid VS PM LM XM next E Hnext rs Hok shared reports after HR i Hi) as [_ [H|[H|H]]]; [contradiction|now left|right].
  apply in_map_iff in H. destruct H as (v & Hv & H). apply in_concat in H. destruct H as (os & Hos & Hin). apply In_nth_error in Hos. destruct Hos as [k Hk].
  exists k. split; [exists os, v; auto|]. intros k' (os' & v' & Hk' & Hin' & Hv'). eapply NoDup_concat_unique; eauto. congruence.
Qed.
End Specs.
