(** Runs of TraversalDepthFirst with different options, compared. *)
From Coq Require Import List Bool Arith ZArith Lia.
From Verif Require Import Machine GearSpec Spec Common TraversalSpec DFSModel DFSSpec DFSTreeSpec DFSLog DFSLogMore
  DFSReports DFSProofs DFSTerm DFSWProofs DFSMain DFSTree DFSMore DFSDet.
Import ListNotations.

(** One of the two lists, element by element related by [same], is a first part of the other one. *)
Definition same_as_far {A B} (same : A -> B -> Prop) (l1 : list A) (l2 : list B) : Prop :=
  (exists a b, l2 = a ++ b /\ Forall2 same l1 a) \/ (exists a b, l1 = a ++ b /\ Forall2 same a l2).

Lemma Forall2_rev' {A B} (R : A -> B -> Prop) l1 l2 : Forall2 R l1 l2 -> Forall2 R (rev l1) (rev l2).
Proof. induction 1; cbn; [constructor|]. apply Forall2_app; auto. Qed.

Lemma filter_rev' {A} (f : A -> bool) l : filter f (rev l) = rev (filter f l).
Proof. induction l as [|x l IH]; auto. cbn. rewrite filter_app, IH. cbn. destruct (f x); cbn; auto. rewrite app_nil_r. auto. Qed.

Section Two.
Context {V I L : Type}.
Variable V_dec : forall a b : V, {a = b} + {a <> b}.
Variable vid : V -> I.
Variable VS : VSet I.
Variable PM : PMap I V.
Variable LM : PMap I L.
Variable XM : DMap I Z 0%Z.
Variable next : V -> list (V * L).
Variable starts : list V.
Variable cfg1 cfg2 : dfs_cfg.
Variable skip1 skip2 : nat -> bool.
Variable av : option (vs_t VS).
Notation report := (@dfs_report V I L VS PM LM XM).
Notation traverse1 := (dfs_traverse V_dec vid VS PM LM XM next cfg1 skip1 starts av).
Notation traverse2 := (dfs_traverse V_dec vid VS PM LM XM next cfg2 skip2 starts av).
Notation see cfg := (see vid VS PM LM XM next starts cfg av).
Variable o1 o2 : dfs_cfg.
Hypothesis Ho1 : dfs_options o1 (match av with Some _ => true | None => false end) = inl cfg1.
Hypothesis Ho2 : dfs_options o2 (match av with Some _ => true | None => false end) = inl cfg2.
Hypothesis Ht1 : dc_is_tree cfg1 = true -> dfs_uses_trace cfg1 = false -> av = None.
Hypothesis Ht2 : dc_is_tree cfg2 = true -> dfs_uses_trace cfg2 = false -> av = None.
Variable pol : policy I.
Hypothesis Hp1 : forall log k o, dfs_log vid next starts (dfs_policy VS cfg1 av) log k o -> dfs_log vid next starts pol log k o.
Hypothesis Hp2 : forall log k o, dfs_log vid next starts (dfs_policy VS cfg2 av) log k o -> dfs_log vid next starts pol log k o.
Hypothesis Hrule : forall log p, skip_rule V_dec cfg1 skip1 log p = skip_rule V_dec cfg2 skip2 log p.
Hypothesis Hshown : forall e p, shown V_dec cfg1 e p = match shown V_dec cfg2 e p with
                                                       | Some ev => if dc_report cfg1 ev then Some ev else None
                                                       | None => None
                                                       end.

(** What the two runs show in common. *)
Record same_seen (r1 r2 : report) : Prop := {
  ss_vertex : fr_vertex r1 = fr_vertex r2;
  ss_event : fr_event r1 = fr_event r2;
  ss_depth : dc_compute_depth cfg1 = true -> dc_compute_depth cfg2 = true -> fr_depth r1 = fr_depth r2;
  ss_trace : dfs_uses_trace cfg1 = true -> dfs_uses_trace cfg2 = true -> fr_trace r1 = fr_trace r2
}.

Lemma see_same log e p r1 r2 : see cfg1 log e p r1 -> see cfg2 log e p r2 -> fr_vertex r1 = fr_vertex r2 -> fr_event r1 = fr_event r2 -> same_seen r1 r2.
Proof.
  intros (A1 & B1) (A2 & B2) E1 E2. constructor; auto.
  - intros D1 D2. rewrite (se_depth _ _ _ _ _ _ _ _ _ _ _ _ _ _ A1), (se_depth _ _ _ _ _ _ _ _ _ _ _ _ _ _ A2), D1, D2. reflexivity.
  - intros U1 U2. rewrite (st_trace _ _ _ _ _ _ _ _ _ _ _ _ (B1 U1)), (st_trace _ _ _ _ _ _ _ _ _ _ _ _ (B2 U2)). reflexivity.
Qed.

Lemma reports_app cfg skip (s : log_t V -> log_event -> node V -> report -> Prop) d : forall log os,
  reports V_dec VS PM LM XM cfg skip s (d ++ log) os -> exists a b, os = a ++ b /\ reports V_dec VS PM LM XM cfg skip s log b.
Proof.
  induction d as [|x d IH]; cbn [app]; intros log os H.
  - exists [], os. auto.
  - inversion H; subst.
    + apply IH. auto.
    + destruct (IH _ _ H2) as (a & b & -> & Hb). exists (rep :: a), b. auto.
Qed.

Theorem compare_runs lim1 n1 os1 r1 lim2 n2 os2 r2 : traverse1 lim1 n1 = (os1, r1) -> traverse2 lim2 n2 = (os2, r2) ->
  same_as_far same_seen os1 (filter (asked VS PM LM XM cfg1) os2) /\
  (forall c1 c2, r1 = Ended c1 -> r2 = Ended c2 -> Forall2 same_seen os1 (filter (asked VS PM LM XM cfg1) os2)).
Proof.
  intros R1 R2.
  destruct (dfs_main V_dec vid VS PM LM XM next starts cfg1 skip1 av o1 Ho1 Ht1 _ _ _ _ R1) as (log1 & k1 & op1 & L1 & G1 & C1).
  destruct (dfs_main V_dec vid VS PM LM XM next starts cfg2 skip2 av o2 Ho2 Ht2 _ _ _ _ R2) as (log2 & k2 & op2 & L2 & G2 & C2).
  assert (U1 := reports_ruled _ _ _ _ _ _ _ _ _ _ G1). assert (U2 := reports_ruled _ _ _ _ _ _ _ _ _ _ G2).
  assert (U2' : ruled (skip_rule V_dec cfg1 skip1) log2) by (eapply ruled_ext; [|exact U2]; intros; symmetry; apply Hrule). clear U2.
  assert (Hf := reports_filter V_dec VS PM LM XM cfg1 cfg2 skip1 skip2 _ _ same_seen see_same Hshown).
  split.
  - destruct (Nat.le_ge_cases (length log1) (length log2)) as [Hle|Hle].
    + destruct (log_compare _ _ _ _ _ _ _ _ _ _ _ (Hp1 _ _ _ L1) (Hp2 _ _ _ L2) U1 U2' Hle) as (d & ->).
      destruct (reports_app _ _ _ _ _ _ G2) as (a & b & E & Gb). left.
      exists (filter (asked VS PM LM XM cfg1) (rev b)), (filter (asked VS PM LM XM cfg1) (rev a)).
      split; [rewrite <- filter_app, <- rev_app_distr, <- E, rev_involutive; reflexivity|].
      rewrite filter_rev'. rewrite <- (rev_involutive os1). apply Forall2_rev'. eapply Hf; eauto.
    + destruct (log_compare _ _ _ _ _ _ _ _ _ _ _ (Hp2 _ _ _ L2) (Hp1 _ _ _ L1) U2' U1 Hle) as (d & ->).
      destruct (reports_app _ _ _ _ _ _ G1) as (a & b & E & Gb). right.
      exists (rev b), (rev a). split; [rewrite <- rev_app_distr, <- E, rev_involutive; reflexivity|].
      rewrite <- (rev_involutive (filter _ os2)), <- filter_rev'. apply Forall2_rev'. eapply Hf; eauto.
  - intros c1 c2 -> ->. destruct C1 as (_ & -> & ->). destruct C2 as (_ & -> & ->).
    assert (log1 = log2) as -> by (apply (complete_det vid next starts pol (skip_rule V_dec cfg1 skip1)); auto).
    rewrite <- (rev_involutive (filter _ os2)), <- filter_rev'. rewrite <- (rev_involutive os1). apply Forall2_rev'. eapply Hf; eauto.
Qed.
End Two.

(** ** Three comparisons *)

(** The options [o], but with events [R] requested; with compute_trace; with is_tree. *)
Definition ask_events (R : dfs_event -> bool) (o : dfs_cfg) : dfs_cfg :=
  {| dc_is_tree := dc_is_tree o; dc_build_paths := dc_build_paths o; dc_labeled := dc_labeled o; dc_mode := dc_mode o; dc_report := R;
     dc_compute_depth := dc_compute_depth o; dc_compute_trace := dc_compute_trace o; dc_compute_on_trace := dc_compute_on_trace o;
     dc_compute_index := dc_compute_index o |}.
Definition ask_trace (o : dfs_cfg) : dfs_cfg :=
  {| dc_is_tree := dc_is_tree o; dc_build_paths := dc_build_paths o; dc_labeled := dc_labeled o; dc_mode := dc_mode o; dc_report := dc_report o;
     dc_compute_depth := dc_compute_depth o; dc_compute_trace := true; dc_compute_on_trace := dc_compute_on_trace o;
     dc_compute_index := dc_compute_index o |}.
Definition ask_is_tree (o : dfs_cfg) : dfs_cfg :=
  {| dc_is_tree := true; dc_build_paths := dc_build_paths o; dc_labeled := dc_labeled o; dc_mode := dc_mode o; dc_report := dc_report o;
     dc_compute_depth := dc_compute_depth o; dc_compute_trace := dc_compute_trace o; dc_compute_on_trace := dc_compute_on_trace o;
     dc_compute_index := dc_compute_index o |}.

(** Options that dfs_options leaves as they are. *)
Lemma options_keep o av cfg : dfs_options o av = inl cfg ->
  dc_is_tree cfg = dc_is_tree o /\ dc_build_paths cfg = dc_build_paths o /\ dc_labeled cfg = dc_labeled o /\ dc_mode cfg = dc_mode o /\
  dc_report cfg = dc_report o /\ dc_compute_depth cfg = dc_compute_depth o /\
  (dc_report o SOME_NON_TREE_EDGE = true -> dc_report o FORWARD_EDGE = false /\ dc_report o BACK_EDGE = false /\ dc_report o CROSS_EDGE = false).
Proof.
  unfold dfs_options. intros H. 
  repeat match type of H with (if ?c then _ else _) = _ => let E := fresh "E" in destruct c eqn:E; [discriminate H|] end.
  injection H as <-. repeat (split; [reflexivity|]). intros Hs. rewrite Hs in E. cbn in E.
  apply orb_false_elim in E. destruct E as (E & ?). apply orb_false_elim in E. destruct E as (? & ?). auto.
Qed.

Section Three.
Context {V I L : Type}.
Variable V_dec : forall a b : V, {a = b} + {a <> b}.
Variable vid : V -> I.
Variable VS : VSet I.
Variable PM : PMap I V.
Variable LM : PMap I L.
Variable XM : DMap I Z 0%Z.
Variable next : V -> list (V * L).
Variable starts : list V.
Variable av : option (vs_t VS).
Notation given := (match av with Some _ => true | None => false end).
Notation traverse cfg skip := (dfs_traverse V_dec vid VS PM LM XM next cfg skip starts av).
Notation same_seen := (same_seen VS PM LM XM).
Notation asked := (asked VS PM LM XM).

Lemma shown_same cfg1 cfg2 : dc_report cfg1 = dc_report cfg2 -> forall e (p : node V), shown V_dec cfg1 e p = shown V_dec cfg2 e p.
Proof. intros E e p. unfold shown, event_of. rewrite E. reflexivity. Qed.

Lemma shown_requested cfg e (p : node V) ev : shown V_dec cfg e p = Some ev -> dc_report cfg ev = true.
Proof. unfold shown. destruct (event_of V_dec cfg e p); [|discriminate]. destruct (dc_report cfg d) eqn:E; [|discriminate]. congruence. Qed.

Lemma shown_filter cfg1 cfg2 : dc_report cfg1 = dc_report cfg2 -> forall e (p : node V), shown V_dec cfg1 e p =
  match shown V_dec cfg2 e p with Some ev => if dc_report cfg1 ev then Some ev else None | None => None end.
Proof.
  intros E e p. rewrite (shown_same _ _ E). destruct (shown V_dec cfg2 e p) eqn:Es; auto. apply shown_requested in Es. rewrite E, Es. reflexivity.
Qed.

Lemma count_same cfg1 cfg2 : dc_report cfg1 = dc_report cfg2 -> forall log : log_t V, count_shown V_dec cfg1 log = count_shown V_dec cfg2 log.
Proof. intros E. induction log as [|(e & p) log IH]; auto. cbn. rewrite IH, (shown_same _ _ E). reflexivity. Qed.

Lemma rule_same cfg1 cfg2 skip : dc_report cfg1 = dc_report cfg2 -> forall (log : log_t V) p, skip_rule V_dec cfg1 skip log p = skip_rule V_dec cfg2 skip log p.
Proof. intros E log p. unfold skip_rule. rewrite (shown_same _ _ E), (count_same _ _ E). reflexivity. Qed.

Lemma asked_all cfg skip s log os : reports V_dec VS PM LM XM cfg skip s log os -> filter (asked cfg) os = os.
Proof.
  induction 1 as [| |log os e j v p rep H IH Hs Hne Hv Hsee Hb]; auto. cbn. unfold asked at 1.
  destruct (fr_event rep) eqn:E; [|congruence]. apply shown_requested in Hs. rewrite Hs, IH. reflexivity.
Qed.

Lemma asked_all_same cfg1 cfg2 : dc_report cfg1 = dc_report cfg2 -> forall os, filter (asked cfg1) os = filter (asked cfg2) os.
Proof. intros E os. apply filter_ext. intros r. unfold asked. rewrite E. reflexivity. Qed.

Lemma policy_same cfg1 cfg2 : dc_is_tree cfg1 = dc_is_tree cfg2 -> dc_mode cfg1 = dc_mode cfg2 -> dfs_policy VS cfg1 av = dfs_policy VS cfg2 av.
Proof. unfold dfs_policy. intros -> ->. reflexivity. Qed.

(** *** With and without trace *)
Theorem trace_agrees o cfg1 cfg2 skip : dfs_options o given = inl cfg1 -> dfs_options (ask_trace o) given = inl cfg2 ->
  (dc_is_tree o = true -> av = None) ->
  forall lim1 n1 os1 r1 lim2 n2 os2 r2, traverse cfg1 skip lim1 n1 = (os1, r1) -> traverse cfg2 skip lim2 n2 = (os2, r2) ->
  same_as_far (same_seen cfg1 cfg2) os1 os2 /\ (forall c1 c2, r1 = Ended c1 -> r2 = Ended c2 -> Forall2 (same_seen cfg1 cfg2) os1 os2).
Proof.
  intros Ho1 Ho2 Ht lim1 n1 os1 r1 lim2 n2 os2 r2 R1 R2.
  destruct (options_keep _ _ _ Ho1) as (T1 & _ & _ & M1 & Q1 & _). destruct (options_keep _ _ _ Ho2) as (T2 & _ & _ & M2 & Q2 & _). cbn in T2, M2, Q2.
  assert (Q : dc_report cfg1 = dc_report cfg2) by congruence.
  assert (F : filter (asked cfg1) os2 = os2).
  { rewrite (asked_all_same cfg1 cfg2 Q). destruct (dfs_main V_dec vid VS PM LM XM next starts cfg2 skip av _ Ho2 (fun h _ => Ht (eq_trans (eq_sym T2) h)) _ _ _ _ R2) as (log & k & op & _ & G & _).
    apply asked_all in G. rewrite <- (rev_involutive os2), filter_rev', G. reflexivity. }
  rewrite <- F.
  apply (compare_runs V_dec vid VS PM LM XM next starts cfg1 cfg2 skip skip av o (ask_trace o) Ho1 Ho2) with (pol := dfs_policy VS cfg1 av)
    (lim1 := lim1) (n1 := n1) (lim2 := lim2) (n2 := n2); auto; try congruence.
  - intros h _. apply Ht. congruence.
  - intros h _. apply Ht. congruence.
  - rewrite (policy_same cfg2 cfg1) by congruence. auto.
  - apply rule_same; auto.
  - apply shown_filter; auto.
Qed.

(** *** Fewer events requested *)
Theorem fewer_events o (R : dfs_event -> bool) cfg1 cfg2 : dfs_options (ask_events R o) given = inl cfg1 -> dfs_options o given = inl cfg2 ->
  (dc_is_tree o = true -> av = None) -> (forall ev, R ev = true -> dc_report o ev = true) -> (R CROSS_EDGE = true -> R BACK_EDGE = true) ->
  let never := fun _ : nat => false in
  forall lim1 n1 os1 r1 lim2 n2 os2 r2, traverse cfg1 never lim1 n1 = (os1, r1) -> traverse cfg2 never lim2 n2 = (os2, r2) ->
  same_as_far (same_seen cfg1 cfg2) os1 (filter (asked cfg1) os2) /\
  (forall c1 c2, r1 = Ended c1 -> r2 = Ended c2 -> Forall2 (same_seen cfg1 cfg2) os1 (filter (asked cfg1) os2)).
Proof.
  intros Ho1 Ho2 Ht HR Hc never lim1 n1 os1 r1 lim2 n2 os2 r2 R1 R2.
  destruct (options_keep _ _ _ Ho1) as (T1 & _ & _ & M1 & Q1 & _ & S1). destruct (options_keep _ _ _ Ho2) as (T2 & _ & _ & M2 & Q2 & _ & S2). cbn in T1, M1, Q1, S1.
  apply (compare_runs V_dec vid VS PM LM XM next starts cfg1 cfg2 never never av (ask_events R o) o Ho1 Ho2) with (pol := dfs_policy VS cfg1 av)
    (lim1 := lim1) (n1 := n1) (lim2 := lim2) (n2 := n2); auto; try congruence.
  - intros h _. apply Ht. congruence.
  - intros h _. apply Ht. congruence.
  - rewrite (policy_same cfg2 cfg1) by congruence. auto.
  - intros log p. unfold skip_rule, never. destruct (shown V_dec cfg1 _ p), (shown V_dec cfg2 _ p); reflexivity.
  - intros e p. unfold shown, event_of. rewrite Q1, Q2.
    pose proof (HR SOME_NON_TREE_EDGE) as HS. pose proof (HR BACK_EDGE) as HB. pose proof (HR CROSS_EDGE) as HC. pose proof (HR FORWARD_EDGE) as HF.
    destruct e as [b| |kind|].
    + assert (G : forall ev, (if R ev then Some ev else None) = match (if dc_report o ev then Some ev else None) with Some ev => if R ev then Some ev else None | None => None end).
      { intros ev. pose proof (HR ev) as HX. destruct (R ev) eqn:E; [rewrite HX by auto; rewrite E; reflexivity|]. destruct (dc_report o ev); rewrite ?E; reflexivity. }
      apply G.
    + assert (G : forall ev, (if R ev then Some ev else None) = match (if dc_report o ev then Some ev else None) with Some ev => if R ev then Some ev else None | None => None end).
      { intros ev. pose proof (HR ev) as HX. destruct (R ev) eqn:E; [rewrite HX by auto; rewrite E; reflexivity|]. destruct (dc_report o ev); rewrite ?E; reflexivity. }
      apply G.
    + assert (X : dc_report o SOME_NON_TREE_EDGE = true -> dc_report o FORWARD_EDGE || dc_report o BACK_EDGE || dc_report o CROSS_EDGE = false)
        by (intros E; destruct (S2 E) as (-> & -> & ->); reflexivity).
      clear S1 S2.
      assert (G : forall (f : dfs_event -> bool), exists a b c d, f SOME_NON_TREE_EDGE = a /\ f BACK_EDGE = b /\ f CROSS_EDGE = c /\ f FORWARD_EDGE = d).
      { intros f. repeat eexists. }
      destruct (G R) as (a & b & c & d & Ea & Eb & Ec & Ed). destruct (G (dc_report o)) as (a' & b' & c' & d' & Ea' & Eb' & Ec' & Ed').
      rewrite Ea, ?Eb, ?Ec, ?Ed, ?Ea', ?Eb', ?Ec', ?Ed' in *. clear G.
      destruct kind, a, b, c, d, a', b', c', d'; rewrite ?Ea, ?Eb, ?Ec, ?Ed, ?Ea', ?Eb', ?Ec', ?Ed'; auto;
        try discriminate (HS eq_refl); try discriminate (HB eq_refl); try discriminate (HC eq_refl); try discriminate (HF eq_refl);
        try discriminate (Hc eq_refl); try discriminate (X eq_refl); rewrite ?Ea, ?Eb, ?Ec, ?Ed; auto.
    + pose proof (HR SKIPPING_START) as HX. destruct (R SKIPPING_START) eqn:E; [rewrite HX by auto; rewrite E; reflexivity|]. destruct (dc_report o SKIPPING_START); rewrite ?E; reflexivity.
Qed.

(** *** is_tree *)
Lemma tree_like_log pol : tree_like vid next starts -> match pol with PTree P0 => forall i, ~ P0 i | _ => True end ->
  forall log k op, dfs_log vid next starts PWalks log k op -> dfs_log vid next starts pol log k op.
Proof.
  intros HT HP log k op H.
  assert (ME : forall lg k0 op0 j v p, dfs_log vid next starts PWalks lg k0 op0 -> dnode next starts ((j, v) :: p) -> ~ In ((j, v) :: p) (arrivals lg) -> may_enter vid pol lg p v).
  { intros lg k0 op0 j v p Hl Hd Hn. destruct pol as [P0| |]; cbn; auto.
    - split; auto. intros (j' & v' & p' & He & E). apply Hn. rewrite (HT j v p j' v' p' Hd); auto; [apply entered_arrival; auto|eapply entered_dnode; eauto].
    - intros Hin. unfold leads_back, ids in Hin. apply in_map_iff in Hin. destruct Hin as ((j' & v') & E & Hin). cbn in E.
      apply in_split in Hin. destruct Hin as (d & p' & ->).
      assert (Hd' : dnode next starts ((j', v') :: p')) by (eapply (dnode_suffix _ _ _ Hd _ ((j, v) :: d)); [reflexivity|discriminate]).
      pose proof (HT _ _ _ _ _ _ Hd Hd' (eq_sym E)) as Hx. apply (f_equal (@length _)) in Hx. cbn in Hx. rewrite app_length in Hx. cbn in Hx. lia. }
  assert (ND : forall lg k0 op0 e p, dfs_log vid next starts PWalks ((e, p) :: lg) k0 op0 -> arrival e = true -> ~ In p (arrivals lg)).
  { intros lg k0 op0 e p Hl Ha. apply LogInv_holds in Hl. pose proof (li_nodup _ _ _ _ _ Hl) as N. unfold arrivals in N at 1. cbn [filter fst] in N. rewrite Ha in N.
    cbn in N. inversion N; auto. }
  assert (DN : forall lg k0 op0 e p, dfs_log vid next starts PWalks ((e, p) :: lg) k0 op0 -> dnode next starts p).
  { intros lg k0 op0 e p Hl. apply LogInv_holds in Hl. eapply li_dnode; eauto. left; reflexivity. }
  induction H as [|log k s b Hd IH Hs Hm|log k s Hd IH Hs Hm|log k j u p r op n l b Hd IH Hn Hm|log k j u p r op n l kind Hd IH Hn Hm Hk|log k p op Hd IH].
  - constructor.
  - assert (Hx : dfs_log vid next starts PWalks ((LEnter b, [(k, s)]) :: log) (S k) [([(k, s)], if b then edge_count next s else 0)]) by (constructor; auto).
    constructor; auto. eapply (ME log k [] k s []); eauto.
  - exfalso. apply Hm. exact Logic.I.
  - assert (Hx : dfs_log vid next starts PWalks ((LEnter b, (r, n) :: (j, u) :: p) :: log) k (((r, n) :: (j, u) :: p, if b then edge_count next n else 0) :: ((j, u) :: p, r) :: op)) by (econstructor; eauto).
    econstructor; eauto. 
  - exfalso. apply Hm. exact Logic.I.
  - constructor; auto.
Qed.

Theorem is_tree_agrees o cfg1 cfg2 skip : av = None -> tree_like vid next starts ->
  dfs_options (ask_is_tree o) false = inl cfg1 -> dfs_options o false = inl cfg2 -> dc_is_tree o = false ->
  forall lim1 n1 os1 r1 lim2 n2 os2 r2, traverse cfg1 skip lim1 n1 = (os1, r1) -> traverse cfg2 skip lim2 n2 = (os2, r2) ->
  same_as_far (same_seen cfg1 cfg2) os1 os2 /\ (forall c1 c2, r1 = Ended c1 -> r2 = Ended c2 -> Forall2 (same_seen cfg1 cfg2) os1 os2).
Proof.
  intros Hav HT Ho1 Ho2 Ht lim1 n1 os1 r1 lim2 n2 os2 r2 R1 R2.
  assert (Hg : given = false) by (rewrite Hav; reflexivity). assert (Ho1' := Ho1). assert (Ho2' := Ho2). rewrite <- Hg in Ho1', Ho2'.
  destruct (options_keep _ _ _ Ho1) as (T1 & _ & _ & M1 & Q1 & _). destruct (options_keep _ _ _ Ho2) as (T2 & _ & _ & M2 & Q2 & _). cbn in T1, M1, Q1.
  assert (Q : dc_report cfg1 = dc_report cfg2) by congruence.
  assert (F : filter (asked cfg1) os2 = os2).
  { rewrite (asked_all_same cfg1 cfg2 Q). destruct (dfs_main V_dec vid VS PM LM XM next starts cfg2 skip av _ Ho2' (fun _ _ => Hav) _ _ _ _ R2) as (log & k & op & _ & G & _).
    apply asked_all in G. rewrite <- (rev_involutive os2), filter_rev', G. reflexivity. }
  rewrite <- F.
  apply (compare_runs V_dec vid VS PM LM XM next starts cfg1 cfg2 skip skip av (ask_is_tree o) o Ho1' Ho2') with (pol := dfs_policy VS cfg2 av)
    (lim1 := lim1) (n1 := n1) (lim2 := lim2) (n2 := n2); auto; try congruence.
  - replace (dfs_policy VS cfg1 av) with (@PWalks I) by (unfold dfs_policy; rewrite T1; reflexivity). apply tree_like_log; auto.
    unfold dfs_policy. rewrite T2, Ht. destruct (dc_mode cfg2); auto. rewrite Hav. intros i [].
  - apply rule_same; auto.
  - apply shown_filter; auto.
Qed.
End Three.
