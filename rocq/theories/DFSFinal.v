(** TraversalDepthFirst in mode DFS_TREE if only entering events are requested, as it is the default. *)
From Coq Require Import List Bool Arith ZArith Lia.
From Verif Require Import Machine GearSpec Spec Common TraversalSpec PathsModel PathsSpec PathsProofs DFSModel DFSSpec DFSTreeSpec DFSLog DFSLogMore
  DFSReports DFSProofs DFSTerm DFSWProofs DFSMain DFSTree DFSMore DFSDet DFSCompare.
Import ListNotations.

Lemma shows_only {V I L} {VS : VSet I} {PM : PMap I V} {LM : PMap I L} {XM : DMap I Z 0%Z} R skip ev (look : list (entry V) -> option (entry V) -> @dfs_report V I L VS PM LM XM -> Prop) m before es os :
  shows R skip ev look m before es os -> (forall rep, In rep os -> entering (fr_event rep) = true) ->
  map fr_vertex os = map en_vertex (filter (fun e => R (ev e)) es) /\ ((forall k, skip k = false) -> forall e, In e es -> en_expanded e = true).
Proof.
  induction 1 as [m before|m before e es os Hr He H IH|m before e es rep os Hr He Hv Hev Hl H IH|m before es rep os He Hl H IH]; intros HO.
  - split; [reflexivity|intros _ e []].
  - destruct IH as (A & B); auto. cbn [filter]. rewrite Hr. split; auto. intros Hs x [<-|Hx]; auto.
  - destruct IH as (A & B); [intros x Hx; apply HO; right; auto|]. cbn [filter map]. rewrite Hr. cbn [map]. split; [congruence|].
    intros Hs x [<-|Hx]; auto. rewrite He, Hs. reflexivity.
  - rewrite HO in He by (left; reflexivity). discriminate.
Qed.

Section DFSFinal.
Context {V I L : Type}.
Variable V_dec : forall a b : V, {a = b} + {a <> b}.
Variable vid : V -> I.
Variable VS : VSet I.
Variable PM : PMap I V.
Variable LM : PMap I L.
Variable XM : DMap I Z 0%Z.
Variable next : V -> list (V * L).
Variable starts : list V.
Variable cfg : dfs_cfg.
Variable skip : nat -> bool.
Variable av : option (vs_t VS).
Notation traverse := (dfs_traverse V_dec vid VS PM LM XM next cfg skip starts av).
Notation P := (in_already_visited VS av).
Variable o : dfs_cfg.
Hypothesis Ho : dfs_options o (match av with Some _ => true | None => false end) = inl cfg.
Hypothesis Htree : dc_is_tree cfg = false.
Hypothesis Hmode : dc_mode cfg = DFS_TREE.

(** Only requested events are reported. *)
Lemma only_requested lim n os r : traverse lim n = (os, r) -> forall rep, In rep os -> exists ev, fr_event rep = Some ev /\ dc_report cfg ev = true.
Proof.
  intros HR rep Hin.
  destruct (dfs_main V_dec vid VS PM LM XM next starts cfg skip av o Ho (fun h _ => match eq_true_false_abs _ h Htree with end) lim n os r HR) as (log & k & open & _ & Hg & _).
  apply asked_all in Hg. apply in_rev in Hin. rewrite <- Hg in Hin. apply filter_In in Hin. destruct Hin as (_ & H).
  unfold asked in H. destruct (fr_event rep); [eauto|discriminate].
Qed.

Lemma dft_nodup tree : depth_first_tree vid (next_edge next) starts P tree -> NoDup (map (fun e => vid (en_vertex e)) tree) /\
  (forall e, In e tree -> ~ P (vid (en_vertex e)) /\ (en_above e = [] -> In (en_vertex e) starts)).
Proof.
  intros H. split.
  - induction tree as [|e tree IH] using rev_ind; [constructor|]. rewrite map_app. cbn [map].
    destruct (H tree e [] eq_refl) as (_ & Hn & _). rewrite <- (rev_involutive (_ ++ _)). apply NoDup_rev. rewrite rev_app_distr. cbn. constructor.
    + rewrite <- in_rev. exact Hn.
    + apply NoDup_rev. apply IH. intros l1 x l2 E. apply (H l1 x (l2 ++ [e])). rewrite E, <- app_assoc. reflexivity.
  - intros e He. apply in_split in He. destruct He as (l1 & l2 & E). destruct (H l1 e l2 E) as (HP & _ & [(_ & Hs & _)|(a & u & b & _ & Ha & _)]); split; auto.
    intros Hx. rewrite Ha in Hx. unfold en_path in Hx. destruct (en_above u); discriminate.
Qed.

Lemma NoDup_map_filter {A B} (g : A -> B) (f : A -> bool) l : NoDup (map g l) -> NoDup (map g (filter f l)).
Proof.
  induction l as [|x l IH]; cbn; auto. inversion 1; subst. destruct (f x); cbn; auto. constructor; auto.
  intros Hin. apply H2. apply in_map_iff in Hin. destruct Hin as (y & E & Hy). apply filter_In in Hy. apply in_map_iff. exists y. intuition.
Qed.

Theorem dfs_skip E lim n os c : presents vid next E -> traverse lim n = (os, Ended c) ->
  exists tree, shows (dc_report cfg) skip entry_event (fun _ _ _ => True) 0 [] tree os /\ NoDup (map (fun e => vid (en_vertex e)) tree) /\
    map fst (rev c) = map en_vertex (filter en_expanded tree) /\
    forall i, reachable (fun i j => avoiding E P i j /\ forall e, In e tree -> vid (en_vertex e) = i -> en_expanded e = true)
                        (fun i => is_start vid starts i /\ ~ P i) i -> In i (map (fun e => vid (en_vertex e)) tree).
Proof.
  intros HE HR. destruct (dfs_tree_main V_dec vid VS PM LM XM next starts cfg skip av Htree Hmode o Ho E lim n os _ HE HR) as (tree & Hsh & Hdf & _ & Hc & Hall).
  exists tree. split; [|split; [apply (dft_nodup _ Hdf)|split; auto]]. eapply shows_ext; [exact Hsh|auto|auto].
Qed.

(** Only entering events are requested. *)
Hypothesis Honly : forall ev, dc_report cfg ev = true -> ev = ENTERING_START \/ ev = ENTERING_SUCCESSOR.
Hypothesis Hsucc : dc_report cfg ENTERING_SUCCESSOR = true.

Theorem dfs_reach E lim n os r : presents vid next E -> traverse lim n = (os, r) ->
  let ids := map (fun rep => vid (fr_vertex rep)) os in
  NoDup ids /\
  (forall i, In i ids -> ~ P i /\ reachable (avoiding E P) (fun i => is_start vid starts i /\ ~ P i) i) /\
  (forall x c, r = Raised x c -> x = RuntimeErrorLimit) /\
  (forall c, r = Ended c -> (forall m, skip m = false) ->
     forall i, reachable (avoiding E P) (fun i => is_start vid starts i /\ ~ P i) i -> In i ids \/ (dc_report cfg ENTERING_START = false /\ is_start vid starts i)).
Proof.
  intros HE HR ids. destruct (dfs_tree_main V_dec vid VS PM LM XM next starts cfg skip av Htree Hmode o Ho E lim n os r HE HR) as (tree & Hsh & Hdf & Hre & Hend).
  assert (Hev : forall rep, In rep os -> entering (fr_event rep) = true).
  { intros rep Hin. destruct (only_requested _ _ _ _ HR rep Hin) as (ev & -> & Hev). destruct (Honly _ Hev) as [->| ->]; reflexivity. }
  destruct (shows_only _ _ _ _ _ _ _ _ Hsh Hev) as (Hos & Hexp).
  assert (Hids : ids = map (fun e => vid (en_vertex e)) (filter (fun e => dc_report cfg (entry_event e)) tree)).
  { unfold ids. rewrite <- (map_map fr_vertex vid), Hos, map_map. reflexivity. }
  destruct (dft_nodup _ Hdf) as (Hnd & Hst). split; [|split; [|split]].
  - rewrite Hids. apply NoDup_map_filter; auto.
  - intros i Hi. rewrite Hids in Hi. apply in_map_iff in Hi. destruct Hi as (e & <- & He). apply filter_In in He. destruct He as (He & _).
    split; [apply (Hst e He)|apply (Hre e He)].
  - intros x c ->. apply Hend.
  - intros c -> Hns i Hi. destruct Hend as (_ & Hall). specialize (Hexp Hns).
    assert (Hin : In i (map (fun e => vid (en_vertex e)) tree)).
    { apply Hall. clear - Hi Hexp. revert i Hi. apply reachable_ind'; [intros i Hs; apply reachable_start; exact Hs|].
      intros i j _ IH Hij. eapply reachable_step; [exact IH|]. split; auto. }
    apply in_map_iff in Hin. destruct Hin as (e & <- & He).
    destruct (dc_report cfg (entry_event e)) eqn:Hr.
    + left. rewrite Hids. apply in_map_iff. exists e. split; auto. apply filter_In. auto.
    + right. unfold entry_event in Hr. destruct (en_above e) eqn:Ha; [|congruence]. split; auto. apply in_map. apply (Hst e He). auto.
Qed.
End DFSFinal.

Lemma fewer_events_R {V I L : Type} (V_dec : forall a b : V, {a = b} + {a <> b}) (vid : V -> I) (VS : VSet I) (PM : PMap I V) (LM : PMap I L)
    (XM : DMap I Z 0%Z) (next : V -> list (V * L)) (starts : list V) (av : option (vs_t VS)) (o : dfs_cfg) (R : dfs_event -> bool) (cfg1 cfg2 : dfs_cfg) :
  let given := match av with Some _ => true | None => false end in
  dfs_options (ask_events R o) given = inl cfg1 -> dfs_options o given = inl cfg2 -> (dc_is_tree o = true -> av = None) ->
  (forall ev, R ev = true -> dc_report o ev = true) -> (R CROSS_EDGE = true -> R BACK_EDGE = true) ->
  let in_R rep := match fr_event rep with Some ev => R ev | None => false end in
  forall lim1 n1 os1 r1 lim2 n2 os2 r2,
  dfs_traverse V_dec vid VS PM LM XM next cfg1 (fun _ => false) starts av lim1 n1 = (os1, r1) ->
  dfs_traverse V_dec vid VS PM LM XM next cfg2 (fun _ => false) starts av lim2 n2 = (os2, r2) ->
  same_as_far (same_seen VS PM LM XM cfg1 cfg2) os1 (filter in_R os2) /\
  (forall c1 c2, r1 = Ended c1 -> r2 = Ended c2 -> Forall2 (same_seen VS PM LM XM cfg1 cfg2) os1 (filter in_R os2)).
Proof.
  intros given Ho1 Ho2 Ht HR Hc in_R lim1 n1 os1 r1 lim2 n2 os2 r2 R1 R2.
  destruct (options_keep _ _ _ Ho1) as (_ & _ & _ & _ & Q & _). cbn in Q.
  assert (F : forall rep : @dfs_report V I L VS PM LM XM, asked VS PM LM XM cfg1 rep = in_R rep) by (intros rep; unfold asked, in_R; rewrite Q; reflexivity).
  rewrite <- (filter_ext _ _ F). exact (fewer_events V_dec vid VS PM LM XM next starts av o R cfg1 cfg2 Ho1 Ho2 Ht HR Hc lim1 n1 os1 r1 lim2 n2 os2 r2 R1 R2).
Qed.

Lemma options_errors (o : dfs_cfg) (av : bool) :
  let R := dc_report o in
  let kinds := R FORWARD_EDGE = true \/ R BACK_EDGE = true \/ R CROSS_EDGE = true in
  let on_trace := dc_compute_on_trace o = true \/
    (dc_is_tree o = false /\ (kinds \/ R FORWARD_OR_CROSS_EDGE = true \/ dc_mode o = ALL_PATHS)) in
  let index := dc_compute_index o = true \/ (dc_is_tree o = false /\ (R FORWARD_EDGE = true \/ R CROSS_EDGE = true)) in
  ((exists x, dfs_options o av = inr x) <->
   (R SOME_NON_TREE_EDGE = true /\ kinds) \/
   (R FORWARD_OR_CROSS_EDGE = true /\ (R FORWARD_EDGE = true \/ R CROSS_EDGE = true)) \/
   ((kinds \/ R SOME_NON_TREE_EDGE = true \/ R FORWARD_OR_CROSS_EDGE = true \/ on_trace) /\ (dc_is_tree o = true \/ dc_mode o = ALL_WALKS)) \/
   ((R FORWARD_EDGE = true \/ R CROSS_EDGE = true \/ R SOME_NON_TREE_EDGE = true \/ R FORWARD_OR_CROSS_EDGE = true) /\ dc_mode o = ALL_PATHS) \/
   (dc_build_paths o = true /\ dc_mode o = ALL_WALKS) \/
   (index /\ av = true)) /\
  (forall x, dfs_options o av = inr x -> x = RuntimeErrorConfig).
Proof.
  cbv zeta. split; [split|].
  - intros (x & H). unfold dfs_options in H.
    repeat match type of H with (if ?c then _ else _) = _ => let E := fresh "E" in destruct c eqn:E; [clear H; revert E|] end; [..|discriminate H].
    all: clear; destruct (dc_report o FORWARD_EDGE), (dc_report o BACK_EDGE), (dc_report o CROSS_EDGE), (dc_report o SOME_NON_TREE_EDGE),
      (dc_report o FORWARD_OR_CROSS_EDGE), (dc_mode o), (dc_is_tree o); cbn; try (intros; discriminate); try tauto.
    all: destruct (dc_compute_on_trace o), (dc_build_paths o), (dc_compute_index o), av; cbn; try (intros; discriminate); try tauto.
  - intros H. unfold dfs_options.
    repeat match goal with |- exists x, (if ?c then _ else _) = _ => let E := fresh "E" in destruct c eqn:E; [eexists; reflexivity|] end.
    exfalso. revert H E E0 E1 E2 E3 E4 E5.
    destruct (dc_report o FORWARD_EDGE), (dc_report o BACK_EDGE), (dc_report o CROSS_EDGE), (dc_report o SOME_NON_TREE_EDGE),
      (dc_report o FORWARD_OR_CROSS_EDGE); cbn; intros; try discriminate;
    destruct (dc_mode o), (dc_is_tree o); cbn in *; try discriminate;
    destruct (dc_compute_on_trace o), (dc_build_paths o), (dc_compute_index o), av; cbn in *; try discriminate; intuition congruence.
  - intros x. unfold dfs_options. repeat match goal with |- (if ?c then _ else _) = _ -> _ => destruct c; [intros H; injection H as <-; reflexivity|] end.
    discriminate.
Qed.
