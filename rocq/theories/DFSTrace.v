(** TraversalDepthFirst with trace: traces, nesting, kinds of edges, all paths, all walks. *)
From Coq Require Import List Bool Arith ZArith Lia.
From Verif Require Import Machine GearSpec Spec Common TraversalSpec PathsModel PathsSpec PathsProofs DFSModel DFSSpec DFSTreeSpec DFSLog DFSLogMore
  DFSReports DFSProofs DFSTerm DFSWProofs DFSMain DFSTree DFSMore.
Import ListNotations.

Section DFSTrace.
Context {V I L : Type}.
Variable V_dec : forall a b : V, {a = b} + {a <> b}.
Variable vid : V -> I.
Variable VS : VSet I.
Variable PM : PMap I V.
Variable LM : PMap I L.
Variable XM : DMap I Z 0%Z.
Variable next : V -> list (V * L).
Variable starts : list V.
Variable cfg : dfs_cfg.
Variable skip : nat -> bool.
Variable av : option (vs_t VS).

Notation report := (@dfs_report V I L VS PM LM XM).
Notation pol := (dfs_policy VS cfg av).
Notation dfs_log := (dfs_log vid next starts pol).
Notation traverse := (dfs_traverse V_dec vid VS PM LM XM next cfg skip starts av).
Notation see := (see vid VS PM LM XM next starts cfg av).
Notation good := (reports V_dec VS PM LM XM cfg skip see).
Notation log_t := (log_t V).
Notation node := (node V).

(** ** Lemmas on reports *)
Lemma reports_split log os : good log os -> forall a rep b, os = a ++ rep :: b ->
  exists l1 e j v p lg, log = l1 ++ (e, (j, v) :: p) :: lg /\ good lg b /\ see ((e, (j, v) :: p) :: lg) e ((j, v) :: p) rep /\
    shown V_dec cfg e ((j, v) :: p) = fr_event rep /\ fr_event rep <> None /\ fr_vertex rep = v.
Proof.
  induction 1 as [|log os e p H IH Hs Hb|log os e j v p rep H IH Hs Hne Hv Hsee Hb]; intros a rp b E.
  - destruct a; discriminate.
  - destruct (IH _ _ _ E) as (l1 & e0 & j & v & q & lg & -> & Hx). exists ((e, p) :: l1), e0, j, v, q, lg. auto.
  - destruct a as [|x a]; cbn in E; injection E as E1 E2.
    + subst rp. subst os. exists [], e, j, v, p, log. auto 7.
    + destruct (IH _ _ _ E2) as (l1 & e0 & j0 & v0 & q & lg & -> & Hx). exists ((e, (j, v) :: p) :: l1), e0, j0, v0, q, lg. auto.
Qed.

Lemma good_cons e p log os : good ((e, p) :: log) os ->
  (shown V_dec cfg e p = None /\ good log os) \/
  (exists j q rep os', p = (j, fr_vertex rep) :: q /\ os = rep :: os' /\ good log os' /\ shown V_dec cfg e p = fr_event rep /\ fr_event rep <> None /\
     see ((e, p) :: log) e p rep).
Proof. inversion 1; subst; [left; auto|right]. exists j, p0, rep, os0. auto 7. Qed.

Lemma shown_in log os : good log os -> forall e p, In (e, p) log -> shown V_dec cfg e p <> None -> (exists k o, dfs_log log k o) ->
  exists rep lg, In rep os /\ see ((e, p) :: lg) e p rep /\ shown V_dec cfg e p = fr_event rep /\ (exists j q, p = (j, fr_vertex rep) :: q).
Proof.
  induction 1 as [|log os e p H IH Hs Hb|log os e j v p rep H IH Hs Hne Hv Hsee Hb]; intros e0 p0 Hin Hn (k & o & Hl).
  - destruct Hin.
  - destruct Hin as [E|Hin]; [injection E as -> ->; contradiction|]. destruct (IH _ _ Hin Hn) as (rep & lg & Hx); [eapply log_tail; eauto|]. eauto.
  - destruct Hin as [E|Hin].
    + injection E as <- <-. exists rep, log. split; [left; auto|]. split; auto. split; auto. exists j, p. rewrite Hv. reflexivity.
    + destruct (IH _ _ Hin Hn) as (rp & lg & Hr & Hx); [eapply log_tail; eauto|]. exists rp, lg. split; auto. right; auto.
Qed.

Definition walk_event (e : log_event) : bool := match e with LEnter _ | LLeave => true | _ => false end.
Ltac asks := match goal with |- context [if dc_report cfg ?x then Some ?x else None] => destruct (dc_report cfg x); congruence || reflexivity end.
Lemma shown_on_walk e (p : node) : shown V_dec cfg e p <> None -> on_walk (shown V_dec cfg e p) = walk_event e.
Proof.
  unfold shown, event_of. destruct e as [b| |k|]; intros H.
  - destruct (is_own_start V_dec p); asks.
  - destruct (length p =? 1); asks.
  - destruct (dc_report cfg SOME_NON_TREE_EDGE); [asks|]. destruct k; [destruct (dc_report cfg BACK_EDGE)|..]; asks.
  - asks.
Qed.
Lemma shown_entering e (p : node) : shown V_dec cfg e p <> None -> entering (shown V_dec cfg e p) = match e with LEnter _ => true | _ => false end.
Proof.
  unfold shown, event_of. destruct e as [b| |k|]; intros H.
  - destruct (is_own_start V_dec p); asks.
  - destruct (length p =? 1); asks.
  - destruct (dc_report cfg SOME_NON_TREE_EDGE); [asks|]. destruct k; [destruct (dc_report cfg BACK_EDGE)|..]; asks.
  - asks.
Qed.

Lemma dnode_walk (p : node) : dnode next starts p -> forall j v q, p = (j, v) :: q -> path_list (next_edge next) (fun s => In s starts) (rev (verts p)) v.
Proof.
  induction 1 as [k s Hk|i n l j u p Hd IH Hn]; intros j0 v0 q0 E; injection E as <- <- <-.
  - exists s, []. split; [reflexivity|]. split; [eapply nth_error_In; eauto|constructor].
  - destruct (IH j u p eq_refl) as (s & w & E & Hs & Hw). cbn [verts map snd rev] in *. exists s, (w ++ [n]).
    unfold verts in E. rewrite E. split; [reflexivity|]. split; auto. eapply walk_snoc; eauto. unfold next_edge. apply in_map_iff. exists (n, l). split; auto. eapply nth_error_In; eauto.
Qed.

Variable o : dfs_cfg.
Hypothesis Ho : dfs_options o (match av with Some _ => true | None => false end) = inl cfg.
Hypothesis Hu : dfs_uses_trace cfg = true.

Lemma trace_main lim n os r : traverse lim n = (os, r) ->
  exists log k open, dfs_log log k open /\ good log (rev os) /\
    match r with
    | Running c => c = calls_of cfg log
    | Ended c => c = calls_of cfg log /\ k = length starts /\ open = []
    | Raised x c => x = RuntimeErrorLimit /\ exists p log', log = (LEnter true, p) :: log' /\ c = calls_of cfg log'
    end.
Proof. apply (dfs_main V_dec vid VS PM LM XM next starts cfg skip av o Ho (fun _ h => match eq_true_false_abs _ Hu h with end)). Qed.

(** ** The trace *)
Theorem trace_is_path lim n os r : traverse lim n = (os, r) -> forall rep, In rep os ->
  path_list (next_edge next) (fun s => In s starts) (fr_trace rep) (fr_vertex rep) /\
  fr_event rep <> None /\
  (dc_compute_depth cfg = true ->
     fr_depth rep = (Z.of_nat (length (fr_trace rep)) - (if on_walk (fr_event rep) then 1 else 2))%Z) /\
  (dc_compute_on_trace cfg = true -> forall i, vs_mem VS i (fr_on_trace rep) = true <->
     In i (map vid (if on_walk (fr_event rep) then fr_trace rep else removelast (fr_trace rep)))).
Proof.
  intros HR rep Hin. destruct (trace_main _ _ _ _ HR) as (log & k & open & Hl & Hg & _).
  apply in_rev in Hin. apply in_split in Hin. destruct Hin as (a & b & E).
  destruct (reports_split _ _ Hg _ _ _ E) as (l1 & e & j & v & p & lg & -> & _ & (Hs & Ht) & Hsh & Hne & Hv). specialize (Ht Hu).
  assert (Hd : dnode next starts ((j, v) :: p)).
  { apply LogInv_holds in Hl. eapply li_dnode; eauto. apply in_or_app. right. left. reflexivity. }
  assert (Hw : on_walk (fr_event rep) = walk_event e) by (rewrite <- Hsh; apply shown_on_walk; congruence).
  rewrite (st_trace _ _ _ _ _ _ _ _ _ _ _ _ Ht), Hw. split; [rewrite Hv; eapply dnode_walk; eauto|]. split; auto. split.
  - intros Hc. rewrite (se_depth _ _ _ _ _ _ _ _ _ _ _ _ _ _ Hs), Hc, verts_length. unfold node_depth.
    destruct e; cbn [walk_event current tl length]; lia.
  - intros Hc i. rewrite (st_on_trace _ _ _ _ _ _ _ _ _ _ _ _ Ht Hc).
    assert (Ei : forall q : node, map vid (rev (verts q)) = rev (ids vid q)) by (intros q; unfold verts, ids; rewrite map_rev, map_map; reflexivity).
    destruct e; cbn [walk_event current tl]; try (rewrite Ei, <- in_rev; reflexivity).
    + cbn [verts map rev snd]. rewrite removelast_last. fold (verts p). rewrite Ei, <- in_rev. reflexivity.
    + cbn [verts map rev snd]. rewrite removelast_last. fold (verts p). rewrite Ei, <- in_rev. reflexivity.
Qed.

(** ** Nesting *)
Lemma brackets_snoc strict st (os : list report) st' : brackets strict st os st' -> forall rep st'', bracket strict st' rep st'' -> brackets strict st (os ++ [rep]) st''.
Proof. induction 1; intros rp st0 H'; cbn; econstructor; eauto. constructor. Qed.

Definition strict_pol : bool := match pol with PWalks => false | _ => true end.

Lemma own_start_length log k open : dfs_log log k open -> strict_pol = true -> forall p, entered log p -> is_own_start V_dec p = (length p =? 1).
Proof.
  intros Hl Hp p He. assert (ND : NoDup (ids vid p)).
  { unfold strict_pol in Hp. destruct pol eqn:E; try discriminate; [eapply tree_simple; eauto|eapply paths_simple; eauto]. }
  assert (Hd : dnode next starts p) by (eapply entered_dnode; eauto). destruct p as [|(j & v) q]; [apply dnode_nonempty in Hd; congruence|].
  unfold is_own_start. cbn [verts map snd rev]. fold (verts q). destruct q as [|x q]; [cbn; destruct (V_dec v v); congruence|].
  cbn [length]. destruct (rev (verts (x :: q))) as [|s l] eqn:Er.
  - apply (f_equal (@length _)) in Er. rewrite verts_length in Er. discriminate.
  - cbn [app]. destruct (V_dec v s) as [->|]; [|reflexivity]. exfalso. cbn in ND. inversion ND as [|? ? Hn _]. apply Hn.
    assert (Hs : In s (verts (x :: q))) by (apply in_rev; rewrite Er; left; reflexivity).
    unfold verts in Hs. apply in_map_iff in Hs. destruct Hs as ((j' & s') & <- & Hs). change (In (vid s') (ids vid (x :: q))). unfold ids. apply in_map_iff. exists (j', s'). auto.
Qed.

Theorem trace_nested : dc_report cfg ENTERING_START = true -> dc_report cfg ENTERING_SUCCESSOR = true -> dc_report cfg LEAVING_START = true ->
  dc_report cfg LEAVING_SUCCESSOR = true ->
  forall lim n os r, traverse lim n = (os, r) -> exists st, brackets strict_pol [] os st /\ (forall c, r = Ended c -> st = []).
Proof.
  intros R1 R2 R3 R4 lim n os r HR. destruct (trace_main _ _ _ _ HR) as (log & k & open & Hl & Hg & Hr).
  exists (verts (top open)). split; [|intros c ->; destruct Hr as (_ & _ & ->); reflexivity]. clear HR Hr.
  rewrite <- (rev_involutive os). revert Hg. generalize (rev os) as ro. clear os.
  assert (Henter : forall (lg : log_t) b (p : node), shown V_dec cfg (LEnter b) p = Some (if is_own_start V_dec p then ENTERING_START else ENTERING_SUCCESSOR)).
  { intros lg b p. unfold shown, event_of. destruct (is_own_start V_dec p); rewrite ?R1, ?R2; reflexivity. }
  assert (Hleave : forall p : node, shown V_dec cfg LLeave p = Some (if length p =? 1 then LEAVING_START else LEAVING_SUCCESSOR)).
  { intros p. unfold shown, event_of. destruct (length p =? 1); rewrite ?R3, ?R4; reflexivity. }
  assert (Hother : forall e (p : node) (rep : report), walk_event e = false -> shown V_dec cfg e p = fr_event rep -> fr_event rep <> None ->
     entering (fr_event rep) = false /\ fr_event rep <> Some LEAVING_START /\ fr_event rep <> Some LEAVING_SUCCESSOR).
  { intros e p rep He Hs Hne. assert (Hw : on_walk (fr_event rep) = false) by (rewrite <- Hs, <- He; apply shown_on_walk; congruence).
    destruct (fr_event rep) as [[]|]; try discriminate Hw; try congruence; repeat split; congruence || discriminate. }
  assert (Enter : forall lg b j v q (rep : report) st0, strict_pol = true -> dfs_log ((LEnter b, (j, v) :: q) :: lg) (fst st0) (snd st0) -> 
      shown V_dec cfg (LEnter b) ((j, v) :: q) = fr_event rep -> (fr_event rep = Some ENTERING_START <-> verts q = [])).
  { intros lg b j v q rep st0 Hst Hd Hs. rewrite (Henter lg) in Hs. rewrite <- Hs.
    rewrite (own_start_length _ _ _ Hd Hst) by (exists b; left; reflexivity). destruct q as [|x q]; cbn; split; congruence. }
  induction Hl as [|log k s b Hd IH Hs Hm|log k s Hd IH Hs Hm|log k j u p r0 op nn l b Hd IH Hn Hm|log k j u p r0 op nn l kind Hd IH Hn Hm Hk|log k p op Hd IH];
    intros ro Hg.
  - inversion Hg; subst. constructor.
  - destruct (good_cons _ _ _ _ Hg) as [(E & _)|(j & q & rep & os' & E & -> & Hg' & Hsh & Hne & _ & Ht)]; [rewrite (Henter log) in E; discriminate|].
    injection E as <- -> <-. cbn [rev]. eapply brackets_snoc; [apply IH; eauto|]. cbn [top verts map snd].
    apply br_enter.
    + rewrite <- Hsh. rewrite (Henter log). destruct (is_own_start _ _); reflexivity.
    + intros Hst. apply (Enter log b k (fr_vertex rep) [] rep (S k, [([(k, fr_vertex rep)], if b then edge_count next (fr_vertex rep) else 0)])); auto. constructor; auto.
    + apply (st_trace _ _ _ _ _ _ _ _ _ _ _ _ (Ht Hu)).
  - destruct (good_cons _ _ _ _ Hg) as [(_ & Hg')|(j & q & rep & os' & E & -> & Hg' & Hsh & Hne & _ & Ht)]; [apply IH; auto|].
    injection E as <- -> <-. cbn [rev]. eapply brackets_snoc; [apply IH; eauto|].
    destruct (Hother LSkipStart _ rep eq_refl Hsh Hne) as (A & B & C). apply br_other; auto. apply (st_trace _ _ _ _ _ _ _ _ _ _ _ _ (Ht Hu)).
  - destruct (good_cons _ _ _ _ Hg) as [(E & _)|(j0 & q & rep & os' & E & -> & Hg' & Hsh & Hne & _ & Ht)]; [rewrite (Henter log) in E; discriminate|].
    injection E as <- -> <-. cbn [rev]. eapply brackets_snoc; [apply IH; eauto|]. cbn [top verts map snd].
    apply br_enter.
    + rewrite <- Hsh. rewrite (Henter log). destruct (is_own_start _ _); reflexivity.
    + intros Hst. apply (Enter log b r0 (fr_vertex rep) ((j, u) :: p) rep (k, ((r0, fr_vertex rep) :: (j, u) :: p, if b then edge_count next (fr_vertex rep) else 0) :: ((j, u) :: p, r0) :: op)); auto.
      cbn [fst snd]. econstructor; eauto.
    + apply (st_trace _ _ _ _ _ _ _ _ _ _ _ _ (Ht Hu)).
  - destruct (good_cons _ _ _ _ Hg) as [(_ & Hg')|(j0 & q & rep & os' & E & -> & Hg' & Hsh & Hne & _ & Ht)]; [apply IH; auto|].
    injection E as <- -> <-. cbn [rev]. eapply brackets_snoc; [apply IH; eauto|].
    destruct (Hother (LNonTree kind) _ rep eq_refl Hsh Hne) as (A & B & C). apply br_other; auto. apply (st_trace _ _ _ _ _ _ _ _ _ _ _ _ (Ht Hu)).
  - destruct (good_cons _ _ _ _ Hg) as [(E & _)|(j & q & rep & os' & -> & -> & Hg' & Hsh & Hne & _ & Ht)]; [rewrite Hleave in E; discriminate|].
    cbn [rev]. eapply brackets_snoc; [apply IH; eauto|].
    rewrite Hleave in Hsh. cbn [top]. pose proof (dl_chain _ _ _ _ _ _ _ Hd) as Hc.
    assert (Et : verts q = verts (top op)) by (inversion Hc; reflexivity).
    assert (El : match verts q with [] => LEAVING_START | _ => LEAVING_SUCCESSOR end = if length ((j, fr_vertex rep) :: q) =? 1 then LEAVING_START else LEAVING_SUCCESSOR) by (destruct q; reflexivity).
    rewrite <- El in Hsh. pose proof (st_trace _ _ _ _ _ _ _ _ _ _ _ _ (Ht Hu)) as Htr. cbn [verts map snd] in *. fold (verts q) in *. rewrite Et in *.
    apply br_leave; [symmetry; exact Hsh|exact Htr].
Qed.
End DFSTrace.

(** The flag of the nesting theorem, in terms of the options. *)
Lemma trace_nested' {V I L : Type} (V_dec : forall a b : V, {a = b} + {a <> b}) (vid : V -> I) (VS : VSet I) (PM : PMap I V) (LM : PMap I L)
    (XM : DMap I Z 0%Z) (next : V -> list (V * L)) (starts : list V) (cfg : dfs_cfg) (skip : nat -> bool) (av : option (vs_t VS)) (o : dfs_cfg) :
  dfs_options o (match av with Some _ => true | None => false end) = inl cfg -> dfs_uses_trace cfg = true ->
  dc_report cfg ENTERING_START = true -> dc_report cfg ENTERING_SUCCESSOR = true ->
  dc_report cfg LEAVING_START = true -> dc_report cfg LEAVING_SUCCESSOR = true ->
  forall lim n os r, dfs_traverse V_dec vid VS PM LM XM next cfg skip starts av lim n = (os, r) ->
  exists st, brackets (negb (dc_is_tree cfg) && negb (is_all_walks (dc_mode cfg))) [] os st /\ (forall c, r = Ended c -> st = []).
Proof.
  intros Ho Hu R1 R2 R3 R4 lim n os r HR.
  destruct (trace_nested V_dec vid VS PM LM XM next starts cfg skip av o Ho Hu R1 R2 R3 R4 lim n os r HR) as (st & H & H').
  exists st. split; auto. replace (negb (dc_is_tree cfg) && negb (is_all_walks (dc_mode cfg))) with (strict_pol VS cfg av); auto.
  unfold strict_pol, dfs_policy. destruct (dc_is_tree cfg), (dc_mode cfg); reflexivity.
Qed.
