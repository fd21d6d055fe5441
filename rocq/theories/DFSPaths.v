(** TraversalDepthFirst in modes ALL_PATHS and ALL_WALKS, and the labels of the trace. *)
From Coq Require Import List Bool Arith ZArith Lia.
From Verif Require Import Machine GearSpec Spec Common TraversalSpec PathsModel PathsSpec PathsProofs DFSModel DFSSpec DFSTreeSpec DFSLog DFSLogMore
  DFSReports DFSProofs DFSTerm DFSWProofs DFSMain DFSTree DFSMore DFSTrace.
Import ListNotations.

Section DFSPaths.
Context {V I L : Type}.
Variable V_dec : forall a b : V, {a = b} + {a <> b}.
Variable vid : V -> I.
Variable VS : VSet I.
Variable PM : PMap I V.
Variable LM : PMap I L.
Variable XM : DMap I Z 0%Z.
Variable next : V -> list (V * L).
Variable starts : list V.
Variable cfg : dfs_cfg.
Variable skip : nat -> bool.
Variable av : option (vs_t VS).

Notation report := (@dfs_report V I L VS PM LM XM).
Notation pol := (dfs_policy VS cfg av).
Notation dfs_log := (dfs_log vid next starts pol).
Notation traverse := (dfs_traverse V_dec vid VS PM LM XM next cfg skip starts av).
Notation see := (see vid VS PM LM XM next starts cfg av).
Notation good := (reports V_dec VS PM LM XM cfg skip see).
Notation log_t := (log_t V).
Notation node := (node V).
Notation own_event := (own_event V_dec).

Variable o : dfs_cfg.
Hypothesis Ho : dfs_options o (match av with Some _ => true | None => false end) = inl cfg.
Hypothesis Hu : dfs_uses_trace cfg = true.
Notation main := (trace_main V_dec vid VS PM LM XM next starts cfg skip av o Ho Hu).
Hypothesis Htree : dc_is_tree cfg = false.

(** Entered positions, oldest first, each with the information if it is expanded. *)
Fixpoint entered_list (log : log_t) : list (bool * node) :=
  match log with
  | [] => []
  | (LEnter b, p) :: log => entered_list log ++ [(b, p)]
  | _ :: log => entered_list log
  end.
Definition entries_at (ps : list (bool * node)) : list (entry V) := flat_map (fun x => entry_of (fst x) (snd x)) ps.

Lemma entries_entered log : entries log = entries_at (entered_list log).
Proof.
  induction log as [|(e & p) log IH]; auto. cbn [entries entered_list]. destruct e; auto.
  unfold entries_at in *. rewrite flat_map_app, IH. cbn. rewrite app_nil_r. reflexivity.
Qed.
Lemma in_entered_list b p log : In (b, p) (entered_list log) <-> In (LEnter b, p) log.
Proof.
  induction log as [|(e & q) log IH]; cbn [entered_list]; [reflexivity|].
  destruct e; try (rewrite IH; split; [intros; right; auto|intros [E|H]; [discriminate E|auto]]).
  rewrite in_app_iff, IH. cbn. split; [intros [H|[E|[]]]; [auto|left; congruence]|intros [E|H]; [right; left; congruence|auto]].
Qed.
Lemma entered_list_enters log : map snd (entered_list log) = rev (enters log).
Proof.
  induction log as [|(e & q) log IH]; auto. unfold enters in *. cbn [entered_list filter fst]. destruct e; auto.
  cbn [map rev snd]. rewrite map_app, IH. reflexivity.
Qed.
Lemma entered_list_nodup log k open : dfs_log log k open -> NoDup (map snd (entered_list log)).
Proof. intros H. rewrite entered_list_enters. apply NoDup_rev. apply enters_nodup. apply LogInv_holds in H. eapply li_nodup; eauto. Qed.

Lemma entered_in log p : entered log p <-> exists b, In (b, p) (entered_list log).
Proof. unfold entered. split; intros (b & H); exists b; apply in_entered_list; auto. Qed.

(** What the user sees at a report of an entered vertex. *)
Record walk_look (sofar : list (entry V)) (cur : option (entry V)) (rep : report) : Prop := {
  wl_depth : dc_compute_depth cfg = true -> forall e, cur = Some e -> fr_depth rep = Z.of_nat (length (en_above e));
  wl_trace : forall e, cur = Some e -> fr_trace rep = en_path e;
  wl_paths : dc_mode cfg = ALL_PATHS -> dc_build_paths cfg = true -> marks_gaps PM -> length starts = 1 -> forall e, cur = Some e ->
     delivers V_dec vid PM LM (fr_pred rep) (fr_labels rep) (dc_labeled cfg) (fun _ _ _ => True) (en_vertex e) (en_path e)
}.

Lemma walk_looks k open e p lg rep : dfs_log ((e, p) :: lg) k open -> see ((e, p) :: lg) e p rep -> walk_look (entries ((e, p) :: lg)) (cur_entry e p) rep.
Proof.
  intros Hl (Hs & Ht). specialize (Ht Hu). constructor.
  - intros Hd x Hx. apply cur_entry_some in Hx. destruct Hx as (b & j & v & q & -> & -> & ->). rewrite (se_depth _ _ _ _ _ _ _ _ _ _ _ _ _ _ Hs), Hd.
    cbn [current en_above]. unfold node_depth. rewrite verts_length. cbn [length]. lia.
  - intros x Hx. apply cur_entry_some in Hx. destruct Hx as (b & j & v & q & -> & -> & ->). rewrite (st_trace _ _ _ _ _ _ _ _ _ _ _ _ Ht).
    reflexivity.
  - intros Hm Hb Hg Hone x Hx. apply cur_entry_some in Hx. destruct Hx as (b & j & v & q & -> & -> & ->).
    assert (Hpol : pol = PPaths) by (unfold dfs_policy; rewrite Htree, Hm; reflexivity).
    pose proof (se_stored _ _ _ _ _ _ _ _ _ _ _ _ _ _ Hs Hb Hg) as Hst. rewrite Hpol in Hst. specialize (Hst Hone). cbn [current] in Hst.
    rewrite Hpol in Hl.
    assert (He : entered ((LEnter b, (j, v) :: q) :: lg) ((j, v) :: q)) by (exists b; left; reflexivity).
    unfold en_path. cbn [en_vertex en_above]. change (rev (verts q) ++ [v]) with (rev (verts ((j, v) :: q))).
    apply ppath_delivers.
    + eapply stored_ppath; eauto; [eapply entered_dnode; eauto|eapply paths_simple; eauto|].
      intros d y p0 Ed. apply (Hst d); auto. discriminate.
    + intros Hlab u w Hin. apply edges_to_start_node in Hin. destruct Hin as (d & i & j' & p' & E').
      destruct (Hst d _ E') as (_ & Hx); [discriminate|]. destruct (Hx Hlab) as (l & Hgx & _). exists l. auto.
Qed.

(** Ids on a walk are reachable. *)
Lemma dnode_reachable E : presents vid next E -> forall p, dnode next starts p -> forall i, In i (ids vid p) -> reachable E (is_start vid starts) i.
Proof.
  intros HE. induction 1 as [k s Hk|i0 n l j u p Hd IH Hn]; intros i Hi.
  - destruct Hi as [<-|[]]. apply reachable_start. apply in_map. eapply nth_error_In; eauto.
  - destruct Hi as [<-|Hi]; [|auto]. eapply reachable_step; [apply IH; left; reflexivity|]. cbn. eapply dnode_edge; eauto.
Qed.

(** *** Mode ALL_PATHS *)
Section AllPaths.
Hypothesis Hmode : dc_mode cfg = ALL_PATHS.

Lemma paths_pol : pol = PPaths.
Proof. unfold dfs_policy. rewrite Htree, Hmode. reflexivity. Qed.

Theorem dfs_paths_main lim n os r : traverse lim n = (os, r) ->
  exists ps : list (bool * node), shows (dc_report cfg) skip entry_event walk_look 0 [] (entries_at ps) os /\
    NoDup (map snd ps) /\ (forall b p, In (b, p) ps -> dnode next starts p /\ NoDup (ids vid p)) /\
    (forall c, r = Ended c -> forall p, dnode next starts p -> NoDup (ids vid p) ->
       (forall d q, p = d ++ q -> d <> [] -> ~ In (false, q) ps) -> exists b, In (b, p) ps) /\
    (forall x c, r = Raised x c -> x = RuntimeErrorLimit).
Proof.
  intros HR. destruct (main _ _ _ _ HR) as (log & k & open & Hl & Hg & Hr). assert (Hlp := Hl). rewrite paths_pol in Hlp.
  exists (entered_list log). split; [|split; [|split; [|split]]].
  - rewrite <- entries_entered, <- (rev_involutive os). eapply shows_ext with (look1 := walk_look) (ev1 := own_event).
    + eapply reports_shows; eauto. intros k0 o0 e p lg rep H1 H2 _. eapply walk_looks; eauto.
    + eapply simple_event. intros p Hp. eapply paths_simple; eauto.
    + auto.
  - eapply entered_list_nodup; eauto.
  - intros b p Hin. assert (He : entered log p) by (apply entered_in; eauto). split; [eapply entered_dnode; eauto|eapply paths_simple; eauto].
  - intros c -> p Hd. destruct Hr as (_ & -> & ->). induction Hd as [i s Hs|i m l j u p Hd IH Hn]; intros ND Hsk; apply entered_in.
    + eapply paths_arrivals; eauto. eapply complete_starts; eauto.
    + eapply paths_arrivals; eauto.
      destruct IH as ([|] & Hb); [inversion ND; auto|intros d q E Hne; apply (Hsk ((i, m) :: d) q); [rewrite E; reflexivity|discriminate]| |].
      * eapply closed_children; eauto. apply in_entered_list; auto.
      * exfalso. apply (Hsk [(i, m)] ((j, u) :: p)); [reflexivity|discriminate|auto].
  - intros x c ->. apply Hr.
Qed.

Theorem dfs_paths_terminates E l : presents vid next E -> (forall i, reachable E (is_start vid starts) i -> In i l) ->
  forall lim, exists n os r, traverse lim n = (os, r) /\ forall c, r <> Running c.
Proof.
  intros HE Hf lim.
  apply (dfs_main_terminates V_dec vid VS PM LM XM next starts cfg skip av o Ho (fun _ h => match eq_true_false_abs _ Hu h with end) lim
    (2 * length (positions next starts (S (length l))))).
  rewrite paths_pol. intros log k open Hl. eapply log_bound; eauto. eapply arrival_length; eauto.
  intros p Hp. eapply simple_length; [eapply paths_simple; eauto|]. intros i Hi. apply Hf.
  eapply dnode_reachable; eauto. eapply entered_dnode; eauto.
Qed.
End AllPaths.

(** *** Mode ALL_WALKS *)
Section AllWalks.
Hypothesis Hmode : dc_mode cfg = ALL_WALKS.

Lemma walks_pol : pol = PWalks.
Proof. unfold dfs_policy. rewrite Htree, Hmode. reflexivity. Qed.

Theorem dfs_walks_main lim n os r : traverse lim n = (os, r) ->
  exists ps : list (bool * node), shows (dc_report cfg) skip own_event walk_look 0 [] (entries_at ps) os /\
    NoDup (map snd ps) /\ (forall b p, In (b, p) ps -> dnode next starts p) /\
    (forall c, r = Ended c -> forall p, dnode next starts p ->
       (forall d q, p = d ++ q -> d <> [] -> ~ In (false, q) ps) -> exists b, In (b, p) ps) /\
    (forall x c, r = Raised x c -> x = RuntimeErrorLimit).
Proof.
  intros HR. destruct (main _ _ _ _ HR) as (log & k & open & Hl & Hg & Hr). assert (Hlp := Hl). rewrite walks_pol in Hlp.
  exists (entered_list log). split; [|split; [|split; [|split]]].
  - rewrite <- entries_entered, <- (rev_involutive os). eapply reports_shows; eauto. intros k0 o0 e p lg rep H1 H2 _. eapply walk_looks; eauto.
  - eapply entered_list_nodup; eauto.
  - intros b p Hin. assert (He : entered log p) by (apply entered_in; eauto). eapply entered_dnode; eauto.
  - intros c -> p Hd. destruct Hr as (_ & -> & ->). induction Hd as [i s Hs|i m l j u p Hd IH Hn]; intros Hsk; apply entered_in.
    + eapply walks_arrivals; eauto. eapply complete_starts; eauto.
    + eapply walks_arrivals; eauto.
      destruct IH as ([|] & Hb); [intros d q E Hne; apply (Hsk ((i, m) :: d) q); [rewrite E; reflexivity|discriminate]| |].
      * eapply closed_children; eauto. apply in_entered_list; auto.
      * exfalso. apply (Hsk [(i, m)] ((j, u) :: p)); [reflexivity|discriminate|auto].
  - intros x c ->. apply Hr.
Qed.

Lemma acyclic_simple E : presents vid next E -> (forall i p, reachable E (is_start vid starts) i -> walk E i p i -> p = []) ->
  forall p, dnode next starts p -> NoDup (ids vid p).
Proof.
  intros HE HA. 
  assert (W : forall p, dnode next starts p -> forall j v q, p = (j, v) :: q -> forall i, In i (ids vid p) -> exists w, walk E i w (vid v) /\ (In i (ids vid q) -> w <> [])).
  { induction 1 as [k s Hk|i0 n l j u p Hd IH Hn]; intros j0 v0 q0 E0 i Hi; injection E0 as <- <- <-.
    - destruct Hi as [<-|[]]. exists []. split; [constructor|intros []].
    - destruct (in_dec (vs_dec VS) i (ids vid ((j, u) :: p))) as [Hin|Hin].
      + destruct (IH j u p eq_refl i Hin) as (w & Hw & _). exists (w ++ [vid n]). split; [eapply walk_snoc; eauto; eapply dnode_edge; eauto|].
        intros _ Hx. destruct w; discriminate.
      + destruct Hi as [<-|Hi]; [|contradiction]. exists []. split; [constructor|intros Hx; contradiction]. }
  intros p Hd. induction Hd as [k s Hk|i0 n l j u p Hd IH Hn]; [cbn; constructor; [intros []|constructor]|].
  change (NoDup (vid n :: ids vid ((j, u) :: p))). constructor; auto. intros Hin.
  assert (Hd' : dnode next starts ((i0, n) :: (j, u) :: p)) by (econstructor; eauto).
  destruct (W _ Hd' i0 n _ eq_refl (vid n)) as (w & Hw & Hne); [left; reflexivity|].
  apply (Hne Hin). apply (HA (vid n) w); auto. eapply dnode_reachable; eauto. left; reflexivity.
Qed.

Theorem dfs_walks_terminates E l : presents vid next E -> (forall i p, reachable E (is_start vid starts) i -> walk E i p i -> p = []) ->
  (forall i, reachable E (is_start vid starts) i -> In i l) ->
  forall lim, exists n os r, traverse lim n = (os, r) /\ forall c, r <> Running c.
Proof.
  intros HE HA Hf lim.
  apply (dfs_main_terminates V_dec vid VS PM LM XM next starts cfg skip av o Ho (fun _ h => match eq_true_false_abs _ Hu h with end) lim
    (2 * length (positions next starts (S (length l))))).
  rewrite walks_pol. intros log k open Hl. eapply log_bound; eauto. eapply arrival_length; eauto.
  intros p Hp. assert (Hd : dnode next starts p) by (eapply entered_dnode; eauto). eapply simple_length; [eapply acyclic_simple; eauto|].
  intros i Hi. apply Hf. eapply dnode_reachable; eauto.
Qed.
End AllWalks.

(** ** Labels of the trace *)
Theorem dfs_labels_main lim n os r : dc_labeled cfg = true -> traverse lim n = (os, r) -> forall rep, In rep os ->
  exists p, dnode next starts p /\ rev (verts p) = fr_trace rep /\ trace_labels_ok next p (rev (fr_trace_labels rep)).
Proof.
  intros Hlab HR rep Hin. destruct (main _ _ _ _ HR) as (log & k & open & Hl & Hg & _).
  apply in_rev in Hin. apply in_split in Hin. destruct Hin as (a & b & E).
  destruct (reports_split _ _ _ _ _ _ _ _ _ _ _ _ _ Hg _ _ _ E) as (l1 & e & j & v & p & lg & -> & _ & (Hs & Ht) & Hsh & Hne & Hv). specialize (Ht Hu).
  exists ((j, v) :: p). split; [|split].
  - apply LogInv_holds in Hl. eapply li_dnode; eauto. apply in_or_app. right. left. reflexivity.
  - symmetry. apply (st_trace _ _ _ _ _ _ _ _ _ _ _ _ Ht).
  - apply (st_labels _ _ _ _ _ _ _ _ _ _ _ _ Ht Hlab).
Qed.
End DFSPaths.
