(** What the reports of TraversalDepthFirst show: entered vertices, attributes, paths. *)
From Coq Require Import List Bool Arith ZArith Lia.
From Verif Require Import Machine GearSpec Spec Common TraversalSpec PathsModel PathsSpec PathsProofs DFSModel DFSSpec DFSTreeSpec DFSLog DFSLogMore
  DFSReports DFSProofs DFSTerm DFSWProofs DFSMain DFSTree.
Import ListNotations.

Section Snoc.
Context {V I L : Type} {VS : VSet I} {PM : PMap I V} {LM : PMap I L} {XM : DMap I Z 0%Z}.
Notation report := (@dfs_report V I L VS PM LM XM).
Variable requested : dfs_event -> bool.
Variable skip : nat -> bool.
Variable event : entry V -> dfs_event.
Variable look : list (entry V) -> option (entry V) -> report -> Prop.
Notation shows := (shows requested skip event look).

Lemma shows_hidden m before es os : shows m before es os -> forall e, requested (event e) = false -> en_expanded e = true -> shows m before (es ++ [e]) os.
Proof. induction 1; intros e' H1' H2'; cbn [app]; [apply sh_hidden; auto; constructor|apply sh_hidden; auto|apply sh_entering; auto|apply sh_other; auto]. Qed.

Lemma shows_entering m before es os : shows m before es os -> forall e rep, requested (event e) = true -> en_expanded e = negb (skip (m + length os)) ->
  fr_vertex rep = en_vertex e -> fr_event rep = Some (event e) -> look ((before ++ es) ++ [e]) (Some e) rep -> shows m before (es ++ [e]) (os ++ [rep]).
Proof.
  induction 1; intros e' rep' H1' H2' H3' H4' H5'; cbn [app length] in *.
  - rewrite Nat.add_0_r in H2'. rewrite app_nil_r in H5'. apply sh_entering; auto. constructor.
  - apply sh_hidden; auto. apply IHshows; auto. rewrite <- (app_assoc before [e] es). exact H5'.
  - apply sh_entering; auto. apply IHshows; auto; [rewrite H2'; f_equal; f_equal; lia|]. rewrite <- (app_assoc before [e] es). exact H5'.
  - apply sh_other; auto. apply IHshows; auto. rewrite H2'; f_equal; f_equal; lia.
Qed.

Lemma shows_other m before es os : shows m before es os -> forall rep, entering (fr_event rep) = false -> look (before ++ es) None rep -> shows m before es (os ++ [rep]).
Proof.
  induction 1; intros rep' H1' H2'; cbn [app] in *.
  - rewrite app_nil_r in H2'. apply sh_other; auto. constructor.
  - apply sh_hidden; auto. apply IHshows; auto. rewrite <- (app_assoc before [e] es). exact H2'.
  - apply sh_entering; auto. apply IHshows; auto. rewrite <- (app_assoc before [e] es). exact H2'.
  - apply sh_other; auto.
Qed.
End Snoc.

Section Ext.
Context {V I L : Type} {VS : VSet I} {PM : PMap I V} {LM : PMap I L} {XM : DMap I Z 0%Z}.
Variable requested : dfs_event -> bool.
Variable skip : nat -> bool.

Lemma shows_ext ev1 ev2 (look1 look2 : list (entry V) -> option (entry V) -> @dfs_report V I L VS PM LM XM -> Prop) m before es os :
  shows requested skip ev1 look1 m before es os ->
  (forall e, In e es -> ev1 e = ev2 e) -> (forall l c r, look1 l c r -> look2 l c r) -> shows requested skip ev2 look2 m before es os.
Proof.
  intros H He Hl. induction H.
  - constructor.
  - apply sh_hidden; auto; [rewrite <- He; cbn; auto|]. apply IHshows. intros; apply He; cbn; auto.
  - apply sh_entering; auto; try (rewrite <- He; cbn; auto). apply IHshows. intros; apply He; cbn; auto.
  - apply sh_other; auto.
Qed.
End Ext.

Section DFSMore.
Context {V I L : Type}.
Variable V_dec : forall a b : V, {a = b} + {a <> b}.
Variable vid : V -> I.
Variable VS : VSet I.
Variable PM : PMap I V.
Variable LM : PMap I L.
Variable XM : DMap I Z 0%Z.
Variable next : V -> list (V * L).
Variable starts : list V.
Variable cfg : dfs_cfg.
Variable skip : nat -> bool.
Variable av : option (vs_t VS).

Notation report := (@dfs_report V I L VS PM LM XM).
Notation pol := (dfs_policy VS cfg av).
Notation dfs_log := (dfs_log vid next starts pol).
Notation traverse := (dfs_traverse V_dec vid VS PM LM XM next cfg skip starts av).
Notation see := (see vid VS PM LM XM next starts cfg av).
Notation good := (reports V_dec VS PM LM XM cfg skip see).
Notation log_t := (log_t V).
Notation node := (node V).
Notation P := (in_already_visited VS av).
Notation entry_ids l := (map (fun x => vid (en_vertex x)) l).

(** The event for entering as the code determines it. *)
Definition own_event (e : entry V) : dfs_event :=
  if V_dec (en_vertex e) (hd (en_vertex e) (en_above e)) then ENTERING_START else ENTERING_SUCCESSOR.

Lemma own_event_node b j v (q : node) : own_event {| en_above := rev (verts q); en_vertex := v; en_expanded := b |} =
  if is_own_start V_dec ((j, v) :: q) then ENTERING_START else ENTERING_SUCCESSOR.
Proof.
  unfold own_event, is_own_start. cbn [en_above en_vertex verts map rev snd]. fold (verts q).
  destruct (rev (verts q)) as [|s l]; cbn [app hd]; destruct (V_dec v _); reflexivity.
Qed.

(** The entry that an event of the log is about. *)
Definition cur_entry (e : log_event) (p : node) : option (entry V) :=
  match e with LEnter b => match entry_of b p with x :: _ => Some x | [] => None end | _ => None end.

Lemma reports_shows (look : list (entry V) -> option (entry V) -> report -> Prop) log os :
  (forall k open e p lg rep, dfs_log ((e, p) :: lg) k open -> see ((e, p) :: lg) e p rep ->
      shown V_dec cfg e p = fr_event rep -> look (entries ((e, p) :: lg)) (cur_entry e p) rep) ->
  (exists k open, dfs_log log k open) -> good log os ->
  shows (dc_report cfg) skip own_event look 0 [] (entries log) (rev os).
Proof.
  intros Hlook Hl H. induction H as [|log os e p H IH Hs Hb|log os e j v p rep H IH Hs Hne Hv Hsee Hb].
  - constructor.
  - destruct Hl as (k & open & Hl). pose proof (log_tail _ _ _ _ _ _ _ _ Hl) as Ht. specialize (IH Ht).
    destruct e; auto. cbn [entries]. destruct p as [|(j & v) q]; cbn [entry_of]; [rewrite app_nil_r; auto|].
    apply shows_hidden; auto.
    rewrite (own_event_node _ j). unfold shown in Hs. cbn [event_of] in Hs. destruct (dc_report _ _); [discriminate|reflexivity].
  - destruct Hl as (k & open & Hl). pose proof (log_tail _ _ _ _ _ _ _ _ Hl) as Ht. specialize (IH Ht).
    specialize (Hlook _ _ _ _ _ _ Hl Hsee Hs). unfold shown in Hs. cbn [rev]. destruct e; cbn [event_of entries entry_of cur_entry] in *.
    + destruct (dc_report cfg _) eqn:Er in Hs; [|congruence].
      apply shows_entering; auto; try (rewrite (own_event_node _ j); auto).
      * cbn. rewrite rev_length. apply Hb. reflexivity.
    + apply shows_other; auto. destruct (dc_report _ _); [|congruence]. rewrite <- Hs. destruct (length _ =? 1); reflexivity.
    + apply shows_other; auto. rewrite <- Hs. destruct (dc_report cfg SOME_NON_TREE_EDGE).
      * destruct (dc_report _ _); [reflexivity|congruence].
      * destruct kind; [destruct (dc_report cfg BACK_EDGE)|..]; destruct (dc_report _ _); try reflexivity.
    + apply shows_other; auto. destruct (dc_report _ _); [|congruence]. rewrite <- Hs. reflexivity.
Qed.

(** ** Paths *)
Lemma stored_ppath (pred : pm_t PM) (q : node) : dnode next starts q -> NoDup (ids vid q) ->
  (forall d x p, q = d ++ x :: p -> pred_node vid PM pred (x :: p)) -> forall j v p, q = (j, v) :: p -> ppath vid PM pred v (verts q).
Proof.
  induction 1 as [k s Hk|i n l j u p Hd IH Hn]; intros ND Hp j0 v0 p0 E; injection E as <- <- <-.
  - cbn. apply pp_start. apply (Hp [] (k, s) [] eq_refl).
  - cbn [verts map snd]. eapply pp_step with (u := u).
    + apply (Hp [] (i, n) ((j, u) :: p) eq_refl).
    + intros E. cbn in ND. inversion ND as [|? ? Hni _]; subst. apply Hni. left. reflexivity.
    + apply IH with (j := j) (p := p); auto; [cbn in ND; inversion ND; auto|].
      intros d x p1 E. apply (Hp ((i, n) :: d)). rewrite E. reflexivity.
Qed.

Lemma edges_to_start_node (q : node) u w : In (u, w) (edges_to_start (verts q)) -> exists d i j p, q = d ++ (i, w) :: (j, u) :: p.
Proof.
  induction q as [|(i & n) [|(j & m) p] IH]; cbn [verts map edges_to_start snd]; [intros []|intros []|].
  intros [E|H].
  - injection E as -> ->. exists [], i, j, p. reflexivity.
  - destruct (IH H) as (d & i' & j' & p' & E). exists ((i, n) :: d), i', j', p'. rewrite E. reflexivity.
Qed.

Definition path_label (u w : V) (l : L) : Prop := if dfs_uses_trace cfg then True else next_label next u w l.

Lemma stored_delivers (pred : pm_t PM) (labels : pm_t LM) (q : node) : dnode next starts q -> NoDup (ids vid q) ->
  (forall d x p, q = d ++ x :: p -> pred_node vid PM pred (x :: p) /\
     (dc_labeled cfg = true -> label_node vid LM next (negb (dfs_uses_trace cfg)) labels (x :: p))) ->
  forall j v p, q = (j, v) :: p -> delivers V_dec vid PM LM pred labels (dc_labeled cfg) path_label v (rev (verts q)).
Proof.
  intros Hd ND H j v p E. apply ppath_delivers.
  - eapply stored_ppath; eauto. intros d x p0 E0. apply (H d x p0 E0).
  - intros Hl u w Hin. apply edges_to_start_node in Hin. destruct Hin as (d & i & j' & p' & E').
    destruct (H d _ _ E') as (_ & Hx). destruct (Hx Hl) as (l & Hg & Hn). exists l. split; auto.
    unfold path_label. destruct (dfs_uses_trace cfg); auto. unfold next_label. eapply nth_error_In. apply Hn. auto.
Qed.

(** ** Mode DFS_TREE *)

(** What the user sees at a report. *)
Record tree_look (sofar : list (entry V)) (cur : option (entry V)) (rep : report) : Prop := {
  tl_depth : dc_compute_depth cfg = true -> forall e, cur = Some e -> fr_depth rep = Z.of_nat (length (en_above e));
  tl_trace : dfs_uses_trace cfg = true -> forall e, cur = Some e -> fr_trace rep = en_path e;
  tl_visited : forall i, vs_mem VS i (fr_visited rep) = true <-> P i \/ In i (entry_ids sofar);
  tl_index : dfs_uses_trace cfg = true -> dc_compute_index cfg = true -> forall l1 e l2, sofar = l1 ++ e :: l2 ->
     dm_get XM (vid (en_vertex e)) (fr_index rep) = (Z.of_nat (length l1) + 1)%Z;
  tl_paths : dc_build_paths cfg = true -> marks_gaps PM -> forall e, In e sofar ->
     delivers V_dec vid PM LM (fr_pred rep) (fr_labels rep) (dc_labeled cfg) path_label (en_vertex e) (en_path e)
}.

Lemma P_dec i : P i \/ ~ P i.
Proof. unfold in_already_visited. destruct av as [s|]; [destruct (vs_mem VS i s); auto|auto]. Qed.

Lemma cur_entry_some e p x : cur_entry e p = Some x -> exists b j v q, e = LEnter b /\ p = (j, v) :: q /\
  x = {| en_above := rev (verts q); en_vertex := v; en_expanded := b |}.
Proof.
  unfold cur_entry. destruct e; try discriminate. destruct p as [|(j & v) q]; cbn; [discriminate|].
  injection 1 as <-. exists expanded, j, v, q. auto.
Qed.

Lemma verts_length (q : node) : length (rev (verts q)) = length q.
Proof. rewrite rev_length. apply map_length. Qed.

Hypothesis Htree : dc_is_tree cfg = false.

Section TreeMode.
Hypothesis Hmode : dc_mode cfg = DFS_TREE.

Lemma tree_pol : pol = PTree P.
Proof. unfold dfs_policy. rewrite Htree, Hmode. reflexivity. Qed.

Lemma tree_looks k open e p lg rep : dfs_log ((e, p) :: lg) k open -> see ((e, p) :: lg) e p rep -> tree_look (entries ((e, p) :: lg)) (cur_entry e p) rep.
Proof.
  rewrite tree_pol. intros Hl (Hs & Ht). constructor.
  - intros Hd x Hx. apply cur_entry_some in Hx. destruct Hx as (b & j & v & q & -> & -> & ->). rewrite (se_depth _ _ _ _ _ _ _ _ _ _ _ _ _ _ Hs), Hd.
    cbn [current en_above]. unfold node_depth. rewrite verts_length. cbn [length]. lia.
  - intros Hu x Hx. apply cur_entry_some in Hx. destruct Hx as (b & j & v & q & -> & -> & ->). rewrite (st_trace _ _ _ _ _ _ _ _ _ _ _ _ (Ht Hu)).
    reflexivity.
  - intros i. pose proof (se_visited _ _ _ _ _ _ _ _ _ _ _ _ _ _ Hs) as Hv. rewrite tree_pol in Hv. rewrite Hv.
    rewrite (entries_ids vid ((e, p) :: lg) i) by (eapply log_nonempty; eauto). tauto.
  - intros Hu Hi l1 x l2 El. apply entries_split in El. destruct El as (g1 & b & j & v & q & g2 & Eg & <- & ->).
    pose proof (st_index _ _ _ _ _ _ _ _ _ _ _ _ (Ht Hu) Hi) as Hx. rewrite tree_pol in Hx. cbn [en_vertex]. rewrite (Hx g1 b j v q g2 Eg).
    rewrite entries_length; auto. rewrite Eg in Hl. intros p0 Hp0. apply log_suffix_log in Hl. destruct Hl as (k' & o' & Hl). apply log_tail in Hl. destruct Hl as (k'' & o'' & Hl).
    eapply log_nonempty; eauto.
  - intros Hb Hg x Hx. apply in_entries in Hx. destruct Hx as (b & j & v & q & Hin & ->).
    assert (He : entered ((e, p) :: lg) ((j, v) :: q)) by (exists b; auto).
    pose proof (se_stored _ _ _ _ _ _ _ _ _ _ _ _ _ _ Hs Hb Hg) as Hst. rewrite tree_pol in Hst.
    unfold en_path. cbn [en_vertex en_above]. change (rev (verts q) ++ [v]) with (rev (verts ((j, v) :: q))).
    eapply stored_delivers; eauto.
    + eapply entered_dnode; eauto.
    + eapply tree_simple; eauto.
    + intros d y p0 Ed. apply Hst. destruct d as [|d0 d]; [cbn in Ed; rewrite <- Ed; auto|].
      destruct He as (b' & He). eapply (log_suffix _ _ _ _ _ _ _ Hl _ _ He); eauto. discriminate.
Qed.

(** An entered vertex has the event ENTERING_START iff it is entered as start vertex. *)
Lemma simple_event log : (forall p, entered log p -> NoDup (ids vid p)) -> forall e, In e (entries log) -> own_event e = entry_event e.
Proof.
  intros H e He. apply in_entries in He. destruct He as (b & j & v & q & Hin & ->).
  assert (ND : NoDup (ids vid ((j, v) :: q))) by (apply H; exists b; auto).
  unfold own_event, entry_event. cbn [en_above en_vertex]. destruct (rev (verts q)) as [|s l] eqn:E; cbn [hd].
  - destruct (V_dec v v); congruence.
  - destruct (V_dec v s) as [->|]; auto. exfalso. cbn in ND. inversion ND as [|? ? Hn _]. apply Hn.
    assert (Hs : In s (verts q)) by (apply in_rev; rewrite E; left; reflexivity).
    unfold verts in Hs. apply in_map_iff in Hs. destruct Hs as ((j' & s') & <- & Hs). apply in_map_iff. exists (j', s'). auto.
Qed.

Variable o : dfs_cfg.
Hypothesis Ho : dfs_options o (match av with Some _ => true | None => false end) = inl cfg.

Lemma calls_entries (log : log_t) : map fst (rev (calls_of cfg log)) = map en_vertex (filter en_expanded (entries log)).
Proof.
  induction log as [|(e & p) log IH]; auto. unfold calls_of in *. cbn [flat_map entries].
  destruct e; auto. destruct p as [|(j & v) q]; cbn [entry_of]; [destruct expanded; cbn; rewrite ?app_nil_r; exact IH|].
  rewrite filter_app, map_app. destruct expanded; cbn [app rev filter map en_expanded en_vertex]; [|rewrite app_nil_r; exact IH].
  rewrite map_app, IH. reflexivity.
Qed.

Theorem dfs_tree_main E lim n os r : presents vid next E -> traverse lim n = (os, r) ->
  exists tree, shows (dc_report cfg) skip entry_event tree_look 0 [] tree os /\
    depth_first_tree vid (next_edge next) starts P tree /\
    (forall e, In e tree -> reachable (avoiding E P) (open_start vid starts P) (vid (en_vertex e))) /\
    match r with
    | Running c => map fst (rev c) = map en_vertex (filter en_expanded tree)
    | Ended c => map fst (rev c) = map en_vertex (filter en_expanded tree) /\
        forall i, reachable (fun i j => avoiding E P i j /\ forall e, In e tree -> vid (en_vertex e) = i -> en_expanded e = true)
                            (open_start vid starts P) i -> In i (entry_ids tree)
    | Raised x c => x = RuntimeErrorLimit /\ exists e tree', tree = tree' ++ [e] /\ map fst (rev c) = map en_vertex (filter en_expanded tree')
    end.
Proof.
  intros HE HR.
  destruct (dfs_main V_dec vid VS PM LM XM next starts cfg skip av o Ho (fun h _ => match eq_true_false_abs _ h Htree with end) lim n os r HR)
    as (log & k & open & Hl & Hg & Hr).
  exists (entries log). assert (Hlp := Hl). rewrite tree_pol in Hlp. split; [|split; [|split]].
  - rewrite <- (rev_involutive os). eapply shows_ext with (look1 := tree_look) (ev1 := own_event).
    + apply reports_shows; eauto. intros k0 o0 e p lg rep H1 H2 _. eapply tree_looks; eauto.
    + apply simple_event. intros p Hp. eapply tree_simple; eauto.
    + auto.
  - eapply tree_entries; eauto. exact P_dec.
  - intros e He. eapply tree_reachable; eauto. rewrite <- (entries_ids vid log) by (eapply log_nonempty; eauto).
    apply in_map_iff. exists e. auto.
  - destruct r as [c|c|x c].
    + subst c. apply calls_entries.
    + destruct Hr as (-> & -> & ->). split; [apply calls_entries|]. eapply tree_all; eauto. exact P_dec.
    + destruct Hr as (-> & p & log' & -> & ->). split; auto. cbn [entries].
      assert (He : p <> []) by (eapply log_nonempty; eauto; exists true; left; reflexivity).
      destruct p as [|(j & v) q]; [congruence|]. cbn [entry_of]. eexists. eexists. split; [reflexivity|]. apply calls_entries.
Qed.

Theorem dfs_tree_terminates E l : presents vid next E -> (forall i, reachable (avoiding E P) (open_start vid starts P) i -> In i l) ->
  forall lim, exists n os r, traverse lim n = (os, r) /\ forall c, r <> Running c.
Proof.
  intros HE Hf lim.
  apply (dfs_main_terminates V_dec vid VS PM LM XM next starts cfg skip av o Ho (fun h _ => match eq_true_false_abs _ h Htree with end) lim
    (2 * length (positions next starts (S (length l))))).
  rewrite tree_pol. intros log k open Hl. eapply log_bound; eauto. eapply arrival_length; eauto.
  intros p Hp. eapply simple_length; [eapply tree_simple; eauto|]. intros i Hi. apply Hf.
  eapply tree_reachable; eauto. eapply log_ids_entered; eauto.
Qed.
End TreeMode.
End DFSMore.
