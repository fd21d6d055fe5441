(** TraversalDepthFirst: kinds of edges, all simple paths, all walks, labels. *)
From Coq Require Import List Bool Arith ZArith Lia.
From Verif Require Import Machine GearSpec Spec Common TraversalSpec PathsModel PathsSpec PathsProofs DFSModel DFSSpec DFSTreeSpec DFSLog DFSLogMore
  DFSReports DFSProofs DFSTerm DFSWProofs DFSMain DFSTree DFSMore DFSTrace.
Import ListNotations.

Section DFSModes.
Context {V I L : Type}.
Variable V_dec : forall a b : V, {a = b} + {a <> b}.
Variable vid : V -> I.
Variable VS : VSet I.
Variable PM : PMap I V.
Variable LM : PMap I L.
Variable XM : DMap I Z 0%Z.
Variable next : V -> list (V * L).
Variable starts : list V.
Variable cfg : dfs_cfg.
Variable skip : nat -> bool.
Variable av : option (vs_t VS).

Notation report := (@dfs_report V I L VS PM LM XM).
Notation pol := (dfs_policy VS cfg av).
Notation dfs_log := (dfs_log vid next starts pol).
Notation traverse := (dfs_traverse V_dec vid VS PM LM XM next cfg skip starts av).
Notation see := (see vid VS PM LM XM next starts cfg av).
Notation good := (reports V_dec VS PM LM XM cfg skip see).
Notation log_t := (log_t V).
Notation node := (node V).

Variable o : dfs_cfg.
Hypothesis Ho : dfs_options o (match av with Some _ => true | None => false end) = inl cfg.
Hypothesis Hu : dfs_uses_trace cfg = true.
Notation main := (trace_main V_dec vid VS PM LM XM next starts cfg skip av o Ho Hu).

Lemma log_nontree_inv kind i n q log k open : dfs_log ((LNonTree kind, (i, n) :: q) :: log) k open ->
  exists j u p r open', q = (j, u) :: p /\ dfs_log log k ((q, S r) :: open') /\ has_kind vid log q n kind /\ ~ may_enter vid pol log q n.
Proof. inversion 1; subst. exists j, u, p, i, open0. auto. Qed.

Lemma shown_enter_node rep (lg : log_t) e j v p : shown V_dec cfg e ((j, v) :: p) = fr_event (VS := VS) (PM := PM) (LM := LM) (XM := XM) rep -> fr_event rep <> None ->
  entering (fr_event rep) = true -> exists b, e = LEnter b.
Proof.
  intros Hs Hne He. rewrite <- Hs in *. rewrite shown_entering in He by exact Hne. destruct e; try discriminate. eauto.
Qed.

(** ** Kinds of edges *)
Section Kinds.
Hypothesis Hmode : dc_mode cfg = DFS_TREE.
Hypothesis Htree : dc_is_tree cfg = false.
Hypothesis R1 : dc_report cfg ENTERING_START = true.
Hypothesis R2 : dc_report cfg ENTERING_SUCCESSOR = true.

Lemma kinds_pol : pol = PTree (in_already_visited VS av).
Proof. unfold dfs_policy. rewrite Htree, Hmode. reflexivity. Qed.

Lemma entered_reported lg ro : good lg ro -> (exists k op, dfs_log lg k op) -> forall q, entered lg q ->
  exists rep j q', In rep ro /\ entering (fr_event rep) = true /\ q = (j, fr_vertex rep) :: q' /\ fr_trace rep = rev (verts q).
Proof.
  intros Hg Hl q (b & Hin).
  assert (Hs : shown V_dec cfg (LEnter b) q = Some (if is_own_start V_dec q then ENTERING_START else ENTERING_SUCCESSOR)).
  { unfold shown, event_of. destruct (is_own_start V_dec q); rewrite ?R1, ?R2; reflexivity. }
  destruct (shown_in _ _ _ _ _ _ _ _ _ _ _ _ _ Hg _ _ Hin) as (rep & lg' & Hr & (_ & Ht) & Hsh & j & q' & E); auto; [congruence|].
  exists rep, j, q'. split; auto. split; [rewrite <- Hsh, Hs; destruct (is_own_start V_dec q); reflexivity|]. split; auto.
  apply (st_trace _ _ _ _ _ _ _ _ _ _ _ _ (Ht Hu)).
Qed.

Lemma reported_entered lg ro : good lg ro -> forall rep, In rep ro -> entering (fr_event rep) = true ->
  exists j q, entered lg ((j, fr_vertex rep) :: q) /\ fr_trace rep = rev (verts ((j, fr_vertex rep) :: q)).
Proof.
  intros Hg rep Hin He. apply in_split in Hin. destruct Hin as (a & b & E).
  destruct (reports_split _ _ _ _ _ _ _ _ _ _ _ _ _ Hg _ _ _ E) as (l1 & e & j & v & p & lg' & -> & _ & (_ & Ht) & Hsh & Hne & Hv).
  destruct (shown_enter_node rep lg' _ _ _ _ Hsh Hne He) as (b' & ->). subst v. exists j, p. split; [exists b'; apply in_or_app; right; left; reflexivity|].
  apply (st_trace _ _ _ _ _ _ _ _ _ _ _ _ (Ht Hu)).
Qed.

Notation edge_back := (edge_back vid).
Notation edge_forward := (edge_forward vid).

Lemma verts_suffix (q : node) : forall d p, verts q = d ++ verts p -> exists d' p', q = d' ++ p' /\ length d' = length d /\ verts p' = verts p.
Proof.
  intros d p E. exists (firstn (length d) q), (skipn (length d) q). split; [symmetry; apply firstn_skipn|].
  assert (El : length q = length d + length p) by (apply (f_equal (@length _)) in E; unfold verts in E; rewrite app_length, !map_length in E; exact E).
  split; [rewrite firstn_length; unfold DFSSpec.node in *; lia|]. unfold verts in *. rewrite <- skipn_map. rewrite E, skipn_app, Nat.sub_diag, skipn_all. reflexivity.
Qed.

Theorem kinds_main lim n os r : dc_report cfg BACK_EDGE = true -> traverse lim n = (os, r) ->
  forall o1 rep o2, os = o1 ++ rep :: o2 ->
  match fr_event rep with
  | Some BACK_EDGE | Some FORWARD_EDGE | Some CROSS_EDGE =>
      exists pre, fr_trace rep = pre ++ [fr_vertex rep] /\
        match fr_event rep with
        | Some BACK_EDGE => edge_back pre rep
        | Some FORWARD_EDGE => ~ edge_back pre rep /\ edge_forward o1 pre rep
        | _ => ~ edge_back pre rep /\ ~ edge_forward o1 pre rep
        end /\
        (in_already_visited VS av (vid (fr_vertex rep)) \/ exists rep', In rep' o1 /\ entering (fr_event rep') = true /\ vid (fr_vertex rep') = vid (fr_vertex rep)) /\
        exists rep', In rep' o1 /\ entering (fr_event rep') = true /\ fr_trace rep' = pre
  | _ => True
  end.
Proof.
  intros R3 HR o1 rep o2 Eos. destruct (main _ _ _ _ HR) as (log & k & open & Hl & Hg & _).
  assert (Er : rev os = rev o2 ++ rep :: rev o1) by (rewrite Eos, rev_app_distr; cbn; rewrite <- app_assoc; reflexivity).
  destruct (reports_split _ _ _ _ _ _ _ _ _ _ _ _ _ Hg _ _ _ Er) as (l1 & e & j & v & q & lg & -> & Hg' & (_ & Ht) & Hsh & Hne & Hv). subst v.
  pose proof (st_trace _ _ _ _ _ _ _ _ _ _ _ _ (Ht Hu)) as Htr. apply log_suffix_log in Hl. destruct Hl as (k' & op' & Hl).
  destruct e as [b| |kind|].
  - unfold shown, event_of in Hsh. destruct (is_own_start V_dec _); rewrite ?R1, ?R2 in Hsh; rewrite <- Hsh; exact Logic.I.
  - unfold shown, event_of in Hsh. destruct (length _ =? 1); destruct (dc_report cfg _) in Hsh; rewrite <- Hsh; exact Logic.I.
  - destruct (log_nontree_inv _ _ _ _ _ _ _ Hl) as (j1 & u & p & r0 & op1 & -> & Hl' & Hk & Hm).
    assert (Hme := Hm). assert (Hlp := Hl'). rewrite kinds_pol in Hme, Hlp.
    assert (Hpe : entered lg ((j1, u) :: p)) by (eapply open_entered; eauto; left; reflexivity).
    assert (Body : exists pre, fr_trace rep = pre ++ [fr_vertex rep] /\
       match kind with
       | KBack => edge_back pre rep
       | KForward => ~ edge_back pre rep /\ edge_forward o1 pre rep
       | KCross => ~ edge_back pre rep /\ ~ edge_forward o1 pre rep
       end /\ (in_already_visited VS av (vid (fr_vertex rep)) \/ exists rep', In rep' o1 /\ entering (fr_event rep') = true /\ vid (fr_vertex rep') = vid (fr_vertex rep)) /\
       exists rep', In rep' o1 /\ entering (fr_event rep') = true /\ fr_trace rep' = pre).
    { exists (rev (verts ((j1, u) :: p))). split; [exact Htr|].
      assert (Hb : edge_back (rev (verts ((j1, u) :: p))) rep <-> leads_back vid ((j1, u) :: p) (fr_vertex rep)).
      { unfold DFSTreeSpec.edge_back, leads_back, verts, ids. rewrite map_rev, <- in_rev, map_map. reflexivity. }
      assert (Hf : edge_forward o1 (rev (verts ((j1, u) :: p))) rep <-> leads_forward vid lg ((j1, u) :: p) (fr_vertex rep)).
      { split.
        - intros (rep' & d & Hin & He & Ei & Hd & Etr). apply in_rev in Hin.
          destruct (reported_entered _ _ Hg' _ Hin He) as (j' & q' & Hent & Htr'). rewrite Htr' in Etr.
          apply (f_equal (@rev _)) in Etr. rewrite rev_involutive, rev_app_distr, rev_involutive in Etr.
          destruct (verts_suffix _ _ _ Etr) as (d' & p' & Eq & Ed & Ev).
          assert (Hp' : p' = (j1, u) :: p).
          { destruct p' as [|(j2 & u2) p']; [discriminate Ev|]. assert (u2 = u) by (cbn in Ev; congruence). subst u2.
            eapply tree_unique; eauto. destruct d' as [|x d']; [cbn in Eq; rewrite <- Eq; auto|]. destruct Hent as (b' & Hent).
            eapply (log_suffix _ _ _ _ _ _ _ Hlp _ _ Hent); eauto. discriminate. }
          subst p'. exists j', (fr_vertex rep'), q'. split; auto. split; auto. exists d'. split; auto.
          intros ->. cbn in Ed. rewrite rev_length in Ed. destruct d; [congruence|discriminate].
        - intros (j' & v' & q' & Hent & Ei & d & Hd & Eq).
          destruct (entered_reported _ _ Hg' (ex_intro _ _ (ex_intro _ _ Hl')) _ Hent) as (rep' & j2 & q2 & Hin & He & E2 & Htr').
          exists rep', (rev (verts d)). split; [apply in_rev; auto|]. split; auto. split; [congruence|]. split.
          + intros Hx. apply Hd. apply (f_equal (@length _)) in Hx. rewrite verts_length in Hx. destruct d; [auto|discriminate].
          + rewrite Htr', Eq. unfold verts. rewrite map_app, rev_app_distr. reflexivity. }
      split; [destruct kind; unfold has_kind in Hk; tauto|]. split.
      - destruct (P_dec VS av (vid (fr_vertex rep))) as [|HnP]; auto. right.
        destruct (entered_id_dec vid VS lg (vid (fr_vertex rep))) as [Hi|Hi]; [|exfalso; apply Hme; split; auto].
        destruct Hi as (j' & v' & q' & Hent & Ei).
        destruct (entered_reported _ _ Hg' (ex_intro _ _ (ex_intro _ _ Hl')) _ Hent) as (rep' & j2 & q2 & Hin & He & E2 & Htr').
        exists rep'. split; [apply in_rev; auto|]. split; auto. congruence.
      - destruct (entered_reported _ _ Hg' (ex_intro _ _ (ex_intro _ _ Hl')) _ Hpe) as (rep' & j2 & q2 & Hin & He & E2 & Htr').
        exists rep'. split; [apply in_rev; auto|]. split; auto. }
    unfold shown, event_of in Hsh. destruct (dc_report cfg SOME_NON_TREE_EDGE) eqn:E; [rewrite E in Hsh; rewrite <- Hsh; exact Logic.I|].
    destruct kind; rewrite ?R3 in Hsh; try rewrite R3 in Hsh; try (destruct (dc_report cfg _) in Hsh; [|congruence]); rewrite <- Hsh; exact Body.
  - unfold shown, event_of in Hsh. destruct (dc_report cfg _) in Hsh; rewrite <- Hsh; exact Logic.I.
Qed.

(** Each edge of an entered vertex is reported. *)
Theorem kinds_complete lim n os c : dc_report cfg BACK_EDGE = true -> dc_report cfg FORWARD_EDGE = true -> dc_report cfg CROSS_EDGE = true ->
  (forall m, skip m = false) -> traverse lim n = (os, Ended c) ->
  forall rep w, In rep os -> entering (fr_event rep) = true -> next_edge next (fr_vertex rep) w ->
  exists rep', In rep' os /\ fr_vertex rep' = w /\ fr_trace rep' = fr_trace rep ++ [w] /\
    (fr_event rep' = Some ENTERING_SUCCESSOR \/ fr_event rep' = Some BACK_EDGE \/ fr_event rep' = Some FORWARD_EDGE \/ fr_event rep' = Some CROSS_EDGE).
Proof.
  intros R3 R4 R5 Hsk HR rep w Hin He Hw. destruct (main _ _ _ _ HR) as (log & k & open & Hl & Hg & _ & -> & ->).
  apply in_rev in Hin. destruct (reported_entered _ _ Hg _ Hin He) as (j & q & Hent & Htr).
  assert (Hex : all_expanded log).
  { clear - Hg Hsk. intros p Hp. revert p Hp. induction Hg as [|log ro e p0 H IH Hs Hb|log ro e j v p0 rep H IH Hs Hne Hv Hsee Hb]; intros p Hp; [destruct Hp|..]; destruct Hp as [E|Hp]; try (eapply IH; eauto; fail).
    - injection E as -> ->. discriminate (Hb false eq_refl).
    - injection E as -> <-. rewrite Hsk in Hb. discriminate (Hb false eq_refl). }
  unfold next_edge in Hw. apply in_map_iff in Hw. destruct Hw as ((w' & l) & Ew & Hw). cbn in Ew. subst w'. apply In_nth_error in Hw. destruct Hw as (i & Hw).
  assert (Ha : In ((i, w) :: (j, fr_vertex rep) :: q) (arrivals log)).
  { eapply closed_children; eauto. apply all_expanded_enter; auto. }
  apply in_arrivals in Ha. destruct Ha as (e & Har & Ha).
  assert (Hsome : dc_report cfg SOME_NON_TREE_EDGE = false).
  { destruct (dc_report cfg SOME_NON_TREE_EDGE) eqn:E; auto. destruct (ok_group _ _ (main_ok VS cfg av o Ho) E) as (_ & X & _). congruence. }
  assert (Hlp := Hl). rewrite kinds_pol in Hlp.
  assert (Hn2 : e <> LSkipStart).
  { intros ->. clear - Ha Hl. induction Hl; try (destruct Ha as [E|Ha]; [discriminate E|]); auto. }
  assert (Hs : exists ev, shown V_dec cfg e ((i, w) :: (j, fr_vertex rep) :: q) = Some ev /\ (ev = ENTERING_SUCCESSOR \/ ev = BACK_EDGE \/ ev = FORWARD_EDGE \/ ev = CROSS_EDGE)).
  { unfold shown, event_of. destruct e as [b| |kind|]; try discriminate; try congruence.
    - assert (Hno : is_own_start V_dec ((i, w) :: (j, fr_vertex rep) :: q) = false).
      { rewrite (own_start_length V_dec vid VS next starts cfg av _ _ _ Hl); [reflexivity|unfold strict_pol; rewrite kinds_pol; reflexivity|]. exists b; auto. }
      rewrite Hno, R2. eauto.
    - rewrite Hsome. destruct kind; rewrite ?R3; try rewrite R3; rewrite ?R4, ?R5; eauto 8. }
  destruct Hs as (ev & Hs & Hev).
  destruct (shown_in _ _ _ _ _ _ _ _ _ _ _ _ _ Hg _ _ Ha) as (rep' & lg' & Hr & (_ & Ht) & Hsh & j' & q' & E); eauto; [congruence|].
  exists rep'. split; [apply in_rev; auto|]. split; [congruence|]. split.
  - rewrite (st_trace _ _ _ _ _ _ _ _ _ _ _ _ (Ht Hu)), Htr. reflexivity.
  - rewrite <- Hsh, Hs. destruct Hev as [->|[->|[->| ->]]]; auto.
Qed.

Theorem kinds_both lim n os r : dc_report cfg BACK_EDGE = true -> traverse lim n = (os, r) ->
  (forall o1 rep o2, os = o1 ++ rep :: o2 ->
    match fr_event rep with
    | Some BACK_EDGE | Some FORWARD_EDGE | Some CROSS_EDGE =>
        exists pre, fr_trace rep = pre ++ [fr_vertex rep] /\
          match fr_event rep with
          | Some BACK_EDGE => edge_back pre rep
          | Some FORWARD_EDGE => ~ edge_back pre rep /\ edge_forward o1 pre rep
          | _ => ~ edge_back pre rep /\ ~ edge_forward o1 pre rep
          end /\
          (in_already_visited VS av (vid (fr_vertex rep)) \/ exists rep', In rep' o1 /\ entering (fr_event rep') = true /\ vid (fr_vertex rep') = vid (fr_vertex rep)) /\
          exists rep', In rep' o1 /\ entering (fr_event rep') = true /\ fr_trace rep' = pre
    | _ => True
    end) /\
  (forall c, r = Ended c -> dc_report cfg FORWARD_EDGE = true -> dc_report cfg CROSS_EDGE = true -> (forall m, skip m = false) ->
     forall rep w, In rep os -> entering (fr_event rep) = true -> next_edge next (fr_vertex rep) w ->
     exists rep', In rep' os /\ fr_vertex rep' = w /\ fr_trace rep' = fr_trace rep ++ [w] /\
       (fr_event rep' = Some ENTERING_SUCCESSOR \/ fr_event rep' = Some BACK_EDGE \/ fr_event rep' = Some FORWARD_EDGE \/ fr_event rep' = Some CROSS_EDGE)).
Proof.
  intros R3 HR. split; [eapply kinds_main; eauto|]. intros c -> R4 R5 Hs. eapply kinds_complete; eauto.
Qed.
End Kinds.
End DFSModes.
