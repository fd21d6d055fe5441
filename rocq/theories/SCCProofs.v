(** The program for strongly connected components (SCCModel) and the algorithm along the log (SCCLog). *)
From Coq Require Import List Bool Arith ZArith Lia.
From Verif Require Import Machine GearSpec Common Spec TraversalSpec DFSModel DFSSpec DFSLog DFSLogMore DFSReports DFSProofs DFSMore SCCSpec SCCModel SCCLog.
Import ListNotations.
Open Scope Z_scope.

Section SCCProofs.
Context {V L : Type}.
Variable V_dec : forall a b : V, {a = b} + {a <> b}.
Variable VS : VSet V.
Variable PM : PMap V V.
Variable LM : PMap V L.
Variable XM : DMap V Z 0.
Variable next : V -> list (V * L).
Variable starts : list V.
Notation report := (@dfs_report V V L VS PM LM XM).
Notation state := (@dfs_state V V L VS PM LM XM).
Notation vid := (fun v : V => v).
Notation no_skip := (fun _ : nat => false).
Notation step := (dfs_step V_dec vid VS PM LM XM next scc_options no_skip).
Notation set_index := (set_index VS PM LM XM).
Notation Sim := (Sim V_dec vid VS PM LM XM next starts scc_options no_skip None).
Notation dfs_log := (dfs_log vid next starts (PTree (fun _ => False))).
Notation tlog := (tlog V_dec).
Notation log_t := (log_t V).
Notation node := (node V).
Notation tent := (@tent V).
Notation scc_state := (@scc_state V L VS PM LM XM).

(** ** The traversal does not read the numbers. *)
Definition same_report (r r' : report) : Prop := fr_vertex r' = fr_vertex r /\ fr_event r' = fr_event r /\ fr_trace r' = fr_trace r.
Definition entering (o : list report) (d : state) (ix ix' : dm_t XM) : Prop := exists r, o = [r] /\ ix' = dm_set XM (fr_vertex r) (f_time d) ix.

Lemma step_index d ix :
  match step d with
  | Go o d' => exists o' ix', step (set_index d ix) = Go o' (set_index d' ix') /\ Forall2 same_report o o' /\
      (ix' = ix /\ f_time d' = f_time d \/ entering o d ix ix' /\ f_time d' = f_time d + 1)
  | Halt o d' => step (set_index d ix) = Halt o (set_index d' ix)
  | Raise o x d' => exists o' ix', step (set_index d ix) = Raise o' x (set_index d' ix') /\ Forall2 same_report o o' /\
      (x = RuntimeErrorLimit -> entering o d ix ix')
  end.
Proof.
  destruct d as [pc sts st tv tvl mk vl tr trl ont ix0 tm dp ev vis pr lb lm ct cl].
  assert (R1 : forall v e, Forall2 same_report [v] [e] <-> same_report v e) by (intros v e; split; [intros H; inversion H; assumption|intros H; constructor; [exact H|constructor]]).
  unfold dfs_step, SCCModel.set_index. cbn [f_pc f_starts f_start f_to_visit f_to_visit_labels f_markers f_var_labels f_trace f_trace_labels f_on_trace f_index f_time f_depth f_event f_visited f_pred f_labels f_limit f_count f_calls].
  destruct pc as [|no_leaving].
  - destruct sts as [|v rest]; [reflexivity|]. exists [], ix. split; [reflexivity|]. split; [constructor|left; split; reflexivity].
  - destruct mk as [|[|] m].
    + exists [], ix. split; [reflexivity|]. split; [constructor|left; split; reflexivity].
    + unfold dfs_leave. cbn. destruct tr as [|v t]; [exists [], ix; split; [reflexivity|]; split; [constructor|discriminate]|].
      destruct m as [|b m]; [|destruct no_leaving]; cbn; do 2 eexists; (split; [reflexivity|]); (split; [apply R1; split; [|split]; reflexivity|left; split; reflexivity]).
    + unfold dfs_pop. cbn. destruct tv as [|v q]; [exists [], ix; split; [reflexivity|]; split; [constructor|discriminate]|]. cbn.
      destruct (vs_mem VS v vis).
      * unfold dfs_revisit. cbn. destruct tr as [|u t]; cbn.
        -- do 2 eexists. split; [reflexivity|]. split; [constructor|left; split; reflexivity].
        -- do 2 eexists. split; [reflexivity|]. split; [apply R1; split; [|split]; reflexivity|left; split; reflexivity].
      * unfold dfs_visit, is_current_start. cbn. destruct tr as [|u t], st as [u0|]; cbn; try (destruct (V_dec v u0) as [e|e]; cbn);
          (destruct (limit_check lm) as [lm'|]; cbn; do 2 eexists; (split; [reflexivity|]); (split; [apply R1; split; [|split]; reflexivity|]); [right; split; [|reflexivity]|intros _]; eexists; split; reflexivity).
Qed.

(** ** Facts about reports *)
Notation good_reports := (reports V_dec VS PM LM XM scc_options no_skip (fun lg e p r => sees vid VS PM LM XM next starts scc_options None false lg e p r /\
  sees_trace vid VS PM LM XM next scc_options None lg e p r)).
Definition visible (x : log_event * node) : bool := match fst x with LSkipStart => false | _ => true end.
Lemma shown_visible e p : shown V_dec scc_options e p = None <-> visible (e, p) = false.
Proof.
  unfold shown, visible. destruct e; cbn; try (split; [discriminate|discriminate]); try tauto.
  - destruct (is_own_start V_dec p); cbn; split; discriminate.
  - destruct (length p =? 1)%nat; cbn; split; discriminate.
Qed.
Lemma reports_length log os : good_reports log os -> length os = length (filter visible log).
Proof.
  induction 1 as [|log os e p H IH Hs Hb|log os e j v p rep H IH Hs Hne Hv Hsee Hb]; [reflexivity| |].
  - cbn [filter]. apply shown_visible in Hs. rewrite Hs. exact IH.
  - cbn [filter]. destruct (visible (e, (j, v) :: p)) eqn:Ev; [cbn; f_equal; exact IH|]. apply shown_visible in Ev. congruence.
Qed.
Lemma reports_expanded log os : good_reports log os -> all_expanded log.
Proof.
  induction 1 as [|log os e p H IH Hs Hb|log os e j v p rep H IH Hs Hne Hv Hsee Hb]; intros q; [intros []| |].
  - intros [K|K]; [injection K as -> <-; specialize (Hb false eq_refl); discriminate|exact (IH q K)].
  - intros [K|K]; [injection K as -> <-; specialize (Hb false eq_refl); discriminate|exact (IH q K)].
Qed.
Lemma reports_same log os o : good_reports log (rev os) -> good_reports log (rev (os ++ o)) -> o = [].
Proof.
  intros H1 H2. apply reports_length in H1. apply reports_length in H2. rewrite rev_length in *. rewrite app_length in H2. destruct o; [reflexivity|cbn in H2; lia].
Qed.
Lemma reports_new log os o e p : good_reports log (rev os) -> good_reports ((e, p) :: log) (rev (os ++ o)) ->
  (e = LSkipStart /\ o = []) \/
  exists rep j v q, e <> LSkipStart /\ o = [rep] /\ p = (j, v) :: q /\ shown V_dec scc_options e p = fr_event rep /\ fr_vertex rep = v /\ fr_trace rep = rev (verts p).
Proof.
  intros H1 H2. pose proof (reports_length _ _ H1) as L1. pose proof (reports_length _ _ H2) as L2. rewrite rev_length in L1, L2. rewrite app_length in L2. cbn [filter] in L2.
  inversion H2 as [|? ? ? ? H Hs Hb|? ? ? j v q rep H Hs Hne Hv Hsee Hb]; subst.
  - left. apply shown_visible in Hs. match type of L2 with context [if ?b then _ else _] => change b with (visible (e, p)) in L2 end. rewrite Hs in L2. split; [destruct e; cbn in Hs; congruence|]. destruct o; [reflexivity|cbn in L2; lia].
  - right. assert (Hvis : visible (e, (j, fr_vertex rep) :: q) = true) by (destruct (visible (e, (j, fr_vertex rep) :: q)) eqn:Ev; [reflexivity|]; apply shown_visible in Ev; congruence).
    match type of L2 with context [if ?b then _ else _] => change b with (visible (e, (j, fr_vertex rep) :: q)) in L2 end. rewrite Hvis in L2. cbn in L2.
    destruct o as [|r [|]]; cbn in L2; try lia. match goal with K : _ :: _ = rev (_ ++ _) |- _ => rewrite rev_app_distr in K; cbn in K; injection K as -> _ end. exists r, j, (fr_vertex r), q. split; [intros ->; discriminate|]. split; [reflexivity|]. split; [reflexivity|]. split; [exact Hs|]. split; [reflexivity|].
    exact (st_trace _ _ _ _ _ _ _ _ _ _ _ _ (proj2 Hsee)).
Qed.

(** ** The dictionaries of the program *)
Definition lows (st : list tent) : list (V * Z) := map (fun e => (tv e, snd e)) st.
Lemma get_none v st : ~ In v (map tv st) -> dict_get V_dec v (lows st) = None.
Proof.
  induction st as [|((w & n) & l) st IH]; cbn; [reflexivity|]. try change (tv (w, n, l)) with w. intros H. destruct (V_dec w v) as [e|e]; [exfalso; apply H; left; exact e|]. apply IH. tauto.
Qed.
Lemma get_find v st : dict_get V_dec v (lows st) = option_map snd (find_tent V_dec v st).
Proof. induction st as [|((w & n) & l) st IH]; cbn; [reflexivity|]. try change (tv (w, n, l)) with w. destruct (V_dec w v) as [e|e]; [reflexivity|exact IH]. Qed.
Lemma find_in v st n l : NoDup (map tv st) -> In (v, n, l) st -> find_tent V_dec v st = Some (v, n, l).
Proof.
  intros HN Hin. destruct (find_tent V_dec v st) as [((w & n') & l')|] eqn:Hf.
  - apply find_tent_some in Hf. destruct Hf as (H1 & H2). unfold tv in H2. cbn in H2. subst w. destruct (same_vertex st v n l n' l' HN Hin H1) as (-> & ->). reflexivity.
  - apply find_tent_none in Hf. exfalso. apply Hf. apply in_tv. eauto.
Qed.
Lemma update_none v x st : ~ In v (map tv st) -> set_low V_dec v x st = st.
Proof. intros H. apply set_low_id. intros n l Hin. exfalso. apply H, in_tv. eauto. Qed.
Lemma update_low u m st : NoDup (map tv st) -> forall n l, In (u, n, l) st -> m < l -> dict_update V_dec u m (lows st) = lows (set_low V_dec u m st).
Proof.
  induction st as [|((w & n0) & l0) st IH]; cbn; intros HN n l Hin Hlt; [reflexivity|]. inversion HN as [|? ? N1 N2]; subst. try change (tv (w, n0, l0)) with w in *. destruct (V_dec w u) as [->|e]; cbn.
  - destruct Hin as [Hin|Hin]; [|exfalso; apply N1; apply in_tv; eauto]. injection Hin as -> ->. rewrite Z.min_r by lia. fold (set_low V_dec u m st). rewrite update_none by exact N1. reflexivity.
  - destruct Hin as [Hin|Hin]; [injection Hin as -> _ _; congruence|]. f_equal. exact (IH N2 n l Hin Hlt).
Qed.
(** The update of a low link in the program *)
Lemma set_low_dict u m st n l : NoDup (map tv st) -> In (u, n, l) st ->
  (if m <? l then dict_set V_dec u m (lows st) else lows st) = lows (set_low V_dec u m st).
Proof.
  intros HN Hin. destruct (Z.ltb_spec m l) as [Hlt|Hge].
  - unfold dict_set. rewrite get_find, (find_in u st n l HN Hin). cbn [option_map snd]. exact (update_low u m st HN n l Hin Hlt).
  - f_equal. symmetry. apply set_low_id. intros n' l' Hin'. destruct (same_vertex st u n l n' l' HN Hin Hin') as (_ & ->). exact Hge.
Qed.

(** The numbers of the vertices on the stack *)
Definition numbers (st : list tent) (ix : dm_t XM) : Prop := forall v n l, In (v, n, l) st -> dm_get XM v ix = n /\ 0 < n.
Lemma get_number v st ix n l : numbers st ix -> In (v, n, l) st -> index_get XM v ix = Some n.
Proof. intros H Hin. destruct (H v n l Hin) as (K1 & K2). unfold index_get. rewrite K1. destruct (Z.eqb_spec n 0); [lia|reflexivity]. Qed.
Lemma numbers_low u m st ix : numbers st ix -> numbers (set_low V_dec u m st) ix.
Proof. intros H v n l Hin. apply set_low_in in Hin. destruct Hin as (l0 & Hin & _). exact (H v n l0 Hin). Qed.

Lemma take_cut v : forall st ix, NoDup (map tv st) -> numbers st ix -> In v (map tv st) ->
  exists ix', scc_take V_dec XM v (lows st) ix = Some (fst (cut V_dec v st), lows (snd (cut V_dec v st)), ix') /\ numbers (snd (cut V_dec v st)) ix'.
Proof.
  induction st as [|((w & n) & l) st IH]; intros ix HN Hnum Hin; [destruct Hin|]. cbn [lows map scc_take cut]. try change (tv (w, n, l)) with w in *. cbn [fst snd].
  rewrite (get_number w _ ix n l Hnum (or_introl eq_refl)). cbn in HN. inversion HN as [|? ? N1 N2]; subst.
  assert (Hnum' : numbers st (index_del XM ix w)).
  { intros x n' l' Hx. unfold index_del. destruct (V_dec x w) as [->|e]; [exfalso; apply N1, in_tv; eauto|]. rewrite dm_get_set_other by congruence. apply (Hnum x n' l'). right. exact Hx. }
  destruct (V_dec w v) as [->|e].
  - destruct (V_dec v v) as [_|e]; [|congruence]. exists (index_del XM ix v). split; [reflexivity|exact Hnum'].
  - destruct (V_dec v w) as [e'|_]; [congruence|]. destruct Hin as [Hin|Hin]; [unfold tv in Hin; cbn in Hin; congruence|].
    destruct (IH (index_del XM ix w) N2 Hnum' Hin) as (ix' & K1 & K2). fold (lows st). rewrite K1. destruct (cut V_dec v st) as (a & b). exists ix'. split; [reflexivity|exact K2].
Qed.

(** What the program does for an event of the log *)
Lemma handle_event log k open e j v q rep ix : dfs_log ((e, (j, v) :: q) :: log) k open -> all_expanded ((e, (j, v) :: q) :: log) -> e <> LSkipStart ->
  shown V_dec scc_options e ((j, v) :: q) = fr_event rep -> fr_vertex rep = v -> fr_trace rep = rev (verts ((j, v) :: q)) ->
  numbers (fst (tlog log)) ix -> ((exists b, e = LEnter b) -> dm_get XM v ix = Z.of_nat (length (enters log)) + 1) ->
  exists cs ix', scc_handle V_dec VS PM LM XM rep (lows (fst (tlog log))) ix = Some (cs, lows (fst (tlog ((e, (j, v) :: q) :: log))), ix') /\
    snd (tlog ((e, (j, v) :: q) :: log)) = snd (tlog log) ++ cs /\ numbers (fst (tlog ((e, (j, v) :: q) :: log))) ix'.
Proof.
  intros Hlog Hall Hns Hev Hv Htr Hnum Hnew.
  assert (Hall' : all_expanded log) by (intros p Hp; exact (Hall p (or_intror Hp))).
  assert (Hprev : exists k0 open0, dfs_log log k0 open0 /\ forall u, In u (verts (match e with LEnter _ | LNonTree _ => q | LLeave => (j, v) :: q | LSkipStart => [] end)) -> In u (grey open0)).
  { inversion Hlog; subst; do 2 eexists; (split; [eassumption|]); intros u9 Hu; exact Hu. }
  destruct Hprev as (k0 & open0 & Hprev & Hgrey0).
  pose proof (TI_holds V_dec next starts log k0 open0 Hprev Hall') as HT. pose proof (TI_holds V_dec next starts _ k open Hlog Hall) as HT'.
  assert (HN : NoDup (map tv (fst (tlog log)))) by exact (nodup_left _ _ (ti_nodup _ _ _ _ _ HT)).
  assert (HB : before_last (fr_trace rep) = match q with (_, u) :: _ => Some u | [] => None end) by (unfold before_last; rewrite Htr, rev_involutive; destruct q as [|(ju & u) q']; reflexivity).
  assert (Hgrey : forall u, In u (verts (match e with LEnter _ | LNonTree _ => q | LLeave => (j, v) :: q | LSkipStart => [] end)) -> In u (map tv (fst (tlog log)))).
  { intros u Hu. apply (ti_grey _ _ _ _ _ HT), Hgrey0, Hu. }
  unfold scc_handle. rewrite HB, Hv. cbn [SCCLog.tlog] in *. destruct (tlog log) as (st & out). cbn [fst snd] in *. destruct e as [b|  |kind| ].
  - assert (Ev : fr_event rep = Some ENTERING_START \/ fr_event rep = Some ENTERING_SUCCESSOR) by (rewrite <- Hev; unfold shown, event_of; destruct (is_own_start V_dec ((j, v) :: q)); auto).
    assert (Hn : ~ In v (map tv st)) by (pose proof (ti_nodup _ _ _ _ _ HT') as K; cbn in K; inversion K as [|? ? K1 K2]; subst; intros Hin; apply K1; apply in_or_app; auto).
    assert (Hi : index_get XM v ix = Some (Z.of_nat (length (enters log)) + 1)) by (unfold index_get; rewrite (Hnew (ex_intro _ b eq_refl)); destruct (Z.eqb_spec (Z.of_nat (length (enters log)) + 1) 0); [lia|reflexivity]).
    exists [], ix. split; [|split].
    + unfold dict_set. rewrite get_none by exact Hn. rewrite Hi. destruct Ev as [-> | ->]; reflexivity.
    + cbn. rewrite app_nil_r. reflexivity.
    + intros w n l [K|K]; [injection K as <- <- <-; split; [apply Hnew; eauto|lia]|exact (Hnum w n l K)].
  - (* leaving *)
    assert (Hin : In v (map tv st)) by (apply Hgrey; now left). apply in_tv in Hin. destruct Hin as (n & l & Hin). pose proof (find_in v st n l HN Hin) as Hf. cbn [tstep]. rewrite Hf. cbn [snd tn fst] in *. unfold tn in *. cbn [fst snd] in *.
    assert (Hleave : forall st1, st1 = low_opt V_dec q l st -> exists cs ix', scc_leave V_dec XM v (lows st1) ix = Some (cs, lows (fst (if l =? n then let (c, r) := cut V_dec v st1 in (r, out ++ [c]) else (st1, out))), ix') /\
      snd (if l =? n then let (c, r) := cut V_dec v st1 in (r, out ++ [c]) else (st1, out)) = out ++ cs /\ numbers (fst (if l =? n then let (c, r) := cut V_dec v st1 in (r, out ++ [c]) else (st1, out))) ix').
    { intros st1 ->. destruct (low_opt_spec V_dec q l st) as (T1 & _ & T3 & T4 & T5). set (st1 := low_opt V_dec q l st) in *.
      assert (Hnum1 : numbers st1 ix) by (intros w n' l' Hw; destruct (T3 _ _ _ Hw) as (l0 & Hw' & _); exact (Hnum w n' l0 Hw')).
      assert (HN1 : NoDup (map tv st1)) by (rewrite T1; exact HN).
      assert (Hin1 : In (v, n, l) st1).
      { destruct (T4 _ _ _ Hin) as (l' & Hl'). destruct (T3 _ _ _ Hl') as (l0 & K1 & K2 & [->|(-> & _)]); [destruct (same_vertex st v n l n l0 HN Hin K1) as (_ & ->); exact Hl'|exact Hl']. }
      unfold scc_leave. rewrite get_find, (find_in v st1 n l HN1 Hin1). cbn [option_map snd]. rewrite (get_number v st1 ix n l Hnum1 Hin1). destruct (l =? n).
      - destruct (take_cut v st1 ix HN1 Hnum1) as (ix' & K1 & K2); [apply in_tv; eauto|]. rewrite K1. destruct (cut V_dec v st1) as (c & r). exists [c], ix'. split; [reflexivity|]. split; [reflexivity|exact K2].
      - exists [], ix. split; [reflexivity|]. split; [rewrite app_nil_r; reflexivity|exact Hnum1]. }
    destruct q as [|(ju & u) q'].
    + assert (Ev : fr_event rep = Some LEAVING_START) by (rewrite <- Hev; reflexivity). rewrite Ev. exact (Hleave st eq_refl).
    + assert (Ev : fr_event rep = Some LEAVING_SUCCESSOR) by (rewrite <- Hev; reflexivity). rewrite Ev.
      assert (Hu : In u (map tv st)) by (apply Hgrey; right; now left). apply in_tv in Hu. destruct Hu as (nu & lu & Hu).
      rewrite !get_find, Hf, (find_in u st nu lu HN Hu). cbn [option_map snd]. rewrite (set_low_dict u l st nu lu HN Hu). exact (Hleave _ eq_refl).
  - (* an edge outside the tree *)
    assert (Ev : fr_event rep = Some SOME_NON_TREE_EDGE) by (rewrite <- Hev; reflexivity). rewrite Ev.
    destruct q as [|(ju & u) q']; [inversion Hlog|].
    assert (Hu : In u (map tv st)) by (apply Hgrey; now left). apply in_tv in Hu. destruct Hu as (nu & lu & Hu).
    rewrite !get_find. cbn [tstep]. destruct (find_tent V_dec v st) as [((v0 & n) & l)|] eqn:Hf; cbn [option_map].
    + apply find_tent_some in Hf. destruct Hf as (Hin & K). unfold tv in K. cbn in K. subst v0. rewrite (get_number v st ix n l Hnum Hin), (find_in u st nu lu HN Hu). cbn [option_map snd].
      exists [], ix. split; [|split].
      * rewrite (set_low_dict u n st nu lu HN Hu). reflexivity.
      * cbn. rewrite app_nil_r. reflexivity.
      * cbn. apply numbers_low, Hnum.
    + exists [], ix. split; [reflexivity|]. split; [cbn; rewrite app_nil_r; reflexivity|exact Hnum].
  - congruence.
Qed.

(** ** The program and the traversal proceed in lock step. *)
Notation scc_step := (scc_step V_dec VS PM LM XM next).
Record linked (log : log_t) (d : state) (out : list (list V)) (s : scc_state) : Prop := {
  lk_dfs : exists ix, scc_dfs s = set_index d ix /\ numbers (fst (tlog log)) ix;
  lk_out : out = snd (tlog log);
  lk_low : scc_low_link s = lows (fst (tlog log))
}.
Definition Rel (os : list report) (d : state) (out : list (list V)) (s : scc_state) : Prop := exists log k open pend, Sim os log k open pend d /\ linked log d out s.

Lemma scc_cfg_ok : cfg_ok scc_options false.
Proof. constructor; cbn; try tauto; try discriminate; intros [|]; discriminate. Qed.

Lemma sim_log os log k open pend d : Sim os log k open pend d -> dfs_log log k open /\ all_expanded log /\ good_reports log (rev os).
Proof. intros (H1 & H2). pose proof (sm_reports _ _ _ _ _ _ _ _ _ _ _ _ _ _ _ _ _ H2) as H3. split; [exact H1|]. split; [exact (reports_expanded _ _ H3)|exact H3]. Qed.

(** Handling the report of an event *)
Lemma handle_reports os log k open pend d out s ix o o' e p k' open' ix' : Sim os log k open pend d -> linked log d out s -> numbers (fst (tlog log)) ix ->
  dfs_log ((e, p) :: log) k' open' -> good_reports ((e, p) :: log) (rev (os ++ o)) -> Forall2 same_report o o' ->
  ((exists b, e = LEnter b) -> entering o d ix ix') -> (~ (exists b, e = LEnter b) -> ix' = ix) ->
  exists cs ix'', scc_handle_all V_dec VS PM LM XM o' (lows (fst (tlog log))) ix' = Some (cs, lows (fst (tlog ((e, p) :: log))), ix'') /\
    snd (tlog ((e, p) :: log)) = snd (tlog log) ++ cs /\ numbers (fst (tlog ((e, p) :: log))) ix''.
Proof.
  intros HS HL Hnum Hlog Hrep Hsame Hent Hnot. destruct (sim_log _ _ _ _ _ _ HS) as (H1 & H2 & H3).
  destruct (reports_new log os o e p H3 Hrep) as [(-> & ->)|(rep & j & v & q & Hns & -> & -> & Hev & Hv & Htr)].
  - inversion Hsame; subst. rewrite Hnot by (intros (b & K); discriminate). exists [], ix. cbn [scc_handle_all SCCLog.tlog]. destruct (tlog log) as (st & out0). cbn [tstep fst snd] in *. split; [reflexivity|]. split; [rewrite app_nil_r; reflexivity|exact Hnum].
  - inversion Hsame as [|? rep' ? o2 (S1 & S2 & S3) Hsame']; subst. inversion Hsame'; subst. pose proof (reports_expanded _ _ Hrep) as Hall.
    assert (Hnum' : numbers (fst (tlog log)) ix').
    { destruct e as [b| |kind| ]; try (rewrite Hnot by (intros (b & K); discriminate); exact Hnum). destruct (Hent (ex_intro _ b eq_refl)) as (r & Hr & ->). injection Hr as <-.
      intros w n l Hin. pose proof (TI_holds V_dec next starts _ k' open' Hlog Hall) as HT. pose proof (ti_nodup _ _ _ _ _ HT) as K. cbn [SCCLog.tlog] in K. destruct (tlog log) as (st & out0). cbn [tstep fst snd map app] in *. inversion K as [|? ? K1 K2]; subst.
      assert (Hw : w <> fr_vertex rep) by (intros ->; apply K1; apply in_or_app; left; apply in_tv; eauto). rewrite dm_get_set_other by congruence. exact (Hnum w n l Hin). }
    destruct (handle_event log k' open' e j (fr_vertex rep) q rep' ix' Hlog Hall Hns) as (cs & ix'' & K1 & K2 & K3); try congruence; try exact Hnum'.
    + intros (b & Hb). destruct (Hent (ex_intro _ b Hb)) as (r & Hr & ->). injection Hr as <-. rewrite dm_get_set_same. exact (sm_time _ _ _ _ _ _ _ _ _ _ _ _ _ _ _ _ _ (proj2 HS) eq_refl).
    + exists cs, ix''. cbn [scc_handle_all]. rewrite K1. split; [rewrite app_nil_r; reflexivity|]. split; [exact K2|exact K3].
Qed.

Lemma enters_other (e : log_event) (p : node) (log : log_t) : ~ (exists b, e = LEnter b) -> enters ((e, p) :: log) = enters log.
Proof. destruct e; intros H; try reflexivity. exfalso. eauto. Qed.

Lemma scc_lock_step os d out s : Rel os d out s ->
  match step d with
  | Go o d' => exists cs s', scc_step s = Go cs s' /\ Rel (os ++ o) d' (out ++ cs) s'
  | Halt _ d' => exists s', scc_step s = Halt [] s' /\ Rel os d' out s' /\ exists log, dfs_log log (length starts) [] /\ all_expanded log /\ out = snd (tlog log)
  | Raise _ x _ => exists s', scc_step s = Raise [] x s' /\ x = RuntimeErrorLimit
  end.
Proof.
  intros (log & k & open & pend & HS & HL). destruct (lk_dfs _ _ _ _ HL) as (ix & Hix & Hnum).
  pose proof (step_index d ix) as Hi. pose proof (sim_step V_dec vid VS PM LM XM next starts scc_options no_skip None scc_cfg_ok os log k open pend d HS) as Hst.
  destruct (sim_log _ _ _ _ _ _ HS) as (H1 & H2 & H3). unfold SCCModel.scc_step. rewrite Hix.
  destruct (step d) as [o d'|o d'|o x d'].
  - destruct Hi as (o' & ix' & Hstep & Hsame & Hupd). rewrite Hstep. destruct Hst as (log' & k' & open' & pend' & HS' & Hlog'). destruct (sim_log _ _ _ _ _ _ HS') as (H1' & H2' & H3').
    pose proof (sm_time _ _ _ _ _ _ _ _ _ _ _ _ _ _ _ _ _ (proj2 HS) eq_refl) as Ht. pose proof (sm_time _ _ _ _ _ _ _ _ _ _ _ _ _ _ _ _ _ (proj2 HS') eq_refl) as Ht'.
    change (f_index (set_index d' ix')) with ix'. rewrite (lk_low _ _ _ _ HL).
    destruct Hlog' as [((e & p) & ->)|(-> & _)].
    + destruct (handle_reports os log k open pend d out s ix o o' e p k' open' ix' HS HL Hnum H1' H3' Hsame) as (cs & ix'' & K1 & K2 & K3).
      * intros (b & ->). destruct Hupd as [(-> & Ht2)|(Hupd & _)]; [exfalso|exact Hupd]. change (enters ((LEnter b, p) :: log)) with (p :: enters log) in Ht'. cbn [length] in Ht'. lia.
      * intros Hno. destruct Hupd as [(-> & _)|(_ & Ht2)]; [reflexivity|exfalso]. rewrite enters_other in Ht' by exact Hno. lia.
      * rewrite K1. do 2 eexists. split; [reflexivity|]. exists ((e, p) :: log), k', open', pend'. split; [exact HS'|]. constructor; [exists ix''; split; [reflexivity|exact K3]|rewrite K2, (lk_out _ _ _ _ HL); reflexivity|reflexivity].
    + pose proof (reports_same log os o H3 H3') as ->. inversion Hsame; subst. assert (ix' = ix) as -> by (destruct Hupd as [(-> & _)|((r & K & _) & _)]; [reflexivity|discriminate]).
      cbn [scc_handle_all]. do 2 eexists. split; [reflexivity|]. exists log, k', open', pend'. split; [exact HS'|]. constructor; [exists ix; split; [reflexivity|exact Hnum]|rewrite app_nil_r; exact (lk_out _ _ _ _ HL)|reflexivity].
  - destruct Hst as (-> & -> & -> & -> & ->). rewrite Hi. cbn [scc_handle_all]. rewrite (lk_low _ _ _ _ HL). change (f_index (set_index d ix)) with ix. eexists. split; [reflexivity|]. split.
    + exists log, (length starts), [], None. split; [exact HS|]. constructor; [exists ix; split; [reflexivity|exact Hnum]|exact (lk_out _ _ _ _ HL)|reflexivity].
    + exists log. split; [exact H1|]. split; [exact H2|exact (lk_out _ _ _ _ HL)].
  - destruct Hst as (-> & (k' & open' & i & v & Hlog' & Hrep') & _). destruct Hi as (o' & ix' & Hstep & Hsame & Hent). rewrite Hstep. change (f_index (set_index d' ix')) with ix'. rewrite (lk_low _ _ _ _ HL).
    destruct (handle_reports os log k open pend d out s ix o o' (LEnter true) ((i, v) :: top open') k' _ ix' HS HL Hnum Hlog' Hrep' Hsame) as (cs & ix'' & K1 & K2 & K3).
    + intros _. exact (Hent eq_refl).
    + intros K. exfalso. eauto.
    + rewrite K1. assert (cs = []) as ->.
      { cbn [SCCLog.tlog] in K2. destruct (tlog log) as (st & out0). cbn [tstep snd] in K2. rewrite <- (app_nil_r out0) in K2 at 1. apply app_inv_head in K2. auto. }
      eexists. split; reflexivity.
Qed.

(** ** Without a calculation limit *)
Lemma step_unlimited d : f_limit d = None -> match step d with Go _ d' => f_limit d' = None | Halt _ d' => f_limit d' = None | Raise _ x _ => x <> RuntimeErrorLimit end.
Proof.
  destruct d as [pc sts st tv tvl mk vl tr trl ont ix0 tm dp ev vis pr lb lm ct cl]. cbn. intros ->. unfold dfs_step. cbn [f_pc f_starts f_markers].
  destruct pc as [|no_leaving].
  - destruct sts; reflexivity.
  - destruct mk as [|[|] m]; [reflexivity| |].
    + unfold dfs_leave. cbn. destruct tr as [|v t]; [discriminate|]. destruct m as [|b m]; [|destruct no_leaving]; reflexivity.
    + unfold dfs_pop. cbn. destruct tv as [|v q]; [discriminate|]. cbn. destruct (vs_mem VS v vis).
      * unfold dfs_revisit. cbn. destruct tr as [|u t]; reflexivity.
      * unfold dfs_visit, is_current_start. cbn. destruct tr as [|u t], st as [u0|]; cbn; try (destruct (V_dec v u0) as [e|e]; cbn); reflexivity.
Qed.

(** ** All runs *)
Notation scc_run := (scc_run V_dec VS PM LM XM next starts).
Notation dfs_start lim := (dfs_init vid VS PM LM XM scc_options starts None lim).
Lemma rel_init lim : Rel [] (dfs_start lim) [] {| scc_dfs := dfs_start lim; scc_low_link := [] |}.
Proof.
  exists [], O, [], None. split; [exact (sim_init V_dec vid VS PM LM XM next starts scc_options no_skip None scc_cfg_ok lim)|]. constructor; [|reflexivity|reflexivity].
  exists (dm_empty XM). split; [reflexivity|intros ? ? ? []].
Qed.

Lemma lock_run n : forall os d out s, Rel os d out s ->
  match snd (run step n d) with
  | Running d' => exists s', snd (run scc_step n s) = Running s' /\ Rel (os ++ fst (run step n d)) d' (out ++ fst (run scc_step n s)) s'
  | Ended _ => exists s', snd (run scc_step n s) = Ended s' /\ exists log, dfs_log log (length starts) [] /\ all_expanded log /\ out ++ fst (run scc_step n s) = snd (tlog log)
  | Raised x _ => exists s', snd (run scc_step n s) = Raised x s' /\ x = RuntimeErrorLimit /\ exists log k open, dfs_log log k open /\ all_expanded log /\ out ++ fst (run scc_step n s) = snd (tlog log)
  end.
Proof.
  induction n as [|n IH]; intros os d out s HR.
  - cbn. exists s. rewrite !app_nil_r. auto.
  - cbn [run]. pose proof (scc_lock_step os d out s HR) as H. destruct (step d) as [o d'|o d'|o x d'].
    + destruct H as (cs & s' & -> & HR'). specialize (IH _ _ _ _ HR'). destruct (run step n d') as (os' & r). cbn [fst snd] in *. destruct (run scc_step n s') as (cs' & r'). cbn [fst snd] in *. rewrite <- !app_assoc in IH. exact IH.
    + destruct H as (s' & -> & _ & log & H1 & H2 & H3). cbn. exists s'. split; [reflexivity|]. exists log. rewrite app_nil_r. auto.
    + destruct H as (s' & -> & Hx). cbn. exists s'. split; [reflexivity|]. split; [exact Hx|]. destruct HR as (log & k & open & pend & HS & HL). destruct (sim_log _ _ _ _ _ _ HS) as (H1 & H2 & _). exists log, k, open. rewrite app_nil_r. split; [exact H1|]. split; [exact H2|exact (lk_out _ _ _ _ HL)].
Qed.

Lemma run_unlimited n : forall d, f_limit d = None -> match snd (run step n d) with Raised x _ => x <> RuntimeErrorLimit | _ => True end.
Proof.
  induction n as [|n IH]; intros d Hd; [exact I|]. cbn [run]. pose proof (step_unlimited d Hd) as H. destruct (step d) as [o d'|o d'|o x d']; [|exact I|exact H].
  specialize (IH d' H). destruct (run step n d') as (os' & r). exact IH.
Qed.

Theorem scc_any lim n out r : scc_run lim n = (out, r) -> exists log k open, dfs_log log k open /\ all_expanded log /\ out = snd (tlog log) /\
  match r with Running _ => True | Ended _ => k = length starts /\ open = [] | Raised x _ => x = RuntimeErrorLimit /\ lim <> None end.
Proof.
  unfold SCCModel.scc_run. intros HR. pose proof (lock_run n _ _ _ _ (rel_init lim)) as H. pose proof (run_unlimited n (dfs_start lim)) as HU. rewrite HR in H. cbn [fst snd app] in H. destruct (snd (run step n (dfs_start lim))) as [d|d|x d].
  - destruct H as (s & -> & log & k & open & pend & HS & HL). destruct (sim_log _ _ _ _ _ _ HS) as (H1 & H2 & _). exists log, k, open. split; [exact H1|]. split; [exact H2|]. split; [exact (lk_out _ _ _ _ HL)|exact I].
  - destruct H as (s & -> & log & H1 & H2 & H3). exists log, (length starts), []. auto.
  - destruct H as (s & -> & Hx & log & k & open & H1 & H2 & H3). exists log, k, open. split; [exact H1|]. split; [exact H2|]. split; [exact H3|]. split; [exact Hx|]. intros ->. exact (HU eq_refl Hx).
Qed.

Notation E := (edge_of next).
Lemma scc_presents : presents vid next E.
Proof. intros u v. reflexivity. Qed.
Lemma walk_avoiding (P : V -> Prop) u p v : (forall x, ~ P x) -> walk E u p v -> walk (avoiding E P) u p v.
Proof. intros HP. induction 1; econstructor; eauto. split; auto. Qed.
Lemma avoiding_walk (P : V -> Prop) u p v : walk (avoiding E P) u p v -> walk E u p v.
Proof. induction 1 as [|a b p c (H1 & _) Hw IH]; econstructor; eauto. Qed.

Theorem scc_correct lim n out r : scc_run lim n = (out, r) ->
  (forall C, In C out -> strongly_connected_component E C /\ forall v, In v C -> exists s, In s starts /\ leads E s v) /\
  NoDup (concat out) /\
  (forall a C b, out = a ++ C :: b -> forall u v, In u C -> E u v -> In v C \/ In v (concat a)) /\
  match r with
  | Running _ => True
  | Ended _ => forall s v, In s starts -> leads E s v -> In v (concat out)
  | Raised x _ => x = RuntimeErrorLimit /\ lim <> None
  end.
Proof.
  intros HR. destruct (scc_any lim n out r HR) as (log & k & open & Hlog & Hall & -> & Hr).
  destruct (tlog_components V_dec next starts log k open Hlog Hall) as (T1 & T2 & T3 & T4 & T5).
  split; [|split; [exact T2|split; [exact T3|]]].
  - intros C HC. split; [exact (T1 C HC)|]. intros v Hv. assert (He : entered_id vid log v) by (apply T4; apply in_concat; eauto).
    destruct (tree_reachable vid next starts (fun _ => False) E scc_presents log k open Hlog v He) as (s & p & (Hs & _) & Hp). unfold is_start in Hs. rewrite map_id in Hs. exists s. split; [exact Hs|]. exists p. eapply avoiding_walk; eassumption.
  - destruct r as [s0|s0|x s0]; [exact I| |exact Hr]. destruct Hr as (-> & ->). intros s v Hs (p & Hp). apply (T5 eq_refl).
    apply (tree_complete vid next starts (fun _ => False) E scc_presents log Hlog Hall).
    + intros i. pose proof (TI_holds V_dec next starts log _ _ Hlog Hall) as HT. destruct (in_dec V_dec i (map tv (fst (tlog log)) ++ concat (snd (tlog log)))) as [K|K]; rewrite in_app_iff in K; [left; apply (ti_entered _ _ _ _ _ HT); exact K|right; intros K'; apply (ti_entered _ _ _ _ _ HT) in K'; contradiction].
    + exists s, p. split; [split; [unfold is_start; rewrite map_id; exact Hs|tauto]|apply walk_avoiding; [tauto|exact Hp]].
Qed.

Theorem scc_terminates l : (forall s v, In s starts -> leads E s v -> In v l) -> forall lim, exists n out r, scc_run lim n = (out, r) /\ forall s, r <> Running s.
Proof.
  intros Hfin lim.
  destruct (dfs_tree_terminates V_dec vid VS PM LM XM next starts scc_options no_skip None eq_refl eq_refl scc_options eq_refl E l scc_presents) with (lim := lim) as (n & os & r & Hr & Hnr).
  { intros i (s & p & (Hs & _) & Hp). unfold is_start in Hs. rewrite map_id in Hs. apply (Hfin s i Hs). exists p. eapply avoiding_walk; eassumption. }
  exists n. destruct (scc_run lim n) as (out & r') eqn:HR. exists out, r'. split; [reflexivity|]. intros s ->.
  unfold SCCModel.scc_run in HR. pose proof (lock_run n _ _ _ _ (rel_init lim)) as H. rewrite HR in H. cbn [fst snd] in H.
  unfold dfs_traverse, dfs_run in Hr. cbn in Hr. destruct (run step n (dfs_start lim)) as (os' & [d|d|x d]) eqn:Er; cbn [snd] in H.
  - injection Hr as <- <-. exact (Hnr _ eq_refl).
  - destruct H as (s' & K & _). discriminate.
  - destruct H as (s' & K & _). discriminate.
Qed.
End SCCProofs.
