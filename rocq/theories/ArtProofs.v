(** The program for articulation points (ArtModel) and the algorithm along the log (ArtLog). *)
From Coq Require Import List Bool Arith ZArith Lia.
From Verif Require Import Machine GearSpec Common Spec TraversalSpec DFSModel DFSSpec DFSLog DFSLogMore DFSReports DFSProofs DFSMore SCCSpec SCCModel SCCLog SCCProofs ArtSpec ArtModel ArtLog.
Import ListNotations.
Open Scope Z_scope.

Section ArtProofs.
Context {V L : Type}.
Variable V_dec : forall a b : V, {a = b} + {a <> b}.
Variable VS : VSet V.
Variable PM : PMap V V.
Variable LM : PMap V L.
Variable XM : DMap V Z 0.
Variable next : V -> list (V * L).
Variable start : V.
Notation report := (@dfs_report V V L VS PM LM XM).
Notation state := (@dfs_state V V L VS PM LM XM).
Notation vid := (fun v : V => v).
Notation no_skip := (fun _ : nat => false).
Notation step := (dfs_step V_dec vid VS PM LM XM next art_options no_skip).
Notation Sim := (Sim V_dec vid VS PM LM XM next [start] art_options no_skip None).
Notation dfs_log := (dfs_log vid next [start] (PTree (fun _ => False))).
Notation log_t := (log_t V).
Notation alog := (alog V_dec start).
Notation art_all := (art_all V_dec VS PM LM XM).
Notation art_run := (art_run V_dec VS PM LM XM next start).
Notation E := (edge_of next).
Notation good_reports := (reports V_dec VS PM LM XM art_options no_skip (fun lg e p r => sees vid VS PM LM XM next [start] art_options None false lg e p r /\
  sees_trace vid VS PM LM XM next art_options None lg e p r)).
Hypothesis Hsym : undirected E.

Lemma art_all_app a b st : art_all (a ++ b) st = match art_all a st with None => None | Some (vs, st') => match art_all b st' with None => None | Some (vs', st'') => Some (vs ++ vs', st'') end end.
Proof.
  revert st. induction a as [|rep a IH]; intros st; cbn [app ArtModel.art_all].
  - destruct (art_all b st) as [(vs & st')|]; reflexivity.
  - destruct (art_handle V_dec (fr_event rep) (fr_vertex rep) (fr_trace rep) st) as [(vs & st1)|]; [|reflexivity]. rewrite IH. destruct (art_all a st1) as [(vs1 & st2)|]; [|reflexivity].
    destruct (art_all b st2) as [(vs2 & st3)|]; [|reflexivity]. rewrite app_assoc. reflexivity.
Qed.
Lemma reports_alog log os : good_reports log os -> art_all (rev os) art_init = alog log /\ all_expanded log.
Proof.
  induction 1 as [|log os e p H (IH1 & IH2) Hs Hb|log os e j v p rep H (IH1 & IH2) Hs Hne Hv Hsee Hb].
  - split; [reflexivity|intros q []].
  - split; [|intros q [K|K]; [injection K as -> <-; specialize (Hb false eq_refl); discriminate|exact (IH2 q K)]].
    cbn [ArtLog.alog]. rewrite IH1. destruct e as [b|  |kind| ].
    + exfalso. unfold shown, event_of in Hs. destruct (is_own_start V_dec p); discriminate.
    + exfalso. unfold shown, event_of in Hs. destruct (length p =? 1)%nat; discriminate.
    + discriminate.
    + destruct (alog log) as [(out & st)|]; reflexivity.
  - split; [|intros q [K|K]; [injection K as -> <-; specialize (Hb false eq_refl); discriminate|exact (IH2 q K)]].
    cbn [rev]. rewrite art_all_app, IH1. cbn [ArtLog.alog]. destruct (alog log) as [(out & st)|]; [|reflexivity]. cbn [ArtModel.art_all]. rewrite <- Hs, Hv, (st_trace _ _ _ _ _ _ _ _ _ _ _ _ (proj2 Hsee)).
    destruct e as [b|  |kind| ]; cbn [last_vertex]; [| | |cbn in Hs; congruence];
      match goal with |- context [art_handle ?a ?b ?c ?d ?f] => destruct (art_handle a b c d f) as [(vs & st')|]; [rewrite app_nil_r; reflexivity|reflexivity] end.
Qed.

Lemma art_cfg_ok : cfg_ok art_options false.
Proof. constructor; cbn; try tauto; try discriminate; intros [|]; discriminate. Qed.

Lemma art_unlimited d : f_limit d = None -> match step d with Go _ d' => f_limit d' = None | Halt _ d' => f_limit d' = None | Raise _ x _ => x <> RuntimeErrorLimit end.
Proof.
  destruct d as [pc sts st tv tvl mk vl tr trl ont ix0 tm dp ev vis pr lb lm ct cl]. cbn. intros ->. unfold dfs_step. cbn [f_pc f_starts f_markers].
  destruct pc as [|no_leaving].
  - destruct sts; reflexivity.
  - destruct mk as [|[|] m]; [reflexivity| |].
    + unfold dfs_leave. cbn. destruct tr as [|v t]; [discriminate|]. destruct m as [|b m]; [|destruct no_leaving]; reflexivity.
    + unfold dfs_pop. cbn. destruct tv as [|v q]; [discriminate|]. cbn. destruct (vs_mem VS v vis).
      * unfold dfs_revisit. cbn. destruct tr as [|u t]; reflexivity.
      * unfold dfs_visit, is_current_start. cbn. destruct tr as [|u t], st as [u0|]; cbn; try (destruct (V_dec v u0) as [e|e]; cbn); reflexivity.
Qed.

Lemma art_run_unlimited n : forall d, f_limit d = None -> match snd (run step n d) with Raised x _ => x <> RuntimeErrorLimit | _ => True end.
Proof.
  induction n as [|n IH]; intros d Hd; [exact I|]. cbn [run]. pose proof (art_unlimited d Hd) as H. destruct (step d) as [o d'|o d'|o x d']; [|exact I|exact H].
  specialize (IH d' H). destruct (run step n d') as (os' & r). exact IH.
Qed.

Theorem art_any lim n out r : art_run lim n = (out, r) ->
  exists log k open vs st, dfs_log log k open /\ all_expanded log /\ out = Some vs /\ AI V_dec next start log k open vs st /\
  match r with Running _ => True | Ended _ => k = 1%nat /\ open = [] | Raised x _ => x = RuntimeErrorLimit end.
Proof.
  unfold ArtModel.art_run. destruct (dfs_run V_dec vid VS PM LM XM next art_options no_skip [start] None lim n) as (os & r') eqn:HR. intros K. injection K as <- <-.
  pose proof (dfs_any V_dec vid VS PM LM XM next [start] art_options no_skip None art_cfg_ok lim n os r' HR) as H.
  assert (G : forall log k open, dfs_log log k open -> good_reports log (rev os) -> exists vs st, all_expanded log /\ option_map fst (art_all os art_init) = Some vs /\ AI V_dec next start log k open vs st).
  { intros log k open H1 H2. destruct (reports_alog log (rev os) H2) as (K1 & K2). rewrite rev_involutive in K1. destruct (AI_holds V_dec next start Hsym log k open H1 K2) as (vs & st & K3 & K4). exists vs, st. rewrite K1, K3. auto. }
  destruct r' as [d|d|x d].
  - destruct H as (log & k & open & pend & H1 & H2). destruct (G log k open H1 (sm_reports _ _ _ _ _ _ _ _ _ _ _ _ _ _ _ _ _ H2)) as (vs & st & K1 & K2 & K3). exists log, k, open, vs, st. auto.
  - destruct H as (log & H1 & H2). destruct (G log _ _ H1 (sm_reports _ _ _ _ _ _ _ _ _ _ _ _ _ _ _ _ _ H2)) as (vs & st & K1 & K2 & K3). exists log, 1%nat, [], vs, st. auto 10.
  - destruct H as (Hx & log & k & open & p & m & H1 & H2 & _). destruct (G _ _ _ H1 H2) as (vs & st & K1 & K2 & K3). exists ((LEnter true, p) :: log), k, ((p, m) :: open), vs, st. auto.
Qed.

Theorem art_correct lim n out r : art_run lim n = (out, r) ->
  exists vs, out = Some vs /\ (forall v, In v vs -> articulation_point E v /\ leads E start v) /\
  match r with
  | Running _ => True
  | Ended _ => forall v, articulation_point E v -> leads E start v -> In v vs
  | Raised x _ => x = RuntimeErrorLimit /\ lim <> None
  end.
Proof.
  intros HR. destruct (art_any lim n out r HR) as (log & k & open & vs & st & Hlog & Hall & -> & HA & Hr). exists vs. split; [reflexivity|]. split.
  - intros v Hv. destruct (ai_out _ _ _ _ _ _ _ _ HA v Hv) as (K1 & j & w & q & K2 & K3). cbn in K3. subst w. split; [exact K1|]. exact (entered_leads next start log k open Hlog q j v K2).
  - destruct r as [d|d|x d]; [exact I| |].
    + destruct Hr as (-> & ->). apply (alog_complete V_dec next start Hsym log vs st Hlog Hall HA). intros x (p & Hp).
      assert (K : entered_id vid log x).
      { apply (tree_complete vid next [start] (fun _ => False) E (scc_presents next) log Hlog Hall).
        - intros i. destruct (entered_dec V_dec log i) as [(j & q & K)|K]; [left; exists j, i, q; auto|right]. intros (j & w & q & K1 & K2). cbn in K2. subst w. apply K. eauto.
        - exists start, p. split; [split; [now left|tauto]|apply walk_avoiding; [tauto|exact Hp]]. }
      destruct K as (j & w & q & K1 & K2). cbn in K2. subst w. eauto.
    + split; [exact Hr|]. intros ->. unfold ArtModel.art_run in HR. destruct (dfs_run V_dec vid VS PM LM XM next art_options no_skip [start] None None n) as (os & r') eqn:HR'. injection HR as _ ->.
      unfold dfs_run in HR'. pose proof (art_run_unlimited n (dfs_init vid VS PM LM XM art_options [start] None None) eq_refl) as K. rewrite HR' in K. exact (K Hr).
Qed.

Theorem art_terminates l : (forall v, leads E start v -> In v l) -> forall lim, exists n out r, art_run lim n = (out, r) /\ forall s, r <> Running s.
Proof.
  intros Hfin lim.
  destruct (dfs_tree_terminates V_dec vid VS PM LM XM next [start] art_options no_skip None eq_refl eq_refl art_options eq_refl E l (scc_presents next)) with (lim := lim) as (n & os & r & Hr & Hnr).
  { intros i (s & p & (Hs & _) & Hp). destruct Hs as [<-|[]]. apply Hfin. exists p. eapply avoiding_walk; eassumption. }
  exists n. unfold ArtModel.art_run. unfold dfs_traverse in Hr. cbn in Hr. destruct (dfs_run V_dec vid VS PM LM XM next art_options no_skip [start] None lim n) as (os' & r'). injection Hr as _ <-. do 2 eexists. split; [reflexivity|]. intros s ->. exact (Hnr _ eq_refl).
Qed.
End ArtProofs.
