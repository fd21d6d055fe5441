(** The traversal without trace follows a depth-first search in the sense of DFSSpec. *)
From Coq Require Import List Bool Arith ZArith Lia.
From Verif Require Import Machine GearSpec Common Spec TraversalSpec DFSModel DFSSpec DFSLog DFSLogMore DFSReports DFSProofs DFSTerm.
Import ListNotations.

(** What the options grant, if the implementation without trace is used. *)
Lemma dfs_options_without_trace o av cfg : dfs_options o av = inl cfg -> dfs_uses_trace cfg = false ->
  dc_mode cfg = DFS_TREE /\ (forall ev, dc_report cfg ev = true -> ev = ENTERING_START \/ ev = ENTERING_SUCCESSOR).
Proof.
  unfold dfs_options, dfs_uses_trace. intros H Hu.
  repeat match type of H with (if ?c then _ else _) = _ => destruct c; [discriminate|] end. injection H as <-. cbn in *.
  apply orb_false_elim in Hu. destruct Hu as (Hu & Hm). split; [destruct (dc_mode o); auto; discriminate|].
  apply orb_false_elim in Hu. destruct Hu as (Hu & _). apply orb_false_elim in Hu. destruct Hu as (Hu & _).
  apply orb_false_elim in Hu. destruct Hu as (_ & Hu). rewrite negb_involutive in Hu.
  repeat (apply orb_false_elim in Hu; let H := fresh in destruct Hu as (Hu & H)).
  intros ev Hev. destruct ev; auto; congruence.
Qed.

Section DFSW.
Context {V I L : Type}.
Variable V_dec : forall a b : V, {a = b} + {a <> b}.
Variable vid : V -> I.
Variable VS : VSet I.
Variable PM : PMap I V.
Variable LM : PMap I L.
Variable XM : DMap I Z 0%Z.
Variable next : V -> list (V * L).
Variable starts : list V.
Variable cfg : dfs_cfg.
Variable skip : nat -> bool.
Variable av : option (vs_t VS).
Hypothesis Hmode : dc_mode cfg = DFS_TREE.
Hypothesis Hrep : forall ev, dc_report cfg ev = true -> ev = ENTERING_START \/ ev = ENTERING_SUCCESSOR.
Hypothesis Htree : dc_is_tree cfg = true -> av = None.

Notation report := (@dfs_report V I L VS PM LM XM).
Notation state := (@dfw_state V I L VS PM LM).
Notation node := (node V).
Notation log_t := (log_t V).
Notation pol := (dfs_policy VS cfg av).
Notation dfs_log := (dfs_log vid next starts pol).
Notation step := (dfw_step V_dec vid VS PM LM XM next cfg skip).
Notation init lim := (dfw_init vid VS PM LM cfg starts av lim).
Notation shown := (shown V_dec cfg).
Notation good := (reports V_dec VS PM LM XM cfg skip (sees vid VS PM LM XM next starts cfg av true)).

Lemma pol_cases : (dc_is_tree cfg = true /\ pol = PWalks) \/ (dc_is_tree cfg = false /\ pol = PTree (in_already_visited VS av)).
Proof. unfold dfs_policy. rewrite Hmode. destruct (dc_is_tree cfg); auto. Qed.

(** Ids that are not entered any more. *)
Definition closed (log : log_t) (a : I) : Prop :=
  match pol with PTree P => P a \/ entered_id vid log a | _ => entered_id vid log a end.

(** [waits p r ks]: [ks] are the positions by the edges with a number below [r], last first, without some that are closed. *)
Inductive waits (log : log_t) : node -> nat -> list node -> Prop :=
| wt_none p : waits log p 0 []
| wt_keep j u p r n l ks : nth_error (next u) r = Some (n, l) -> waits log ((j, u) :: p) r ks ->
    waits log ((j, u) :: p) (S r) (((r, n) :: (j, u) :: p) :: ks)
| wt_drop j u p r n l ks : nth_error (next u) r = Some (n, l) -> (exists P, pol = PTree P) -> closed log (vid n) -> waits log ((j, u) :: p) r ks ->
    waits log ((j, u) :: p) (S r) ks.

Definition no_enters (ext : log_t) : Prop := forall e p, In (e, p) ext -> no_enter e.

Lemma entered_ext (ext log : log_t) q : no_enters ext -> (entered (ext ++ log) q <-> entered log q).
Proof.
  intros H. split; intros (b & Hin); exists b; [|apply in_or_app; auto]. apply in_app_or in Hin. destruct Hin as [Hin|Hin]; auto.
  exfalso. exact (H _ _ Hin b eq_refl).
Qed.
Lemma entered_id_ext ext log a : no_enters ext -> (entered_id vid (ext ++ log) a <-> entered_id vid log a).
Proof. intros H. split; intros (j & v & q & He & E); exists j, v, q; split; auto; apply (entered_ext ext log _ H); auto. Qed.
Lemma closed_ext ext log a : no_enters ext -> (closed (ext ++ log) a <-> closed log a).
Proof. intros H. unfold closed. destruct pol; rewrite entered_id_ext; tauto. Qed.
Lemma enters_ext (ext log : log_t) : no_enters ext -> enters (ext ++ log) = enters log.
Proof.
  intros H. induction ext as [|(e & p) ext IH]; auto. cbn [app]. rewrite enters_other; [apply IH|].
  - intros e0 p0 Hin. apply (H e0 p0). right; auto.
  - apply (H e p). left; auto.
Qed.
Lemma calls_ext ext log : no_enters ext -> calls_of cfg (ext ++ log) = calls_of cfg log.
Proof.
  intros H. induction ext as [|(e & p) ext IH]; auto. cbn [app]. rewrite calls_other; [apply IH|].
  - intros e0 p0 Hin. apply (H e0 p0). right; auto.
  - apply (H e p). left; auto.
Qed.
Lemma closed_more log x a : closed log a -> closed (x :: log) a.
Proof. unfold closed. destruct pol; intros H; [destruct H as [H|H]; [left; auto|right]|..]; apply entered_id_cons; auto. Qed.
Lemma waits_more log log' p r ks : (forall a, closed log a -> closed log' a) -> waits log p r ks -> waits log' p r ks.
Proof. intros H. induction 1; [constructor|eapply wt_keep; eauto|eapply wt_drop; eauto]. Qed.

(** Events that are not reported *)
Lemma hidden e p : no_enter e -> shown e p = None.
Proof.
  intros Hn. unfold DFSReports.shown. destruct (event_of V_dec cfg e p) as [ev|] eqn:E; auto.
  destruct (dc_report cfg ev) eqn:Er; auto. exfalso. apply Hrep in Er. destruct e; cbn in E.
  - exact (Hn _ eq_refl).
  - injection E as <-. destruct (length p =? 1); destruct Er; discriminate.
  - destruct (dc_report cfg SOME_NON_TREE_EDGE) eqn:Es.
    + injection E as <-. destruct Er; discriminate.
    + destruct kind; [destruct (dc_report cfg BACK_EDGE)|..]; injection E as <-; destruct Er; discriminate.
  - injection E as <-. destruct Er; discriminate.
Qed.
Lemma good_ext ext log os : no_enters ext -> good log os -> good (ext ++ log) os.
Proof.
  intros H Hg. induction ext as [|(e & p) ext IH]; auto. cbn [app]. assert (Hn : no_enter e) by (apply (H e p); left; auto). apply rs_hidden.
  - apply IH. intros e0 p0 Hin. apply (H e0 p0). right; auto.
  - apply hidden; auto.
  - intros b ->. destruct (Hn b eq_refl).
Qed.

Lemma not_may_enter log p n : (exists P, pol = PTree P) -> closed log (vid n) -> ~ may_enter vid pol log p n.
Proof. intros (P & E). unfold closed. rewrite E. intros H (H1 & H2). tauto. Qed.

Lemma kind_of log p n : exists k, has_kind vid log p n k.
Proof. exact (kind_exists V_dec vid VS next skip log p n). Qed.

(** Closed positions are passed until the next waiting one. *)
Lemma pass_closed log0 p r ks : waits log0 p r ks -> forall log k o, (forall a, closed log0 a -> closed log a) -> dfs_log log k ((p, r) :: o) ->
  match ks with
  | [] => exists ext, no_enters ext /\ dfs_log (ext ++ log) k ((p, 0) :: o)
  | x :: ks' => exists ext i n, no_enters ext /\ x = (i, n) :: p /\ (exists j u q l, p = (j, u) :: q /\ nth_error (next u) i = Some (n, l)) /\
                  dfs_log (ext ++ log) k ((p, S i) :: o) /\ waits log0 p i ks'
  end.
Proof.
  induction 1 as [p|j u p r n l ks Hn Hw IH|j u p r n l ks Hn HP Hc Hw IH]; intros log k o Hcl Hl.
  - exists []. split; [intros e q []|exact Hl].
  - exists [], r, n. split; [intros e q []|]. split; auto. split; [exists j, u, p, l; auto|]. split; auto.
  - destruct (kind_of log ((j, u) :: p) n) as (kind & Hk).
    assert (Hl' : dfs_log ((LNonTree kind, (r, n) :: (j, u) :: p) :: log) k (((j, u) :: p, r) :: o)).
    { eapply dl_non_tree; eauto. apply not_may_enter; auto. }
    assert (Hgen : forall ext, no_enters ext -> no_enters (ext ++ [(LNonTree kind, (r, n) :: (j, u) :: p)])).
    { intros ext He e q Hin. apply in_app_or in Hin. destruct Hin as [Hin|[Hin|[]]]; [apply (He e q); auto|]. injection Hin as <- _. intros b; discriminate. }
    specialize (IH ((LNonTree kind, (r, n) :: (j, u) :: p) :: log) k o (fun a Ha => closed_more _ _ _ (Hcl a Ha)) Hl').
    destruct ks as [|x ks'].
    + destruct IH as (ext & He & Hx). exists (ext ++ [(LNonTree kind, (r, n) :: (j, u) :: p)]). rewrite <- app_assoc. auto.
    + destruct IH as (ext & i & m & He & Ex & Hj & Hx & Hy). exists (ext ++ [(LNonTree kind, (r, n) :: (j, u) :: p)]), i, m.
      rewrite <- app_assoc. auto.
Qed.

(** All vertices above the next waiting position are left. *)
Definition wmarks (ks : list node) : list bool := repeat false (length ks) ++ [true].

Lemma advance log0 : forall open kept, Forall2 (fun x ks => waits log0 (fst x) (snd x) ks) open kept ->
  forall log k, (forall a, closed log0 a -> closed log a) -> dfs_log log k open ->
  match concat kept with
  | [] => (exists ext, no_enters ext /\ dfs_log (ext ++ log) k []) /\
          (forall d, dfw_leave (flat_map wmarks kept) d = ([], (d - Z.of_nat (length open))%Z))
  | x :: items => exists ext i n p o kept', no_enters ext /\ x = (i, n) :: p /\
                  (exists j u q l, p = (j, u) :: q /\ nth_error (next u) i = Some (n, l)) /\
                  dfs_log (ext ++ log) k ((p, S i) :: o) /\ length o < length open /\ (exists r, In (p, r) open) /\
                  Forall2 (fun x ks => waits log0 (fst x) (snd x) ks) ((p, i) :: o) kept' /\ concat kept' = items /\
                  (forall d, dfw_leave (flat_map wmarks kept) d = (flat_map wmarks kept', (d - Z.of_nat (length open - S (length o)))%Z))
  end.
Proof.
  induction 1 as [|(p & r) ks open kept Hw HF IH]; intros log k Hcl Hl.
  - cbn. split; [exists []; split; [intros e q []|exact Hl]|]. intros d. f_equal. lia.
  - cbn [fst snd] in Hw. pose proof (pass_closed _ _ _ _ Hw log k open Hcl Hl) as Hp. cbn [concat]. destruct ks as [|x ks].
    + destruct Hp as (ext & He & Hl').
      assert (Hl2 : dfs_log ((LLeave, p) :: ext ++ log) k open) by (constructor; exact Hl').
      assert (Hcl2 : forall a, closed log0 a -> closed ((LLeave, p) :: ext ++ log) a).
      { intros a Ha. apply closed_more. apply closed_ext; auto. }
      assert (Hgen : forall e2, no_enters e2 -> no_enters (e2 ++ (LLeave, p) :: ext)).
      { intros e2 H2 e q Hin. apply in_app_or in Hin. destruct Hin as [Hin|[Hin|Hin]]; [apply (H2 e q); auto| |apply (He e q); auto].
        injection Hin as <- _. intros b; discriminate. }
      assert (Happ : forall e2, (e2 ++ (LLeave, p) :: ext) ++ log = e2 ++ (LLeave, p) :: ext ++ log) by (intros; rewrite <- app_assoc; reflexivity).
      specialize (IH _ k Hcl2 Hl2). cbn [app]. destruct (concat kept) as [|x items].
      * destruct IH as ((e2 & H2 & Hl3) & Hd). split.
        -- exists (e2 ++ (LLeave, p) :: ext). rewrite Happ. auto.
        -- intros d. cbn [flat_map wmarks length repeat app dfw_leave]. rewrite Hd. f_equal. cbn [length]. lia.
      * destruct IH as (e2 & i & n & q & o & kept' & H2 & Ex & Hj & Hl3 & Hlen & (r' & Hin) & HF' & Hc & Hd).
        exists (e2 ++ (LLeave, p) :: ext), i, n, q, o, kept'. rewrite Happ. repeat split; auto; [cbn; lia|exists r'; right; auto|].
        intros d. cbn [flat_map wmarks length repeat app dfw_leave]. rewrite Hd. f_equal. cbn [length]. lia.
    + destruct Hp as (ext & i & n & He & Ex & Hj & Hl' & Hw'). exists ext, i, n, p, open, (ks :: kept). repeat split; auto; [exists r; left; auto|].
      intros d. cbn [flat_map wmarks length repeat app dfw_leave]. f_equal. cbn [length]. rewrite Nat.sub_diag. cbn. lia.
Qed.

(** ** The state of the loop and the log *)
Definition vertex_of (p : node) : option V := match p with (_, v) :: _ => Some v | [] => None end.
Definition item_ids (items : list node) : list (option I) := map (fun p => match p with (_, v) :: _ => Some (vid v) | [] => None end) items.
Definition items_of (k : nat) (kept : list (list node)) (pend : option V) : list node :=
  match pend with Some v => [[(k, v)]] | None => concat kept end.
Definition unique_ids : Prop := match pol with PTree _ => marks_gaps PM | PPaths => False | PWalks => marks_gaps PM /\ tree_like vid next starts end.
Lemma unique_gaps : unique_ids -> marks_gaps PM.
Proof. unfold unique_ids. destruct pol; tauto. Qed.
Notation right_pred pred p := (pred_node vid PM pred p).
Notation right_label labels p := (dc_labeled cfg = true -> label_node vid LM next true labels p).

Record SW (log : log_t) (items : list node) (pred : pm_t PM) (labels : pm_t LM) : Prop := {
  sw_entered : forall q, entered log q -> right_pred pred q /\ right_label labels q;
  sw_items : forall l1 j v q l2, items = l1 ++ ((j, v) :: q) :: l2 -> ~ In (Some (vid v)) (item_ids l1) -> ~ closed log (vid v) ->
     right_pred pred ((j, v) :: q) /\ right_label labels ((j, v) :: q);
  sw_dom : forall a, pm_get PM a pred <> None -> closed log a \/ In (Some a) (item_ids items)
}.

Record WS (os : list report) (log : log_t) (k : nat) (open eopen : list (node * nat)) (kept : list (list node)) (pend : option V) (s : state) : Prop := {
  ws_pc : match w_pc s with
          | WStarts => open = [] /\ eopen = [] /\ pend = None
          | WLoop => eopen = open /\ (open <> [] -> w_event s = Some ENTERING_SUCCESSOR)
          | WEdges v rest => pend = None /\ exists j p o d, open = ((j, v) :: p, edge_count next v) :: o /\ eopen = ((j, v) :: p, length d) :: o /\
                 next v = d ++ rest /\ (dfw_is_start V_dec VS PM LM s v = false -> w_event s = Some ENTERING_SUCCESSOR)
          end;
  ws_pend : match pend with
            | Some v => open = [] /\ nth_error starts k = Some v /\ w_starts s = skipn (S k) starts /\ w_start s = Some v
            | None => w_starts s = skipn k starts
            end;
  ws_kept : Forall2 (fun x ks => waits log (fst x) (snd x) ks) eopen kept;
  ws_to_visit : map Some (w_to_visit s) = map vertex_of (items_of k kept pend);
  ws_markers : dc_compute_depth cfg = true -> w_markers s = match pend with Some _ => [false] | None => [] end ++ flat_map wmarks kept;
  ws_loop_depth : w_loop_depth s = if dc_compute_depth cfg then node_depth (top open) else (-1)%Z;
  ws_depth : dc_compute_depth cfg = false -> w_depth s = (-1)%Z;
  ws_start : forall s0 rest, rev (verts (top open)) = s0 :: rest -> w_start s = Some s0;
  ws_visited : match pol with
               | PTree P => forall a, vs_mem VS a (w_visited s) = true <-> P a \/ entered_id vid log a
               | _ => forall a, vs_mem VS a (w_visited s) = false
               end;
  ws_stored : dc_build_paths cfg = true -> unique_ids -> SW log (items_of k kept pend) (w_pred s) (w_labels s);
  ws_count : w_count s = length os;
  ws_calls : w_calls s = calls_of cfg log;
  ws_reports : good log (rev os)
}.

Definition SimW os log k open eopen kept pend s : Prop := dfs_log log k open /\ WS os log k open eopen kept pend s.

Lemma simw_init lim : SimW [] [] 0 [] [] [] None (init lim).
Proof.
  split; [constructor|]. constructor; cbn; auto.
  - destruct (dc_compute_depth cfg); reflexivity.
  - intros ->. reflexivity.
  - discriminate.
  - destruct pol_cases as [(Et & ->)|(Et & ->)]; rewrite Et; unfold define_visited, in_already_visited.
    + rewrite (Htree Et). intros a. apply vs_mem_empty.
    + intros a. destruct av as [x|]; cbn.
      * split; [auto|]. intros [H|H]; auto. destruct H as (? & ? & ? & (? & []) & _).
      * rewrite vs_mem_empty. split; [discriminate|]. intros [[]|H]. destruct H as (? & ? & ? & (? & []) & _).
  - intros Hb _. constructor.
    + intros q (b & []).
    + intros [|? ?]; discriminate.
    + intros a H. exfalso. apply H. rewrite Hb. simpl. apply pm_get_empty.
  - constructor.
Qed.

(** Nothing of the log that matters changes, if no vertex is entered. *)
Lemma SW_ext ext log items pred labels : no_enters ext -> SW log items pred labels -> SW (ext ++ log) items pred labels.
Proof.
  intros He [H1 H2 H3]. constructor.
  - intros q Hq. apply H1. apply (entered_ext ext log q He). exact Hq.
  - intros l1 j v q l2 E Hn Hc. eapply H2; eauto. intros Hx. apply Hc. apply closed_ext; auto.
  - intros a Ha. destruct (H3 a Ha) as [Hx|Hx]; auto. left. apply closed_ext; auto.
Qed.
Lemma visited_ext ext log (vis : vs_t VS) : no_enters ext ->
  match pol with PTree P => forall a, vs_mem VS a vis = true <-> P a \/ entered_id vid log a | _ => forall a, vs_mem VS a vis = false end ->
  match pol with PTree P => forall a, vs_mem VS a vis = true <-> P a \/ entered_id vid (ext ++ log) a | _ => forall a, vs_mem VS a vis = false end.
Proof. intros He H. destruct pol; auto. intros a. rewrite H, entered_id_ext; tauto. Qed.
Lemma waits_all_more log log' open kept : (forall a, closed log a -> closed log' a) ->
  Forall2 (fun x ks => waits log (fst x) (snd x) ks) open kept -> Forall2 (fun x ks => waits log' (fst x) (snd x) ks) open kept.
Proof. intros Hc. induction 1; constructor; auto. eapply waits_more; eauto. Qed.

(** A start vertex *)
Lemma simw_begin os log k eopen kept v rest s : SimW os log k [] eopen kept None s -> w_pc s = WStarts -> w_starts s = v :: rest ->
  SimW os log k [] [] [] (Some v) (dfw_begin vid VS PM LM cfg s v rest).
Proof.
  intros (Hl & H) Hpc Hs. split; auto. destruct H. rewrite Hpc in ws_pc0. destruct ws_pc0 as (_ & -> & _). cbn in ws_pend0.
  assert (Ek : kept = []) by (inversion ws_kept0; auto). subst kept. cbn in ws_to_visit0.
  rewrite ws_pend0 in Hs. apply skipn_nth_inv in Hs. destruct Hs as (Hn & Er).
  assert (Etv : w_to_visit s = []) by (apply map_eq_nil in ws_to_visit0; exact ws_to_visit0).
  constructor; cbn; auto.
  - split; auto. congruence.
  - rewrite Etv. reflexivity.
  - intros Hc. rewrite Hc. rewrite (ws_markers0 Hc). reflexivity.
  - discriminate.
  - intros Hb Hu. rewrite Hb, (marks_gaps_if PM (unique_gaps Hu)). specialize (ws_stored0 Hb Hu). destruct ws_stored0 as [S1 S2 S3]. cbn in S3.
    assert (Hdom : pm_get PM (vid v) (w_pred s) <> None -> closed log (vid v)) by (intros Hx; destruct (S3 _ Hx) as [Hy|[]]; auto).
    constructor.
    + intros q Hq. destruct (S1 q Hq) as (Hp & Hlb). split; auto. destruct (pm_get PM (vid v) (w_pred s)) eqn:Ep; auto.
      destruct q as [|(j & w) q]; [destruct Hp|]. assert (Hne : vid w <> vid v).
      { intros Ew. destruct q as [|(j2 & w2) q]; cbn in Hp; rewrite Ew, Ep in Hp; discriminate. }
      destruct q as [|(j2 & w2) q]; cbn in *; rewrite pm_get_set_other; auto.
    + intros l1 j w q l2 E Hn1 Hc. destruct l1 as [|y l1]; [|injection E as _ E; destruct l1; discriminate]. injection E as <- <- <- <-.
      split; [|intros _; exact Logic.I]. cbn. destruct (pm_get PM (vid v) (w_pred s)) eqn:Ep.
      * exfalso. apply Hc. apply Hdom. discriminate.
      * apply pm_get_set_same.
    + intros a Ha. cbn. destruct (pm_get PM (vid v) (w_pred s)) eqn:Ep.
      * destruct (S3 a Ha) as [Hy|[]]. auto.
      * destruct (vs_dec VS a (vid v)) as [->|Hne]; [right; left; reflexivity|]. rewrite pm_get_set_other in Ha by auto.
        destruct (S3 a Ha) as [Hy|[]]. auto.
Qed.

(** ** Edges *)
Lemma decide_visited os log k open eopen kept pend s n : WS os log k open eopen kept pend s ->
  (vs_mem VS (vid n) (w_visited s) = true <-> (exists P, pol = PTree P) /\ closed log (vid n)).
Proof.
  intros H. pose proof (ws_visited _ _ _ _ _ _ _ _ H) as Hv. unfold closed. destruct pol_cases as [(Et & Ep)|(Et & Ep)]; rewrite Ep in Hv |- *.
  - rewrite Hv. split; [discriminate|]. intros ((P & E) & _). discriminate.
  - rewrite Hv. split; [intros Hx; split; eauto|tauto].
Qed.

Lemma not_entered_tree log i v p : dnode next starts ((i, v) :: p) -> (forall q, entered log q -> dnode next starts q) ->
  ~ entered log ((i, v) :: p) -> tree_like vid next starts -> ~ entered_id vid log (vid v).
Proof.
  intros Hd Hds Hn Ht (j & w & q & He & E). apply Hn. rewrite <- (Ht _ _ _ _ _ _ (Hds _ He) Hd E). exact He.
Qed.

Lemma simw_edge_drop os log k open eopen kept s v n l rest : SimW os log k open eopen kept None s -> w_pc s = WEdges v ((n, l) :: rest) ->
  (negb (dc_is_tree cfg) || dc_build_paths cfg) && vs_mem VS (vid n) (w_visited s) = true ->
  exists eopen' kept', SimW os log k open eopen' kept' None (dfw_set VS PM LM s (WEdges v rest) (w_to_visit s) (w_markers s) (w_loop_depth s)).
Proof.
  intros (Hl & H) Hpc Hc. apply andb_prop in Hc. destruct Hc as (_ & Hc). apply (decide_visited _ _ _ _ _ _ _ _ n H) in Hc. destruct Hc as (HP & Hc).
  pose proof H as H0. destruct H0. rewrite Hpc in ws_pc0. destruct ws_pc0 as (_ & j & p & o & d & Eo & Ee & En & Hev).
  exists (((j, v) :: p, length (d ++ [(n, l)])) :: o), kept. split; auto. constructor; cbn; auto.
  - split; auto. exists j, p, o, (d ++ [(n, l)]). rewrite <- app_assoc. repeat split; auto.
  - rewrite Ee in ws_kept0. inversion ws_kept0 as [|? ks ? kept0 Hw HF]; subst. constructor; auto. cbn [fst snd] in *. rewrite app_length, Nat.add_comm. cbn.
    apply (wt_drop log j v p (length d) n l); auto. rewrite En, nth_error_app2, Nat.sub_diag; auto.
Qed.

Lemma simw_edge_push os log k open eopen kept s v n l rest : SimW os log k open eopen kept None s -> w_pc s = WEdges v ((n, l) :: rest) ->
  (negb (dc_is_tree cfg) || dc_build_paths cfg) && vs_mem VS (vid n) (w_visited s) = false ->
  exists eopen' kept', SimW os log k open eopen' kept' None (dfw_push vid VS PM LM cfg s v n l rest).
Proof.
  intros (Hl & H) Hpc Hc.
  pose proof H as H0. destruct H0. rewrite Hpc in ws_pc0. destruct ws_pc0 as (_ & j & p & o & d & Eo & Ee & En & Hev).
  rewrite Ee in ws_kept0. inversion ws_kept0 as [|x ks o' kept0 Hw HF E1 E2]. cbn [fst snd] in Hw.
  set (y := (length d, n) :: (j, v) :: p).
  assert (Hnth : nth_error (next v) (length d) = Some (n, l)) by (rewrite En, nth_error_app2, Nat.sub_diag; auto).
  assert (Hnc : unique_ids -> ~ closed log (vid n)).
  { unfold unique_ids. intros Hu. destruct pol_cases as [(Et & Ep)|(Et & Ep)].
    - unfold closed. rewrite Ep in Hu |- *. destruct Hu as (_ & Hu). apply (not_entered_tree log (length d) n ((j, v) :: p)); auto.
      + econstructor; [|exact Hnth]. eapply entered_dnode; [exact Hl|]. eapply open_entered; [exact Hl|]. rewrite Eo. left. reflexivity.
      + intros q Hq. eapply entered_dnode; eauto.
      + intros (b & Hb). pose proof (LogInv_holds _ _ _ _ _ _ _ Hl) as HI.
        assert (edge_count next v <= length d).
        { eapply (li_order _ _ _ _ _ HI); [exact Hb|]. rewrite Eo. left. reflexivity. }
        assert (length d < length (next v)) by (apply nth_error_Some; congruence). unfold edge_count in *. lia.
    - rewrite Et in Hc. cbn in Hc. intros Hx. assert (vs_mem VS (vid n) (w_visited s) = true) by (apply (decide_visited _ _ _ _ _ _ _ _ n H); split; eauto).
      congruence. }
  exists (((j, v) :: p, length (d ++ [(n, l)])) :: o), ((y :: ks) :: kept0). split; auto.
  assert (Eitems : items_of k ((y :: ks) :: kept0) None = y :: items_of k kept None) by (rewrite <- E2; reflexivity).
  constructor; cbn [w_pc w_starts w_start w_to_visit w_markers w_loop_depth w_depth w_event w_visited w_pred w_labels w_limit w_count w_calls dfw_push]; auto.
  - split; auto. exists j, p, o, (d ++ [(n, l)]). rewrite <- app_assoc. repeat split; auto.
  - constructor; auto. cbn [fst snd]. rewrite app_length, Nat.add_comm. cbn. eapply wt_keep; eauto.
  - rewrite Eitems. cbn [map]. rewrite ws_to_visit0. reflexivity.
  - intros Hcd. rewrite Hcd, (ws_markers0 Hcd), <- E2. reflexivity.
  - intros Hb Hu. rewrite Hb, Eitems. specialize (ws_stored0 Hb Hu). specialize (Hnc Hu). destruct ws_stored0 as [S1 S2 S3].
    assert (Ho : forall j0 w q, vid w <> vid n -> right_pred (w_pred s) ((j0, w) :: q) /\ right_label (w_labels s) ((j0, w) :: q) ->
       right_pred (pm_set PM (vid n) v (w_pred s)) ((j0, w) :: q) /\ right_label (if true && dc_labeled cfg then pm_set LM (vid n) l (w_labels s) else w_labels s) ((j0, w) :: q)).
    { intros j0 w q Hne (Hp & Hlb). split.
      - destruct q as [|(j2 & w2) q]; cbn in *; rewrite pm_get_set_other; auto.
      - intros Hx. rewrite Hx. cbn. specialize (Hlb Hx). destruct q as [|(j2 & w2) q]; cbn in *; auto.
        destruct Hlb as (l0 & E & Hy). exists l0. split; auto. rewrite pm_get_set_other; auto. }
    constructor.
    + intros q Hq. destruct q as [|(j0 & w) q]; [destruct (proj1 (S1 _ Hq))|]. apply Ho; auto. intros Ew. apply Hnc. unfold closed.
      assert (entered_id vid log (vid n)) by (exists j0, w, q; auto). destruct pol; auto.
    + intros l1 j0 w q l2 E Hn1 Hcl. destruct l1 as [|z l1].
      * injection E as <- <- <- _. split; [cbn; apply pm_get_set_same|]. intros Hx. rewrite Hx. cbn. exists l. split; [apply pm_get_set_same|]. intros _. exact Hnth.
      * injection E as <- E. cbn in Hn1. apply Ho; [|eapply S2; eauto]. intros Ew. apply Hn1. left. rewrite Ew. reflexivity.
    + intros a Ha. destruct (vs_dec VS a (vid n)) as [->|Hne]; [right; left; reflexivity|]. rewrite pm_get_set_other in Ha by auto.
      destruct (S3 a Ha) as [Hx|Hx]; [left; auto|right; right; auto].
Qed.

Lemma simw_edge_end os log k open eopen kept s v : SimW os log k open eopen kept None s -> w_pc s = WEdges v [] ->
  SimW os log k open open kept None (dfw_continue V_dec VS PM LM s v 0).
Proof.
  intros (Hl & H) Hpc. destruct H. rewrite Hpc in ws_pc0. destruct ws_pc0 as (_ & j & p & o & d & Eo & Ee & En & Hev).
  rewrite app_nil_r in En. split; auto. constructor; cbn; auto.
  - split; auto. intros _. destruct (dfw_is_start V_dec VS PM LM s v); auto.
  - rewrite Eo. rewrite Ee, <- En in ws_kept0. exact ws_kept0.
  - lia.
Qed.

(** ** Entering a vertex *)
Section VisitW.
Variables (os : list report) (log : log_t) (k : nat) (open : list (node * nat)) (kept : list (list node)) (s : state) (i : nat) (v : V).
Notation p' := ((i, v) :: top open).
Hypothesis Hl : forall b, dfs_log ((LEnter b, p') :: log) k ((p', if b then edge_count next v else 0) :: open).
Hypothesis Hme : may_enter vid pol log (top open) v.
Hypothesis Hkept : Forall2 (fun x ks => waits log (fst x) (snd x) ks) open kept.
Hypothesis Htv : map Some (w_to_visit s) = map vertex_of (concat kept).
Hypothesis Hm : dc_compute_depth cfg = true -> w_markers s = flat_map wmarks kept.
Hypothesis Hld : w_loop_depth s = if dc_compute_depth cfg then node_depth (top open) else (-1)%Z.
Hypothesis Hd : dc_compute_depth cfg = false -> w_depth s = (-1)%Z.
Hypothesis Hpend : w_starts s = skipn k starts.
Hypothesis Hroot : top open = [] -> w_start s = Some v.
Hypothesis Hstart : forall s0 rest, rev (verts (top open)) = s0 :: rest -> w_start s = Some s0.
Hypothesis Hev : top open <> [] -> w_event s = Some ENTERING_SUCCESSOR.
Hypothesis Hvis : match pol with
               | PTree P => forall a, vs_mem VS a (w_visited s) = true <-> P a \/ entered_id vid log a
               | _ => forall a, vs_mem VS a (w_visited s) = false
               end.
Hypothesis Hst : dc_build_paths cfg = true -> unique_ids -> SW log (p' :: concat kept) (w_pred s) (w_labels s).
Hypothesis Hcount : w_count s = length os.
Hypothesis Hcalls : w_calls s = calls_of cfg log.
Hypothesis Hreports : good log (rev os).
Notation s2 := (dfw_enter V_dec vid VS PM LM cfg s v).

Lemma vw_start : forall s0 rest, rev (verts p') = s0 :: rest -> w_start s = Some s0.
Proof.
  intros s0 rest E. destruct (top open) as [|y q] eqn:Et.
  - cbn in E. injection E as <- _. auto.
  - destruct (rev_verts_cons (i, v) (y :: q)) as (s1 & r1 & E1 & E2); [discriminate|]. rewrite E2 in E. injection E as <- _.
    eapply Hstart. exact E1.
Qed.
Lemma vw_event : dfw_is_start V_dec VS PM LM s v = is_own_start V_dec p'.
Proof.
  unfold is_own_start, dfw_is_start. destruct (rev (verts p')) as [|s0 rest] eqn:E.
  - apply (f_equal (@length _)) in E. rewrite rev_length in E. cbn in E. lia.
  - rewrite (vw_start s0 rest E). reflexivity.
Qed.
Lemma vw_fresh : unique_ids -> ~ closed log (vid v).
Proof.
  unfold unique_ids. intros Hu. pose proof Hme as Hmm. unfold closed. destruct pol_cases as [(Et & Ep)|(Et & Ep)]; rewrite Ep in *.
  - destruct Hu as (_ & Hu). apply (not_entered_tree log i v (top open)); auto.
    + eapply entered_dnode; [apply (Hl true)|]. exists true. left. reflexivity.
    + intros q Hq. eapply entered_dnode; [apply (Hl true)|]. apply entered_cons. exact Hq.
    + intros He. pose proof (LogInv_holds _ _ _ _ _ _ _ (Hl true)) as HI. pose proof (li_nodup _ _ _ _ _ HI) as ND. cbn in ND.
      inversion ND as [|? ? Hn _]. apply Hn. apply entered_arrival. exact He.
  - cbn in Hmm. tauto.
Qed.
Lemma vw_stored b : dc_build_paths cfg = true -> unique_ids -> SW ((LEnter b, p') :: log) (concat kept) (w_pred s) (w_labels s).
Proof.
  intros Hb Hu. destruct (Hst Hb Hu) as [S1 S2 S3]. pose proof (vw_fresh Hu) as Hf.
  assert (Hcl : forall a, closed ((LEnter b, p') :: log) a <-> vid v = a \/ closed log a).
  { intros a. unfold closed. destruct pol; rewrite entered_id_enter; tauto. }
  constructor.
  - intros q (b0 & [E|Hq]).
    + injection E as <- <-. apply (S2 [] i v (top open) (concat kept)); auto.
    + apply S1. exists b0. exact Hq.
  - intros l1 j w q l2 E Hn Hc. rewrite Hcl in Hc. apply (S2 (p' :: l1) j w q l2); auto.
    + rewrite E. reflexivity.
    + cbn. intros [Ew|Hin]; auto. injection Ew as Ew. auto.
  - intros a Ha. rewrite Hcl. destruct (S3 a Ha) as [Hx|[Hx|Hx]]; auto. injection Hx as Hx. auto.
Qed.
Lemma vw_visited b : match pol with
               | PTree P => forall a, vs_mem VS a (w_visited s2) = true <-> P a \/ entered_id vid ((LEnter b, p') :: log) a
               | _ => forall a, vs_mem VS a (w_visited s2) = false
               end.
Proof.
  pose proof Hvis as Hv. cbn [dfw_enter w_visited]. destruct pol_cases as [(Et & Ep)|(Et & Ep)]; rewrite Ep in *; rewrite Et; auto.
  intros a. rewrite vs_mem_add, Hv, entered_id_enter. intuition.
Qed.
Lemma vw_depth : w_depth s2 = if dc_compute_depth cfg then node_depth p' else (-1)%Z.
Proof.
  cbn [dfw_enter w_depth]. pose proof Hd as Hd'. rewrite Hld. destruct (dc_compute_depth cfg); auto. unfold node_depth. cbn [length]. lia.
Qed.

Notation show := (dc_report cfg (if dfw_is_start V_dec VS PM LM s v then ENTERING_START else ENTERING_SUCCESSOR)).
Notation o := (if show then [dfw_observe VS PM LM XM v s2] else []).

Lemma vw_reports b : b = negb (show && skip (w_count s)) -> good ((LEnter b, p') :: log) (rev (os ++ o)).
Proof.
  intros Eb. assert (Esh : shown (LEnter b) p' = if show then Some (if dfw_is_start V_dec VS PM LM s v then ENTERING_START else ENTERING_SUCCESSOR) else None).
  { unfold DFSReports.shown, event_of. rewrite <- vw_event. reflexivity. }
  assert (Hevent : w_event s2 = Some (if dfw_is_start V_dec VS PM LM s v then ENTERING_START else ENTERING_SUCCESSOR)).
  { cbn. destruct (dfw_is_start V_dec VS PM LM s v) eqn:Es; auto. apply Hev. intros Et. unfold dfw_is_start in Es. rewrite (Hroot Et) in Es.
    destruct (V_dec v v); congruence. }
  destruct show eqn:Er.
  - rewrite rev_app_distr. cbn [rev app]. apply rs_shown; auto.
    + rewrite Esh. cbn [dfw_observe fr_event]. rewrite Hevent. reflexivity.
    + cbn [dfw_observe fr_event]. rewrite Hevent. discriminate.
    + constructor.
      * cbn [dfw_observe fr_depth current]. apply vw_depth.
      * cbn [dfw_observe fr_visited]. pose proof (vw_visited b) as Hx. destruct pol; auto.
      * intros Hb Hg. cbn [dfw_observe fr_pred fr_labels]. pose proof (vw_stored b Hb) as Hx. unfold unique_ids in Hx.
        destruct pol_cases as [(Et & Ep)|(Et & Ep)]; rewrite Ep in Hx |- *.
        -- intros Ht. apply (sw_entered _ _ _ _ (Hx (conj Hg Ht))).
        -- apply (sw_entered _ _ _ _ (Hx Hg)).
    + intros b0 E. injection E as <-. rewrite Eb, Hcount, rev_length. reflexivity.
  - rewrite app_nil_r. apply rs_hidden; auto. intros b0 E. injection E as <-. exact Eb.
Qed.

Lemma simw_visit :
  (exists o' s' b eopen kept', dfw_visit V_dec vid VS PM LM XM next cfg skip s v = Go o' s' /\
     SimW (os ++ o') ((LEnter b, p') :: log) k ((p', if b then edge_count next v else 0) :: open) eopen kept' None s') \/
  (exists o' s', dfw_visit V_dec vid VS PM LM XM next cfg skip s v = Raise o' RuntimeErrorLimit s' /\
     dfs_log ((LEnter true, p') :: log) k ((p', edge_count next v) :: open) /\
     good ((LEnter true, p') :: log) (rev (os ++ o')) /\ w_calls s' = calls_of cfg log).
Proof.
  assert (Hkept' : forall b, Forall2 (fun x ks => waits ((LEnter b, p') :: log) (fst x) (snd x) ks) ((p', 0) :: open) ([] :: kept)).
  { intros b. constructor; [constructor|]. eapply waits_all_more; [|exact Hkept]. intros a. apply closed_more. }
  assert (Hcnt : w_count s + length o = length (os ++ o)) by (rewrite app_length, Hcount; reflexivity).
  assert (Hm2 : dc_compute_depth cfg = true -> w_markers s2 = flat_map wmarks ([] :: kept)).
  { intros Hc. cbn. rewrite Hc, (Hm Hc). reflexivity. }
  assert (Hld2 : w_loop_depth s2 = if dc_compute_depth cfg then node_depth p' else (-1)%Z).
  { cbn [dfw_enter w_loop_depth]. rewrite Hld. destruct (dc_compute_depth cfg); auto. unfold node_depth. cbn [length]. lia. }
  assert (Hd2 : dc_compute_depth cfg = false -> w_depth s2 = (-1)%Z) by (intros Hc; rewrite vw_depth, Hc; reflexivity).
  unfold dfw_visit. destruct (show && skip (w_count s)) eqn:Esk.
  - left. exists o, (dfw_continue V_dec VS PM LM s2 v (length o)), false, ((p', 0) :: open), ([] :: kept). split; [reflexivity|]. split; [apply (Hl false)|].
    constructor; cbn [dfw_continue w_pc w_starts w_start w_to_visit w_markers w_loop_depth w_depth w_event w_visited w_pred w_labels w_limit w_count w_calls]; auto.
    + split; auto. intros _. change (dfw_is_start V_dec VS PM LM s2 v) with (dfw_is_start V_dec VS PM LM s v).
      destruct (dfw_is_start V_dec VS PM LM s v) eqn:Es; auto. cbn [dfw_enter w_event]. rewrite Es. apply Hev. intros Et. unfold dfw_is_start in Es. rewrite (Hroot Et) in Es.
      destruct (V_dec v v); congruence.
    + exact vw_start.
    + apply vw_visited.
    + apply vw_stored.
    + apply vw_reports. rewrite Esk. reflexivity.
  - destruct (limit_check (w_limit s2)) as [lim|].
    + left. exists o, (dfw_expand VS PM LM next s2 v lim (length o)), true, ((p', 0) :: open), ([] :: kept). split; [reflexivity|]. split; [apply (Hl true)|].
      constructor; cbn [dfw_expand w_pc w_starts w_start w_to_visit w_markers w_loop_depth w_depth w_event w_visited w_pred w_labels w_limit w_count w_calls]; auto.
      * split; auto. exists i, (top open), open, []. repeat split; auto. intros Es. change (dfw_is_start V_dec VS PM LM s v = false) in Es.
        cbn [dfw_enter w_event]. rewrite Es. apply Hev. intros Et. unfold dfw_is_start in Es. rewrite (Hroot Et) in Es. destruct (V_dec v v); congruence.
      * exact vw_start.
      * apply vw_visited.
      * apply vw_stored.
      * cbn [dfw_enter w_calls]. rewrite Hcalls. unfold calls_of. cbn [flat_map app]. rewrite <- vw_depth. reflexivity.
      * apply vw_reports. rewrite Esk. reflexivity.
    + right. exists o, s2. split; [reflexivity|]. split; [apply (Hl true)|]. split; [|exact Hcalls].
      apply vw_reports. rewrite Esk. reflexivity.
Qed.
End VisitW.

Lemma SW_pop_closed log j v q items pred labels : closed log (vid v) -> SW log (((j, v) :: q) :: items) pred labels -> SW log items pred labels.
Proof.
  intros Hc [S1 S2 S3]. constructor; auto.
  - intros l1 j0 w q0 l2 E Hn Hcl. apply (S2 (((j, v) :: q) :: l1) j0 w q0 l2); auto.
    + rewrite E. reflexivity.
    + cbn. intros [Ew|Hin]; auto. injection Ew as Ew. apply Hcl. rewrite <- Ew. exact Hc.
  - intros a Ha. destruct (S3 a Ha) as [Hx|[Hx|Hx]]; auto. injection Hx as <-. auto.
Qed.

Lemma open_depth log k p r o : dfs_log log k ((p, r) :: o) -> node_depth p = Z.of_nat (length o).
Proof. intros H. apply dl_chain in H. unfold node_depth. rewrite (chain_length _ H p r o eq_refl). cbn [length]. lia. Qed.

Lemma may_enter_open log p n : (dc_is_tree cfg = false -> ~ closed log (vid n)) -> may_enter vid pol log p n.
Proof.
  intros H. destruct pol_cases as [(Et & Ep)|(Et & Ep)]; rewrite Ep; cbn; auto. specialize (H Et). unfold closed in H. rewrite Ep in H. tauto.
Qed.

Definition WAfter (s : state) (os : list report) (log : log_t) (res : step_result state report exn) : Prop :=
  match res with
  | Go o s' => exists log' k' open' eopen' kept' pend', SimW (os ++ o) log' k' open' eopen' kept' pend' s' /\
      (exists ext, log' = ext ++ log /\ (w_pc s = WLoop -> w_to_visit s <> [] -> ext <> []))
  | Halt o s' => False
  | Raise o x s' => x = RuntimeErrorLimit /\
      (exists log' k' open' i v, dfs_log ((LEnter true, (i, v) :: top open') :: log') k' (((i, v) :: top open', edge_count next v) :: open') /\
         good ((LEnter true, (i, v) :: top open') :: log') (rev (os ++ o)) /\ w_calls s' = calls_of cfg log')
  end.

Lemma simw_loop_start os log k eopen kept v s : SimW os log k [] eopen kept (Some v) s -> w_pc s = WLoop -> WAfter s os log (step s).
Proof.
  intros (Hl & H) Hpc. unfold dfw_step. rewrite Hpc.
  pose proof H as H0. destruct H0. rewrite Hpc in ws_pc0. destruct ws_pc0 as (Ee & _). cbn in ws_pend0. destruct ws_pend0 as (_ & Hk & Hrest & Hs0).
  subst eopen. assert (Ek : kept = []) by (inversion ws_kept0; auto). subst kept. cbn in ws_to_visit0.
  destruct (w_to_visit s) as [|v0 [|? ?]] eqn:Etv; try discriminate ws_to_visit0. injection ws_to_visit0 as ->.
  set (md := if dc_compute_depth cfg then dfw_leave (w_markers s) (w_loop_depth s) else (w_markers s, w_loop_depth s)).
  assert (Emd : exists m, md = (m, w_loop_depth s) /\ (dc_compute_depth cfg = true -> m = [])).
  { unfold md. destruct (dc_compute_depth cfg) eqn:Ec; [rewrite (ws_markers0 eq_refl); cbn|]; eexists; split; try reflexivity; auto; discriminate. }
  destruct Emd as (m & -> & Hm). cbv zeta.
  set (s1 := dfw_set VS PM LM s WLoop [] m (w_loop_depth s)).
  assert (Hdec : vs_mem VS (vid v) (w_visited s1) = true <-> (exists P, pol = PTree P) /\ closed log (vid v)) by (apply (decide_visited _ _ _ _ _ _ _ _ v H)).
  destruct (negb (dc_is_tree cfg) && vs_mem VS (vid v) (w_visited s1)) eqn:Ed.
  - apply andb_prop in Ed. destruct Ed as (_ & Ed). apply Hdec in Ed. destruct Ed as (HP & Hc).
    exists ((LSkipStart, [(k, v)]) :: log), (S k), [], [], [], None.
    assert (Hne : no_enters [(LSkipStart, [(k, v)])]) by (intros e q [E|[]]; injection E as <- _; intros b; discriminate).
    split; [|exists [(LSkipStart, [(k, v)])]; split; [reflexivity|discriminate]]. split; [apply dl_skip_start; auto; apply not_may_enter; auto|].
    rewrite app_nil_r. change ((LSkipStart, [(k, v)]) :: log) with ([(LSkipStart, [(k, v)])] ++ log).
    constructor; cbn [s1 dfw_set w_pc w_starts w_start w_to_visit w_markers w_loop_depth w_depth w_event w_visited w_pred w_labels w_limit w_count w_calls]; auto.
    + split; auto. congruence.
    + apply visited_ext; auto.
    + intros Hb Hu. apply SW_ext; auto. apply (SW_pop_closed log k v [] []); auto.
    + apply good_ext; auto.
  - assert (Hme : may_enter vid pol log [] v).
    { apply may_enter_open. intros Et Hc. rewrite Et in Ed. cbn [negb andb] in Ed. assert (Hx : vs_mem VS (vid v) (w_visited s1) = true).
      { apply Hdec. split; auto. destruct pol_cases as [(E1 & _)|(_ & E2)]; [congruence|eauto]. }
      congruence. }
    destruct (simw_visit os log (S k) [] [] s1 k v) as [(o & s' & b & eo & kp & -> & Hs)|(o & s' & -> & Hs1 & Hs2 & Hs3)]; auto.
    + intros b. apply dl_enter_start; auto.
    + cbn. congruence.
    + eexists. eexists. eexists. exists eo, kp, None. split; [exact Hs|]. exists [(LEnter b, [(k, v)])]. split; [reflexivity|discriminate].
    + split; auto. exists log, (S k), [], k, v. auto.
Qed.

Lemma simw_loop os log k open eopen kept s : SimW os log k open eopen kept None s -> w_pc s = WLoop -> WAfter s os log (step s).
Proof.
  intros (Hl & H) Hpc. unfold dfw_step. rewrite Hpc.
  pose proof H as H0. destruct H0. rewrite Hpc in ws_pc0. destruct ws_pc0 as (Ee & Hev). cbn in ws_pend0. subst eopen. cbn in ws_to_visit0.
  pose proof (advance log open kept ws_kept0 log k (fun a Ha => Ha) Hl) as Ha.
  set (md := if dc_compute_depth cfg then dfw_leave (w_markers s) (w_loop_depth s) else (w_markers s, w_loop_depth s)).
  destruct (concat kept) as [|x items] eqn:Ec.
  - destruct Ha as ((ext & He & Hl') & Hd).
    destruct (w_to_visit s) as [|? ?] eqn:Etv; [|discriminate].
    assert (Emd : exists m d, md = (m, d) /\ (dc_compute_depth cfg = true -> m = []) /\ d = if dc_compute_depth cfg then (-1)%Z else (-1)%Z).
    { unfold md. rewrite ws_loop_depth0. destruct (dc_compute_depth cfg) eqn:Ecd.
      - rewrite (ws_markers0 eq_refl). cbn [app]. rewrite Hd. eexists. eexists. split; [reflexivity|]. split; auto.
        destruct open as [|(p & r) o]; [reflexivity|]. cbn [top]. rewrite (open_depth _ _ _ _ _ Hl). cbn [length]. lia.
      - eexists. eexists. split; [reflexivity|]. split; [discriminate|reflexivity]. }
    destruct Emd as (m & d & -> & Hm & ->). cbv zeta.
    exists (ext ++ log), k, [], [], [], None. split; [|exists ext; split; [reflexivity|rewrite Etv; congruence]]. split; [exact Hl'|]. rewrite app_nil_r.
    constructor; cbn [dfw_set w_pc w_starts w_start w_to_visit w_markers w_loop_depth w_depth w_event w_visited w_pred w_labels w_limit w_count w_calls]; auto.
    + discriminate.
    + apply visited_ext; auto.
    + intros Hb Hu. apply SW_ext; auto. specialize (ws_stored0 Hb Hu). unfold items_of in ws_stored0. rewrite Ec in ws_stored0. exact ws_stored0.
    + rewrite calls_ext; auto.
    + apply good_ext; auto.
  - destruct Ha as (ext & i & n & p & o & kept' & He & -> & (j & u & q & l & Ep & Hn) & Hl' & Hlen & (r' & Hin) & HF & Hck & Hd).
    destruct (w_to_visit s) as [|n0 tv] eqn:Etv; [discriminate|]. cbn in ws_to_visit0. injection ws_to_visit0 as -> Htv.
    assert (Emd : exists m d, md = (m, d) /\ (dc_compute_depth cfg = true -> m = flat_map wmarks kept') /\
                  d = if dc_compute_depth cfg then node_depth p else (-1)%Z).
    { unfold md. rewrite ws_loop_depth0. destruct (dc_compute_depth cfg) eqn:Ecd.
      - rewrite (ws_markers0 eq_refl). cbn [app]. rewrite Hd. eexists. eexists. split; [reflexivity|]. split; auto.
        rewrite (open_depth _ _ _ _ _ Hl'). destruct open as [|(p0 & r0) o0]; [cbn in Hlen; lia|]. cbn [top]. rewrite (open_depth _ _ _ _ _ Hl). cbn [length] in *. unfold DFSSpec.node in *. lia.
      - eexists. eexists. split; [reflexivity|]. split; [discriminate|reflexivity]. }
    destruct Emd as (m & d & -> & Hm & Ed). cbv zeta.
    set (s1 := dfw_set VS PM LM s WLoop tv m d).
    set (log1 := ext ++ log) in *.
    assert (Hne : open <> []) by (intros ->; cbn in Hlen; lia).
    assert (Hdec : vs_mem VS (vid n) (w_visited s1) = true <-> (exists P, pol = PTree P) /\ closed log1 (vid n)).
    { unfold log1. rewrite closed_ext by auto. apply (decide_visited _ _ _ _ _ _ _ _ n H). }
    assert (HF1 : Forall2 (fun x ks => waits log1 (fst x) (snd x) ks) ((p, i) :: o) kept').
    { eapply waits_all_more; [|exact HF]. intros a. apply closed_ext; auto. }
    assert (Hst1 : dc_build_paths cfg = true -> unique_ids -> SW log1 (((i, n) :: p) :: concat kept') (w_pred s) (w_labels s)).
    { intros Hb Hu. apply SW_ext; auto. specialize (ws_stored0 Hb Hu). unfold items_of in ws_stored0. rewrite Ec in ws_stored0. rewrite Hck. exact ws_stored0. }
    assert (Hvis1 := visited_ext ext log _ He ws_visited0). fold log1 in Hvis1.
    assert (Hcalls1 : w_calls s = calls_of cfg log1) by (unfold log1; rewrite calls_ext; auto).
    assert (Hgood1 : good log1 (rev os)) by (apply good_ext; auto).
    assert (Hstart1 : forall s0 rest, rev (verts p) = s0 :: rest -> w_start s = Some s0).
    { (* the start vertex of the walk stays *)
      intros s0 rest E. destruct open as [|(p0 & r0) o0]; [congruence|].
      assert (Hsuf : exists dd, p0 = dd ++ p).
      { destruct (chain_suffix _ (dl_chain _ _ _ _ _ _ _ Hl) p0 r0 o0 eq_refl p r' Hin) as [->|(dd & _ & ->)]; [exists []; reflexivity|eauto]. }
      destruct Hsuf as (dd & ->). eapply (ws_start0 s0). cbn [top]. unfold verts in *. rewrite map_app, rev_app_distr, E. reflexivity. }
    destruct (negb (dc_is_tree cfg) && vs_mem VS (vid n) (w_visited s1)) eqn:Edd.
    + apply andb_prop in Edd. destruct Edd as (_ & Edd). apply Hdec in Edd. destruct Edd as (HP & Hc).
      destruct (kind_of log1 p n) as (kind & Hkind).
      assert (Hn1 : no_enters [(LNonTree kind, (i, n) :: p)]) by (intros e q0 [E|[]]; injection E as <- _; intros b; discriminate).
      exists ((LNonTree kind, (i, n) :: p) :: log1), k, ((p, i) :: o), ((p, i) :: o), kept', None.
      split; [|exists ((LNonTree kind, (i, n) :: p) :: ext); split; [reflexivity|discriminate]].
      split; [subst p; eapply dl_non_tree; eauto; apply not_may_enter; auto|].
      rewrite app_nil_r. change ((LNonTree kind, (i, n) :: p) :: log1) with ([(LNonTree kind, (i, n) :: p)] ++ log1).
      constructor; cbn [s1 dfw_set w_pc w_starts w_start w_to_visit w_markers w_loop_depth w_depth w_event w_visited w_pred w_labels w_limit w_count w_calls]; auto.
      * eapply waits_all_more; [|exact HF1]. intros a. apply closed_ext; auto.
      * cbn [items_of]. rewrite Hck. exact Htv.
      * apply visited_ext; auto.
      * intros Hb Hu. apply SW_ext; auto. apply (SW_pop_closed log1 i n p); auto.
      * apply good_ext; auto.
    + assert (Hme : may_enter vid pol log1 p n).
      { apply may_enter_open. intros Et Hc. rewrite Et in Edd. cbn [negb andb] in Edd. assert (Hx : vs_mem VS (vid n) (w_visited s1) = true).
        { apply Hdec. split; auto. destruct pol_cases as [(E1 & _)|(_ & E2)]; [congruence|eauto]. }
        congruence. }
      destruct (simw_visit os log1 k ((p, i) :: o) kept' s1 i n) as [(o' & s' & b & eo & kp & -> & Hs)|(o' & s' & -> & Hs1 & Hs2 & Hs3)]; auto.
      * intros b. cbn [top]. subst p. eapply dl_enter; eauto.
      * rewrite Hck. exact Htv.
      * cbn [top]. subst p. discriminate.
      * eexists. eexists. eexists. exists eo, kp, None. split; [exact Hs|]. eexists ((LEnter b, (i, n) :: p) :: ext). split; [reflexivity|discriminate].
      * split; auto. exists log1, k, ((p, i) :: o), i, n. auto.
Qed.

(** ** Steps and runs *)
Definition wrank (s : state) : nat :=
  match w_pc s with
  | WStarts => 1
  | WLoop => match w_to_visit s with [] => 2 | _ => 0 end
  | WEdges _ rest => 3 + length rest
  end.

Lemma simw_step os log k open eopen kept pend s : SimW os log k open eopen kept pend s ->
  match step s with
  | Go o s' => exists log' k' open' eopen' kept' pend', SimW (os ++ o) log' k' open' eopen' kept' pend' s' /\
      (exists ext, log' = ext ++ log /\ (ext <> [] \/ wrank s' < wrank s))
  | Halt o s' => o = [] /\ open = [] /\ pend = None /\ k = length starts /\ s' = dfw_end VS PM LM s
  | Raise o x s' => x = RuntimeErrorLimit /\
      (exists log' k' open' i v, dfs_log ((LEnter true, (i, v) :: top open') :: log') k' (((i, v) :: top open', edge_count next v) :: open') /\
         good ((LEnter true, (i, v) :: top open') :: log') (rev (os ++ o)) /\ w_calls s' = calls_of cfg log')
  end.
Proof.
  intros Hs. pose proof Hs as (Hl & H). pose proof (ws_pc _ _ _ _ _ _ _ _ H) as Hpc. destruct (w_pc s) as [| |v rest] eqn:Epc.
  - destruct Hpc as (-> & -> & ->). pose proof (ws_pend _ _ _ _ _ _ _ _ H) as Hp. cbn in Hp. unfold dfw_step. rewrite Epc. destruct (w_starts s) as [|v rest] eqn:Es.
    + repeat split; auto. symmetry in Hp. apply (f_equal (@length _)) in Hp. rewrite skipn_length in Hp. cbn in Hp.
      assert (k <= length starts) by (apply LogInv_holds in Hl; apply (li_k _ _ _ _ _ Hl)). lia.
    + exists log, k, [], [], [], (Some v). rewrite app_nil_r. split; [apply (simw_begin _ _ _ [] kept); auto|].
      exists []. split; auto. right. unfold wrank. rewrite Epc. cbn. lia.
  - assert (Ha : WAfter s os log (step s)).
    { destruct pend as [v|]; [|eapply simw_loop; eauto]. destruct (ws_pend _ _ _ _ _ _ _ _ H) as (-> & _). eapply simw_loop_start; eauto. }
    revert Ha. unfold WAfter. destruct (step s) as [o s'|o s'|o x s'] eqn:Est; auto; [|tauto].
    intros (log' & k' & open' & eopen' & kept' & pend' & Hs' & ext & -> & Hext). exists (ext ++ log), k', open', eopen', kept', pend'. split; auto.
    exists ext. split; auto. destruct (w_to_visit s) as [|y q] eqn:Etv.
    + right. unfold dfw_step in Est. rewrite Epc, Etv in Est. cbv zeta in Est.
      destruct (if dc_compute_depth cfg then dfw_leave (w_markers s) (w_loop_depth s) else (w_markers s, w_loop_depth s)) as (m & d).
      injection Est as _ <-. unfold wrank. rewrite Epc, Etv. cbn. lia.
    + left. apply Hext; congruence.
  - destruct Hpc as (-> & Hpc). unfold dfw_step. rewrite Epc. destruct rest as [|(n & l) rest].
    + exists log, k, open, open, kept, None. rewrite app_nil_r. split; [eapply simw_edge_end; eauto|]. exists []. split; auto. right.
      unfold wrank. rewrite Epc. cbn. destruct (w_to_visit s); lia.
    + destruct ((negb (dc_is_tree cfg) || dc_build_paths cfg) && vs_mem VS (vid n) (w_visited s)) eqn:Ed.
      * destruct (simw_edge_drop _ _ _ _ _ _ _ _ _ _ _ Hs Epc Ed) as (eo & kp & Hs').
        exists log, k, open, eo, kp, None. rewrite app_nil_r. split; auto. exists []. split; auto. right. unfold wrank. rewrite Epc. cbn. lia.
      * destruct (simw_edge_push _ _ _ _ _ _ _ _ _ _ _ Hs Epc Ed) as (eo & kp & Hs').
        exists log, k, open, eo, kp, None. rewrite app_nil_r. split; auto. exists []. split; auto. right. unfold wrank. rewrite Epc. cbn. lia.
Qed.

Theorem dfw_any lim n os r : dfw_run V_dec vid VS PM LM XM next cfg skip starts av lim n = (os, r) ->
  match r with
  | Running s => exists log k open eopen kept pend, SimW os log k open eopen kept pend s
  | Ended s => exists log, dfs_log log (length starts) [] /\ good log (rev os) /\ w_calls s = calls_of cfg log
  | Raised x s => x = RuntimeErrorLimit /\ exists log k open p m, dfs_log ((LEnter true, p) :: log) k ((p, m) :: open) /\
                  good ((LEnter true, p) :: log) (rev os) /\ w_calls s = calls_of cfg log
  end.
Proof.
  unfold dfw_run. intros HR.
  assert (HI : (fun o s => exists log k open eopen kept pend, SimW o log k open eopen kept pend s) (@nil report) (init lim)).
  { exists [], 0, [], [], [], None. apply simw_init. }
  assert (HS : forall o s o' s', (exists log k open eopen kept pend, SimW o log k open eopen kept pend s) -> step s = Go o' s' ->
     exists log k open eopen kept pend, SimW (o ++ o') log k open eopen kept pend s').
  { intros o s o' s' (log & k & open & eopen & kept & pend & Hs) Est. apply simw_step in Hs. rewrite Est in Hs.
    destruct Hs as (log' & k' & open' & eopen' & kept' & pend' & Hs & _). exists log', k', open', eopen', kept', pend'. exact Hs. }
  destruct r as [s|s|x s].
  - exact (run_inv_running step _ HS n [] (init lim) os s HI HR).
  - destruct (run_inv_ended step _ HS n [] (init lim) os s HI HR) as (o1 & o2 & s1 & -> & (log & k & open & eopen & kept & pend & Hs) & Est).
    pose proof Hs as Hx. apply simw_step in Hx. rewrite Est in Hx. destruct Hx as (-> & -> & -> & -> & ->). exists log. rewrite app_nil_r.
    destruct Hs as (Hl & H). split; auto. split; [apply (ws_reports _ _ _ _ _ _ _ _ H)|apply (ws_calls _ _ _ _ _ _ _ _ H)].
  - destruct (run_inv_raised step _ HS n [] (init lim) os x s HI HR) as (o1 & o2 & s1 & -> & (log & k & open & eopen & kept & pend & Hs) & Est).
    apply simw_step in Hs. rewrite Est in Hs. destruct Hs as (-> & (log' & k' & open' & i & v & H1 & H2 & H3)). split; auto.
    exists log', k', open', ((i, v) :: top open'), (edge_count next v). auto.
Qed.

Lemma dfw_terminates lim B : (forall log k open, dfs_log log k open -> length log <= B) ->
  exists n os r, dfw_run V_dec vid VS PM LM XM next cfg skip starts av lim n = (os, r) /\ forall s, r <> Running s.
Proof.
  intros HB.
  assert (Hgo : forall m r s, (exists os log k open eopen kept pend, SimW os log k open eopen kept pend s /\ m = B - length log /\ r = wrank s) ->
     exists n os r, run step n s = (os, r) /\ forall s', r <> Running s').
  { induction m as [m IHm] using lt_wf_ind. induction r as [r IHr] using lt_wf_ind.
    intros s (os & log & k & open & eopen & kept & pend & Hs & Em & Er). pose proof Hs as Hx. apply simw_step in Hx.
    destruct (step s) as [o s1|o s1|o x s1] eqn:E.
    - destruct Hx as (log' & k' & open' & eopen' & kept' & pend' & Hs' & ext & -> & Hc).
      assert (Hl' : length (ext ++ log) <= B) by (destruct Hs' as (Hl' & _); eapply HB; eauto). rewrite app_length in Hl'.
      assert (Hn : exists n os r, run step n s1 = (os, r) /\ forall s', r <> Running s').
      { destruct ext as [|e ext].
        - destruct Hc as [Hc|Hc]; [congruence|]. apply (IHr (wrank s1)); [lia|]. exists (os ++ o), log, k', open', eopen', kept', pend'. auto.
        - apply (IHm (B - length ((e :: ext) ++ log))) with (r := wrank s1); [rewrite app_length; cbn in *; lia|].
          exists (os ++ o), ((e :: ext) ++ log), k', open', eopen', kept', pend'. auto. }
      destruct Hn as (n & os1 & r1 & HR & Hn). exists (S n), (o ++ os1), r1. cbn. rewrite E, HR. auto.
    - exists 1, o, (Ended s1). cbn. rewrite E. split; auto. discriminate.
    - exists 1, o, (Raised x s1). cbn. rewrite E. split; auto. discriminate. }
  unfold dfw_run. eapply Hgo. exists [], [], 0, [], [], [], None. split; [apply simw_init|auto].
Qed.
End DFSW.
