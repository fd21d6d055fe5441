(** The program for iterative deepening (IddfsModel) finds a shortest path to a goal. *)
From Coq Require Import List Bool Arith ZArith Lia.
From Verif Require Import Machine GearSpec Common Spec TraversalSpec DFSModel DFSSpec DFSLog DFSLogMore DFSReports DFSProofs DFSMore DFSTree DFSTerm DFSPaths SCCSpec SCCProofs PruneModel PruneProofs IddfsSpec IddfsModel.
Import ListNotations.
Open Scope nat_scope.

Section IddfsProofs.
Context {V L : Type}.
Variable V_dec : forall a b : V, {a = b} + {a <> b}.
Variable VS : VSet V.
Variable PM : PMap V V.
Variable LM : PMap V L.
Variable XM : DMap V Z 0%Z.
Variable next : V -> list (V * L).
Variable mode : dfs_mode.
Variables starts goals : list V.
Hypothesis Hmode : mode <> DFS_TREE.
Notation report := (@dfs_report V V L VS PM LM XM).
Notation vid := (fun v : V => v).
Notation cfg := (iddfs_options mode).
Notation pol := (dfs_policy VS cfg None).
Notation dfs_log := (dfs_log vid next starts pol).
Notation node := (node V).
Notation log_t := (log_t V).
Notation E := (edge_of next).
Notation at_limit := (@at_limit V L VS PM LM XM).
Notation good_reports skip := (reports V_dec VS PM LM XM cfg skip (fun lg e p r => sees vid VS PM LM XM next starts cfg None false lg e p r /\
  sees_trace vid VS PM LM XM next cfg None lg e p r)).
Notation scan := (iddfs_scan V_dec VS PM LM XM next goals).
Notation search := (iddfs_search V_dec VS PM LM XM next mode starts goals).
Notation iddfs := (iddfs V_dec VS PM LM XM next mode starts goals).

Lemma iddfs_options_ok : dfs_options (iddfs_asked mode) false = inl cfg.
Proof. destruct mode; reflexivity. Qed.
Lemma iddfs_cfg_ok : cfg_ok cfg false. Proof. exact (dfs_options_ok _ _ _ iddfs_options_ok). Qed.

(** Which positions are considered: all walks, or all simple paths *)
Definition wanted (p : node) : Prop := mode = ALL_PATHS -> NoDup (verts p).
Lemma mode_cases : (mode = ALL_PATHS /\ pol = PPaths) \/ (mode = ALL_WALKS /\ pol = PWalks).
Proof. unfold dfs_policy. cbn. destruct mode; [congruence|left; auto|right; auto]. Qed.
Lemma entered_wanted log k open p : dfs_log log k open -> entered log p -> dnode next starts p /\ wanted p.
Proof.
  intros Hl Hp. split; [eapply entered_dnode; eauto|]. intros Em. destruct mode_cases as [(_ & Ep)|(Em' & _)]; [|congruence]. rewrite Ep in Hl. exact (paths_simple _ _ _ _ _ _ Hl p Hp).
Qed.
Lemma arrived_entered log k open p : dfs_log log k open -> In p (arrivals log) -> wanted p -> entered log p.
Proof.
  intros Hl Hp Hw. destruct mode_cases as [(Em & Ep)|(Em & Ep)]; rewrite Ep in Hl; [exact (paths_arrivals _ _ _ _ _ _ Hl p Hp (Hw Em))|eapply walks_arrivals; eauto].
Qed.
Lemma wanted_tail x p : wanted (x :: p) -> wanted p.
Proof. intros H Em. specialize (H Em). inversion H; assumption. Qed.

(** ** Vertices that are not expanded have no children *)
Lemma no_child log k open : dfs_log log k open -> forall e x y p, In (e, x :: y :: p) log -> ~ In (LEnter false, y :: p) log.
Proof.
  assert (Fresh : forall b q (log : log_t) k open, dfs_log ((LEnter b, q) :: log) k open -> forall x e, q <> [] -> ~ In (e, x :: q) log).
  { clear. intros b q log k open Hl x e Hq Hin. pose proof (LogInv_holds _ _ _ _ _ _ _ Hl) as HI. destruct q as [|y q]; [congruence|].
    inversion Hl as [|? ? ? ? Hl'| |? ? ? ? ? ? ? ? ? ? Hl'| |]; subst;
      (pose proof (LogInv_holds _ _ _ _ _ _ _ Hl') as HI'; pose proof (li_parent _ _ _ _ _ HI' _ _ _ _ Hin) as (b' & K); pose proof (li_nodup _ _ _ _ _ HI) as ND; unfold arrivals in ND; cbn in ND;
       inversion ND as [|? ? Hn _]; subst; apply Hn; apply in_map_iff; eexists; split; [|apply filter_In; split; [exact K|reflexivity]]; reflexivity). }
  assert (Open : forall (log : log_t) k j u p r open, dfs_log log k (((j, u) :: p, S r) :: open) -> ~ In (LEnter false, (j, u) :: p) log).
  { clear. intros log k j u p r open Hl Hin. pose proof (LogInv_holds _ _ _ _ _ _ _ Hl) as HI. pose proof (li_skipped _ _ _ _ _ HI _ _ _ _ Hin (or_introl eq_refl)). discriminate. }
  intros Hl. induction Hl as [|log k s b Hl IH Hs Hm|log k s Hl IH Hs Hm|log k j u p r open n l b Hl IH Hn Hm|log k j u p r open n l kind Hl IH Hn Hm Hk|log k p open Hl IH]; intros e x y q Hin Hin'.
  - destruct Hin.
  - assert (Hl' : dfs_log ((LEnter b, [(k, s)]) :: log) (S k) [([(k, s)], if b then edge_count next s else 0)]) by (constructor; assumption).
    destruct Hin as [Hin|Hin]; [discriminate|]. destruct Hin' as [Hin'|Hin']; [|exact (IH _ _ _ _ Hin Hin')]. injection Hin' as _ <- <-. exact (Fresh _ _ _ _ _ Hl' x e ltac:(discriminate) Hin).
  - destruct Hin as [Hin|Hin]; [discriminate|]. destruct Hin' as [Hin'|Hin']; [discriminate|exact (IH _ _ _ _ Hin Hin')].
  - assert (Hl' : dfs_log ((LEnter b, (r, n) :: (j, u) :: p) :: log) k (((r, n) :: (j, u) :: p, if b then edge_count next n else 0) :: ((j, u) :: p, r) :: open)) by (econstructor; eassumption).
    destruct Hin' as [Hin'|Hin'].
    + injection Hin' as -> <- <-. destruct Hin as [Hin|Hin]; [apply (f_equal (fun z => length (snd z))) in Hin; cbn in Hin; lia|]. exact (Fresh _ _ _ _ _ Hl' x e ltac:(discriminate) Hin).
    + destruct Hin as [Hin|Hin]; [|exact (IH _ _ _ _ Hin Hin')]. injection Hin as _ _ <- <-. exact (Open _ _ _ _ _ _ _ Hl Hin').
  - destruct Hin' as [Hin'|Hin']; [discriminate|]. destruct Hin as [Hin|Hin]; [|exact (IH _ _ _ _ Hin Hin')]. injection Hin as _ _ <- <-. exact (Open _ _ _ _ _ _ _ Hl Hin').
  - destruct Hin' as [Hin'|Hin']; [discriminate|]. destruct Hin as [Hin|Hin]; [|exact (IH _ _ _ _ Hin Hin')].
    injection Hin as _ ->. destruct (open_entered _ _ _ _ _ _ _ Hl (x :: y :: q) 0 (or_introl eq_refl)) as (b & K). exact (IH _ _ _ _ K Hin').
Qed.

(** ** The reports are the entered vertices *)
Definition head_is (p : node) (v : V) : Prop := exists j q, p = (j, v) :: q.
Lemma iddfs_shown b p : exists ev, shown V_dec cfg (LEnter b) p = Some ev.
Proof. unfold shown, event_of. cbn. destruct (is_own_start V_dec p); eexists; reflexivity. Qed.
Lemma iddfs_hidden e p : (forall b, e <> LEnter b) -> shown V_dec cfg e p = None.
Proof. intros He. destruct e as [b| |kind|]; [destruct (He b eq_refl)| | |]; unfold shown, event_of; cbn; [destruct (length p =? 1)|destruct kind|]; reflexivity. Qed.

Lemma reports_entries D skip log os : good_reports skip log os -> consistent VS PM LM XM (at_limit D) skip (rev os) ->
  (forall rep, In rep os -> exists b p, In (LEnter b, p) log /\ fr_trace rep = rev (verts p) /\ head_is p (fr_vertex rep) /\ b = negb (at_limit D rep)) /\
  (forall b p, In (LEnter b, p) log -> exists rep, In rep os /\ fr_trace rep = rev (verts p) /\ head_is p (fr_vertex rep) /\ b = negb (at_limit D rep)).
Proof.
  induction 1 as [|log os e p H IH Hs Hb|log os e j v p rep H IH Hs Hne Hv Hsee Hb]; intros Hc.
  - split; [intros rep []|intros b p []].
  - destruct (IH Hc) as (K1 & K2). split.
    + intros rep Hrep. destruct (K1 rep Hrep) as (b & q & Q1 & Q2). exists b, q. split; [now right|exact Q2].
    + intros b q [Hq|Hq]; [|exact (K2 b q Hq)]. injection Hq as -> ->. destruct (iddfs_shown b q) as (ev & Hev). congruence.
  - cbn [rev] in Hc. assert (Hc' : consistent VS PM LM XM (at_limit D) skip (rev os)).
    { intros m rep' Hm. apply Hc. rewrite nth_error_app1; [exact Hm|]. apply nth_error_Some. congruence. }
    assert (Hsk : skip (length os) = at_limit D rep). { apply Hc. rewrite nth_error_app2 by (rewrite rev_length; lia). rewrite rev_length, Nat.sub_diag. reflexivity. }
    destruct (IH Hc') as (K1 & K2). pose proof (st_trace _ _ _ _ _ _ _ _ _ _ _ _ (proj2 Hsee)) as Ht.
    assert (He : exists b, e = LEnter b). { destruct e as [b| |kind|]; [eauto| | |]; (rewrite iddfs_hidden in Hs by discriminate; congruence). }
    destruct He as (b0 & ->). specialize (Hb b0 eq_refl). rewrite Hsk in Hb. split.
    + intros rep' [<-|Hrep]; [exists b0, ((j, v) :: p)|destruct (K1 rep' Hrep) as (b & q & Q1 & Q2); exists b, q].
      * split; [now left|]. split; [exact Ht|]. split; [rewrite Hv; do 2 eexists; reflexivity|exact Hb].
      * split; [now right|exact Q2].
    + intros b q [Hq|Hq].
      * injection Hq as <- <-. exists rep. split; [now left|]. split; [exact Ht|]. split; [rewrite Hv; do 2 eexists; reflexivity|exact Hb].
      * destruct (K2 b q Hq) as (rep' & Q1 & Q2). exists rep'. split; [now right|exact Q2].
Qed.
Lemma at_limit_depth D rep (p : node) : fr_trace rep = rev (verts p) -> at_limit D rep = (length p - 1 =? D).
Proof. intros H. unfold IddfsModel.at_limit. rewrite H, rev_length. unfold verts. rewrite map_length. reflexivity. Qed.

(** ** One search *)
Section Search.
Variable D : nat.
Variables (skip : nat -> bool) (os : list report) (log : log_t) (k : nat) (open : list (node * nat)).
Hypothesis Hc : consistent VS PM LM XM (at_limit D) skip os.
Hypothesis Hl : dfs_log log k open.
Hypothesis Hg : good_reports skip log (rev os).

Lemma os_entries : (forall rep, In rep os -> exists p, entered log p /\ fr_trace rep = rev (verts p) /\ head_is p (fr_vertex rep)) /\
  (forall b p, In (LEnter b, p) log -> b = negb (length p - 1 =? D) /\ exists rep, In rep os /\ fr_trace rep = rev (verts p) /\ head_is p (fr_vertex rep)).
Proof.
  destruct (reports_entries D skip log (rev os) Hg) as (K1 & K2); [rewrite rev_involutive; exact Hc|]. split.
  - intros rep Hrep. apply in_rev in Hrep. destruct (K1 rep Hrep) as (b & p & Q1 & Q2 & Q3 & _). exists p. split; [exists b; exact Q1|auto].
  - intros b p Hp. destruct (K2 b p Hp) as (rep & Q1 & Q2 & Q3 & Q4). rewrite (at_limit_depth D rep p Q2) in Q4. split; [exact Q4|]. exists rep. split; [apply in_rev; exact Q1|auto].
Qed.
Lemma entered_short p : entered log p -> length p <= S D.
Proof.
  intros (b & Hp). revert b Hp. induction p as [|x p IH]; intros b Hp; [cbn; lia|]. destruct p as [|y p]; [cbn; lia|].
  pose proof (LogInv_holds _ _ _ _ _ _ _ Hl) as HI. destruct (li_parent _ _ _ _ _ HI _ _ _ _ Hp) as (b' & Hy). pose proof (IH b' Hy) as K. destruct (proj2 os_entries b' (y :: p) Hy) as (Eb & _).
  destruct b'; [|destruct (no_child _ _ _ Hl _ _ _ _ Hp Hy)]. cbn in *. symmetry in Eb. apply negb_true_iff, Nat.eqb_neq in Eb. lia.
Qed.
Lemma log_short : length log <= 2 * length (positions next starts (S (S D))).
Proof. eapply log_bound; eauto. eapply arrival_length; eauto. exact entered_short. Qed.

Lemma short_entered : k = length starts -> open = [] -> forall p, dnode next starts p -> wanted p -> length p <= S D -> entered log p.
Proof.
  intros Hk Ho. rewrite Hk, Ho in *. intros p Hd. induction Hd as [i s Hs|i m l j u p Hd IH Hn]; intros Hw Hlen.
  - eapply arrived_entered; eauto. eapply complete_starts; eauto.
  - eapply arrived_entered; eauto. cbn in Hlen. destruct IH as (b & Hb); [exact (wanted_tail _ _ Hw)|cbn; lia|]. destruct (proj2 os_entries b _ Hb) as (Eb & _). cbn in Eb.
    assert (b = true) as -> by (rewrite Eb; apply negb_true_iff, Nat.eqb_neq; lia). eapply closed_children; eauto.
Qed.
End Search.

(** ** Walks and positions *)
Lemma node_walk p : dnode next starts p -> forall j v q, p = (j, v) :: q -> exists s w, In s starts /\ walk E s w v /\ rev (verts p) = s :: w.
Proof.
  induction 1 as [k s Hk|i n l j u p Hd IH Hn]; intros j' v' q' Eq; injection Eq as <- <- <-.
  - exists s, []. split; [eapply nth_error_In; eauto|]. split; [constructor|reflexivity].
  - destruct (IH j u p eq_refl) as (s & w & H1 & H2 & H3). exists s, (w ++ [n]). split; [exact H1|]. split.
    + eapply walk_snoc; [exact H2|]. unfold edge_of. apply in_map_iff. exists (n, l). split; [reflexivity|eapply nth_error_In; eauto].
    + cbn [verts map snd rev] in H3 |- *. unfold verts in *. rewrite H3. reflexivity.
Qed.
Lemma walk_node s w v : In s starts -> walk E s w v -> exists j q, dnode next starts ((j, v) :: q) /\ rev (verts ((j, v) :: q)) = s :: w.
Proof.
  intros Hs. revert v. induction w as [|n w IH] using rev_ind; intros v Hw.
  - inversion Hw; subst. apply In_nth_error in Hs. destruct Hs as (k & Hk). exists k, []. split; [constructor; exact Hk|reflexivity].
  - apply walk_snoc_inv in Hw. destruct Hw as (u & H2 & H3 & ->).
    destruct (IH _ H2) as (j & q & Q1 & Q2). unfold edge_of in H3. apply in_map_iff in H3. destruct H3 as ((n' & l) & Q3 & Q4). cbn in Q3. subst n'. apply In_nth_error in Q4. destruct Q4 as (i & Hi).
    exists i, ((j, u) :: q). split; [econstructor; eassumption|]. change (rev (verts ((j, u) :: q)) ++ [n] = s :: w ++ [n]). rewrite Q2. reflexivity.
Qed.
Lemma simple_position p : dnode next starts p -> forall j v q, p = (j, v) :: q -> exists j' q', dnode next starts ((j', v) :: q') /\ NoDup (verts ((j', v) :: q')) /\ length ((j', v) :: q') <= length p.
Proof.
  induction 1 as [k s Hk|i n l j u p Hd IH Hn]; intros j0 v0 q0 Eq; injection Eq as <- <- <-.
  - exists k, []. split; [constructor; exact Hk|]. split; [repeat constructor; intros []|cbn; lia].
  - destruct (IH j u p eq_refl) as (j' & q' & H1 & H2 & H3). destruct (in_dec V_dec n (verts ((j', u) :: q'))) as [Hin|Hin].
    + unfold verts in Hin. apply in_map_iff in Hin. destruct Hin as ((jn & n') & En & Hin). cbn in En. subst n'. apply in_split in Hin. destruct Hin as (d & q & Ed). exists jn, q. rewrite Ed in H1, H2, H3. split.
      * eapply dnode_suffix; [exact H1|reflexivity|discriminate].
      * split; [|rewrite app_length in H3; cbn [length] in *; lia]. unfold verts in H2. rewrite map_app in H2. revert H2. clear. induction (map snd d) as [|a x IHx]; cbn; [auto|]. intros K. inversion K; subst. auto.
    + exists i, ((j', u) :: q'). split; [econstructor; eassumption|]. split; [constructor; assumption|cbn [length] in *; lia].
Qed.
Lemma wanted_position p j v q : dnode next starts p -> p = (j, v) :: q -> exists j' q', dnode next starts ((j', v) :: q') /\ wanted ((j', v) :: q') /\ length ((j', v) :: q') <= length p.
Proof. intros Hd Ep. destruct (simple_position p Hd j v q Ep) as (j' & q' & H1 & H2 & H3). exists j', q'. split; [exact H1|]. split; [intros _; exact H2|exact H3]. Qed.

(** ** The result of one search *)
Definition goal_position (p : node) : Prop := dnode next starts p /\ wanted p /\ exists v, head_is p v /\ In v goals.

Lemma scan_found D : forall os over t, scan D os over = inl t -> exists rep, In rep os /\ In (fr_vertex rep) goals /\ t = fr_trace rep.
Proof.
  induction os as [|rep os IH]; intros over t; cbn [iddfs_scan]; [discriminate|]. unfold is_goal. destruct (in_dec V_dec (fr_vertex rep) goals) as [Hg|Hg].
  - intros K. injection K as <-. exists rep. split; [now left|auto].
  - destruct (IddfsModel.at_limit VS PM LM XM D rep); intros K; destruct (IH _ _ K) as (r & Q1 & Q2); exists r; (split; [now right|exact Q2]).
Qed.
Lemma scan_not D : forall os over b, scan D os over = inr b -> (forall rep, In rep os -> ~ In (fr_vertex rep) goals) /\
  (b = true <-> over = true \/ exists rep, In rep os /\ at_limit D rep = true /\ next (fr_vertex rep) <> []).
Proof.
  induction os as [|rep os IH]; intros over b; cbn [iddfs_scan].
  - intros K. injection K as <-. split; [intros rep []|]. split; [now left|intros [K|(rep & [] & _)]; exact K].
  - unfold is_goal. destruct (in_dec V_dec (fr_vertex rep) goals) as [Hg|Hg]; [discriminate|]. destruct (IddfsModel.at_limit VS PM LM XM D rep) eqn:El; intros K; destruct (IH _ _ K) as (Q1 & Q2).
    + split; [intros r [<-|Hr]; [exact Hg|exact (Q1 r Hr)]|]. rewrite Q2, orb_true_iff. unfold has_successor. split.
      * intros [[K1|K1]|(r & R1 & R2)]; [now left|right; exists rep; split; [now left|]; split; [exact El|destruct (next (fr_vertex rep)); [discriminate|discriminate]]|right; exists r; split; [now right|exact R2]].
      * intros [K1|(r & [<-|R1] & R2 & R3)]; [left; now left|left; right; destruct (next (fr_vertex rep)); [congruence|reflexivity]|right; exists r; auto].
    + split; [intros r [<-|Hr]; [exact Hg|exact (Q1 r Hr)]|]. rewrite Q2. split.
      * intros [K1|(r & R1 & R2)]; [now left|right; exists r; split; [now right|exact R2]].
      * intros [K1|(r & [<-|R1] & R2 & R3)]; [now left|congruence|right; exists r; auto].
Qed.

Theorem search_correct D n : match search D n with
  | Found t => exists p, goal_position p /\ length p <= S D /\ t = rev (verts p)
  | GoOn => (forall p, goal_position p -> S D < length p) /\ exists p v, dnode next starts p /\ wanted p /\ length p = S D /\ head_is p v /\ next v <> []
  | NotFound => (forall p, goal_position p -> S D < length p) /\ forall p v, dnode next starts p -> wanted p -> length p = S D -> head_is p v -> next v = []
  | Unfinished => True
  | Failed _ => False
  end.
Proof.
  unfold iddfs_search. destruct (run _ n _) as (os & r) eqn:HR.
  destruct (prune_any V_dec vid VS PM LM XM next cfg (at_limit D) starts None iddfs_cfg_ok n os r HR) as (skip & log & k & open & Hc & Hl & Hg & Hr).
  destruct (os_entries D skip os log Hc Hg) as (O1 & O2).
  destruct (scan D os false) as [t|over] eqn:Es.
  - destruct (scan_found _ _ _ _ Es) as (rep & R1 & R2 & ->). destruct (O1 rep R1) as (p & P1 & P2 & P3). exists p. destruct (entered_wanted _ _ _ _ Hl P1) as (W1 & W2).
    split; [split; [exact W1|]; split; [exact W2|]; exists (fr_vertex rep); auto|]. split; [exact (entered_short D skip os log k open Hc Hl Hg p P1)|exact P2].
  - destruct (scan_not _ _ _ _ Es) as (N1 & N2).
    destruct r as [d|d|x d]; [exact Logic.I| |exact Hr]. destruct Hr as (Hk & Ho).
    assert (G : forall p, goal_position p -> S D < length p).
    { intros p (P1 & P2 & v & P3 & P4). destruct (le_lt_dec (length p) (S D)) as [Hle|Hlt]; [|exact Hlt]. exfalso.
      destruct (short_entered D skip os log k open Hc Hl Hg Hk Ho p P1 P2 Hle) as (b & Hb). destruct (O2 b p Hb) as (_ & rep & R1 & _ & R3). apply (N1 rep R1). destruct P3 as (j & q & ->). destruct R3 as (j' & q' & R3). injection R3 as _ <- _. exact P4. }
    destruct over.
    + split; [exact G|]. destruct (proj1 N2 eq_refl) as [K|(rep & R1 & R2 & R3)]; [discriminate|]. destruct (O1 rep R1) as (p & P1 & P2 & P3). destruct (entered_wanted _ _ _ _ Hl P1) as (W1 & W2).
      exists p, (fr_vertex rep). split; [exact W1|]. split; [exact W2|]. split; [|auto]. rewrite (at_limit_depth D rep p P2) in R2. apply Nat.eqb_eq in R2. destruct P3 as (j & q & ->). cbn [length] in *. lia.
    + split; [exact G|]. intros p v P1 P2 P3 P4. destruct (next v) as [|x y] eqn:En; [reflexivity|exfalso].
      destruct (short_entered D skip os log k open Hc Hl Hg Hk Ho p P1 P2 ltac:(lia)) as (b & Hb). destruct (O2 b p Hb) as (_ & rep & R1 & R2 & R3).
      assert (K : false = true); [|discriminate]. apply N2. right. exists rep. split; [exact R1|]. split.
      * rewrite (at_limit_depth D rep p R2). apply Nat.eqb_eq. lia.
      * destruct P4 as (j & q & ->). destruct R3 as (j' & q' & R3). injection R3 as _ <- _. congruence.
Qed.

(** Each search ends, and further passes do not change its result. *)
Lemma search_mono D n m : n <= m -> search D n <> Unfinished -> search D m = search D n.
Proof.
  intros Hle. unfold iddfs_search. set (st := prune_step _ _ _ _ _ _ _ _ _). set (i0 := dfs_init _ _ _ _ _ _ _ _ _). destruct (run st n i0) as (os & r) eqn:HR.
  destruct r as [d|d|x d].
  - destruct (run_prefix st n m i0 Hle) as (ext & He). rewrite HR in He. cbn [fst] in He. destruct (run st m i0) as (os' & r') eqn:HR'. cbn [fst] in He. subst os'.
    assert (S : forall over t, scan D os over = inl t -> scan D (os ++ ext) over = inl t).
    { clear. induction os as [|rep os IH]; intros over t; cbn [app iddfs_scan]; [discriminate|]. destruct (is_goal V_dec goals (fr_vertex rep)); [auto|]. destruct (IddfsModel.at_limit VS PM LM XM D rep); apply IH. }
    destruct (scan D os false) as [t|b] eqn:Es; [intros _; rewrite (S _ _ Es); reflexivity|congruence].
  - intros _. rewrite (run_ended_mono st n m i0 os d HR Hle). reflexivity.
  - intros _. rewrite (run_raised_mono st n m i0 os x d HR Hle). reflexivity.
Qed.
Lemma search_ends D : exists n, search D n <> Unfinished.
Proof.
  destruct (prune_ends V_dec vid VS PM LM XM next cfg (at_limit D) starts None iddfs_cfg_ok (2 * length (positions next starts (S (S D))))) as (n & Hn).
  { intros skip os log k open Hc Hl Hg. exact (log_short D skip os log k open Hc Hl Hg). }
  exists n. unfold iddfs_search. set (st := prune_step _ _ _ _ _ _ _ _ _) in *. set (i0 := dfs_init _ _ _ _ _ _ _ _ _) in *. destruct (run st n i0) as (os & r) eqn:HR. cbn [snd] in Hn.
  destruct (scan D os false) as [t|b]; [discriminate|]. destruct r as [d|d|x d]; [destruct (Hn d eq_refl)|destruct b; discriminate|discriminate].
Qed.
Lemma searches_end rounds : forall D, exists n, forall i, i < rounds -> search (D + i) n <> Unfinished.
Proof.
  induction rounds as [|rounds IH]; intros D; [exists 0; lia|]. destruct (IH D) as (n & Hn). destruct (search_ends (D + rounds)) as (m & Hm). exists (max n m). intros i Hi.
  destruct (Nat.eq_dec i rounds) as [->|Hne].
  - rewrite (search_mono _ m (max n m)); [exact Hm|lia|exact Hm].
  - rewrite (search_mono _ n (max n m)); [apply Hn; lia|lia|apply Hn; lia].
Qed.

(** ** The program *)
Lemma iddfs_correct rounds n : forall D, (forall p, goal_position p -> D < length p) ->
  match iddfs rounds n D with
  | Found t => exists p, goal_position p /\ t = rev (verts p) /\ forall p', goal_position p' -> length p <= length p'
  | NotFound => exists D', (forall p, goal_position p -> S D' < length p) /\ forall p v, dnode next starts p -> wanted p -> length p = S D' -> head_is p v -> next v = []
  | Unfinished => True
  | GoOn | Failed _ => False
  end.
Proof.
  induction rounds as [|rounds IH]; intros D HD; cbn [IddfsModel.iddfs]; [exact Logic.I|]. pose proof (search_correct D n) as H. destruct (search D n) as [t| | | |x].
  - destruct H as (p & P1 & P2 & P3). exists p. split; [exact P1|]. split; [exact P3|]. intros p' P'. pose proof (HD p' P'). lia.
  - exists D. exact H.
  - apply IH. intros p Hp. exact (proj1 H p Hp).
  - exact Logic.I.
  - exact H.
Qed.
Lemma long_none D : (forall p v, dnode next starts p -> wanted p -> length p = S D -> head_is p v -> next v = []) -> forall p, dnode next starts p -> wanted p -> length p <= S D.
Proof.
  intros H p Hd. induction Hd as [k s Hk|i n l j u p Hd IH Hn]; intros Hw; [cbn; lia|]. pose proof (IH (wanted_tail _ _ Hw)) as K. destruct (Nat.eq_dec (length ((j, u) :: p)) (S D)) as [E1|E1]; [|cbn [length] in *; lia].
  rewrite (H _ u Hd (wanted_tail _ _ Hw) E1) in Hn; [destruct i; discriminate|do 2 eexists; reflexivity].
Qed.
Notation way := (way E starts goals).
Lemma way_position t : way t -> exists p, goal_position p /\ length p <= length t.
Proof.
  intros (s & w & g & -> & H1 & H2 & H3). destruct (walk_node s w g H1 H2) as (j & q & Q1 & Q2). destruct (wanted_position _ j g q Q1 eq_refl) as (j' & q' & W1 & W2 & W3). exists ((j', g) :: q'). split.
  - split; [exact W1|]. split; [exact W2|]. exists g. split; [do 2 eexists; reflexivity|exact H3].
  - rewrite <- Q2, rev_length. unfold verts. rewrite map_length. exact W3.
Qed.
Lemma position_way p : goal_position p -> way (rev (verts p)) /\ length (rev (verts p)) = length p.
Proof.
  intros (P1 & P2 & v & (j & q & ->) & P4). split; [|rewrite rev_length; unfold verts; apply map_length]. destruct (node_walk _ P1 j v q eq_refl) as (s & w & Q1 & Q2 & Q3). exists s, w, v. rewrite Q3. auto.
Qed.
Lemma start_length : forall p, goal_position p -> 0 < length p.
Proof. intros p (_ & _ & v & (j & q & ->) & _). cbn. lia. Qed.

Theorem iddfs_sound rounds n : match iddfs rounds n 0 with
  | Found t => way t /\ forall t', way t' -> length t <= length t'
  | NotFound => forall t, ~ way t
  | Unfinished => True
  | GoOn | Failed _ => False
  end.
Proof.
  pose proof (iddfs_correct rounds n 0 start_length) as H. destruct (iddfs rounds n 0) as [t| | | |x]; auto.
  - destruct H as (p & P1 & -> & P3). destruct (position_way p P1) as (W1 & W2). split; [exact W1|]. intros t' Ht'. destruct (way_position t' Ht') as (p' & Q1 & Q2). specialize (P3 p' Q1). lia.
  - destruct H as (D' & H1 & H2). intros t Ht. destruct (way_position t Ht) as (p & Q1 & Q2). pose proof (H1 p Q1) as K1. pose proof (long_none D' H2 p (proj1 Q1) (proj1 (proj2 Q1))) as K2. lia.
Qed.
Lemma iddfs_unfinished n : forall rounds D, (forall i, i < rounds -> search (D + i) n <> Unfinished) -> iddfs rounds n D = Unfinished -> forall i, i < rounds -> search (D + i) n = GoOn.
Proof.
  induction rounds as [|rounds IH]; intros D H1 H2 i Hi; [lia|]. cbn [IddfsModel.iddfs] in H2. pose proof (H1 0 (Nat.lt_0_succ _)) as H0. rewrite Nat.add_0_r in H0.
  destruct (search D n) as [t| | | |x] eqn:Es; try discriminate; [|congruence]. destruct i as [|i]; [rewrite Nat.add_0_r; exact Es|]. replace (D + S i) with (S D + i) by lia. apply (IH (S D)); [|exact H2|lia].
  intros i' Hi'. replace (S D + i') with (D + S i') by lia. apply H1. lia.
Qed.
Theorem iddfs_finds t : way t -> exists rounds n t', iddfs rounds n 0 = Found t'.
Proof.
  intros Ht. destruct (way_position t Ht) as (p & Q1 & Q2). destruct (searches_end (length p) 0) as (n & Hn). exists (length p), n. pose proof (iddfs_sound (length p) n) as H. destruct (iddfs (length p) n 0) as [t'| | | |x] eqn:Er; [eauto|destruct (H t Ht)|destruct H| |destruct H].
  pose proof (start_length p Q1) as Hp. pose proof (iddfs_unfinished n (length p) 0 Hn Er (length p - 1) ltac:(lia)) as K. pose proof (search_correct (0 + (length p - 1)) n) as H'. rewrite K in H'. pose proof (proj1 H' p Q1). lia.
Qed.
(** If all considered paths have a bounded length, the program ends. *)
Theorem iddfs_bounded N : (forall p, dnode next starts p -> wanted p -> length p <= N) -> exists rounds n, iddfs rounds n 0 <> Unfinished.
Proof.
  intros HN. destruct (searches_end (S N) 0) as (n & Hn). exists (S N), n. intros Er. pose proof (iddfs_unfinished n (S N) 0 Hn Er N ltac:(lia)) as K. pose proof (search_correct (0 + N) n) as H'. rewrite K in H'.
  destruct H' as (_ & p & v & P1 & P2 & P3 & _). pose proof (HN p P1 P2). cbn in P3. lia.
Qed.
Theorem iddfs_ends l : (forall s w v, In s starts -> walk E s w v -> In v l) -> (mode = ALL_WALKS -> no_cycles E) -> exists rounds n, iddfs rounds n 0 <> Unfinished.
Proof.
  intros Hf Ha. apply (iddfs_bounded (length l)). intros p Hd Hw.
  assert (Hin : forall p, dnode next starts p -> incl (verts p) l).
  { induction 1 as [k s Hk|i n l0 j u q Hd' IH Hn]; intros x Hx.
    - destruct Hx as [<-|[]]. apply (Hf s [] s); [eapply nth_error_In; eauto|constructor].
    - destruct Hx as [<-|Hx]; [|exact (IH x Hx)]. destruct (node_walk ((i, n) :: (j, u) :: q) ltac:(econstructor; eassumption) i n _ eq_refl) as (s & w & Q1 & Q2 & _). exact (Hf s w n Q1 Q2). }
  assert (ND : NoDup (verts p)).
  { destruct mode_cases as [(Em & _)|(Em & _)]; [exact (Hw Em)|].
    apply (acyclic_simple vid VS next starts E (scc_presents next)); [|exact Hd]. intros i w _ Hiw. exact (Ha Em i w Hiw). }
  pose proof (NoDup_incl_length ND (Hin p Hd)) as K. unfold verts in K. rewrite map_length in K. exact K.
Qed.
End IddfsProofs.
