(** Facts about the logs of depth-first searches (DFSSpec). *)
From Coq Require Import List Bool Arith Lia.
From Verif Require Import DFSSpec.
Import ListNotations.

Section DFSLog.
Context {V I L : Type}.
Variable vid : V -> I.
Variable next : V -> list (V * L).
Variable starts : list V.
Variable pol : policy I.

Notation node := (node V).
Notation log_t := (log_t V).
Notation dfs_log := (dfs_log vid next starts pol).
Notation dnode := (dnode next starts).
Notation ids := (ids vid).

Inductive chain : list (node * nat) -> Prop :=
| ch_nil : chain []
| ch_one x r : chain [([x], r)]
| ch_cons i n p r o : chain ((p, i) :: o) -> chain (((i, n) :: p, r) :: (p, i) :: o).

Lemma dl_chain log k open : dfs_log log k open -> chain open.
Proof.
  induction 1 as [| | | ? ? ? ? ? ? ? ? ? ? ? IH | ? ? ? ? ? ? ? ? ? ? ? IH | ? ? ? ? ? IH]; try (constructor; fail); auto.
  - apply ch_cons. inversion IH; subst; constructor; auto.
  - inversion IH; subst; constructor; auto.
  - inversion IH; subst; auto. constructor.
Qed.

Lemma chain_suffix open : chain open -> forall x r o, open = (x, r) :: o ->
  forall p r', In (p, r') open -> p = x \/ continues x p.
Proof.
  induction 1 as [|y r0|r' n p r0 o Hc IH]; intros x r1 o1 E q rq Hin; try discriminate.
  - injection E as <- <- <-. destruct Hin as [E|[]]. left; congruence.
  - injection E as <- <- <-. destruct Hin as [E|Hin]; [left; congruence|].
    right. destruct (IH p r' o eq_refl q rq Hin) as [->|(d & Hd & ->)].
    + exists [(r', n)]. split; [discriminate|reflexivity].
    + exists ((r', n) :: d). split; [discriminate|reflexivity].
Qed.

Lemma chain_length open : chain open -> forall p r o, open = (p, r) :: o -> length p = length open.
Proof.
  induction 1 as [|y r0|r' n p r0 o Hc IH]; intros x r1 o1 E; try discriminate.
  - injection E as <- <- <-. reflexivity.
  - injection E as <- <- <-. simpl. f_equal. apply (IH p r' o eq_refl).
Qed.

Lemma chain_nodup open : chain open -> NoDup (map fst open).
Proof.
  induction 1 as [|y r0|r' n p r0 o Hc IH]; simpl.
  - constructor.
  - constructor; [intros []|constructor].
  - constructor; auto. simpl in *. intros [E|Hin].
    + apply (f_equal (@length _)) in E. simpl in E. lia.
    + apply in_map_iff in Hin. destruct Hin as ((q & rq) & Eq & Hin). simpl in Eq. subst q.
      destruct (chain_suffix _ Hc p r' o eq_refl ((r', n) :: p) rq (or_intror Hin)) as [E|(d & Hd & E)].
      * apply (f_equal (@length _)) in E. simpl in E. lia.
      * apply (f_equal (@length _)) in E. rewrite app_length in E. simpl in E. lia.
Qed.

Lemma chain_tail x r o : chain ((x, r) :: o) -> chain o.
Proof. inversion 1; subst; auto. constructor. Qed.

(** The vertices that come up, each event but leaving. *)
Definition arrival (e : log_event) : bool := match e with LLeave => false | _ => true end.
Definition arrivals (log : log_t) : list node := map snd (filter (fun x => arrival (fst x)) log).

Lemma in_arrivals log p : In p (arrivals log) <-> exists e, arrival e = true /\ In (e, p) log.
Proof.
  unfold arrivals. rewrite in_map_iff. split.
  - intros ((e & q) & <- & Hin). apply filter_In in Hin. destruct Hin. exists e; auto.
  - intros (e & He & Hin). exists (e, p). split; auto. apply filter_In; auto.
Qed.

Definition still_closed (log : log_t) (p : node) (v : V) : Prop :=
  match pol with
  | PTree P => P (vid v) \/ entered_id vid log (vid v)
  | PPaths => leads_back vid p v
  | PWalks => False
  end.

Record LogInv (log : log_t) (k : nat) (open : list (node * nat)) : Prop := {
  li_chain : chain open;
  li_dnode : forall e p, In (e, p) log -> dnode p;
  li_open : forall p r, In (p, r) open -> exists b l1 l2, log = l1 ++ (LEnter b, p) :: l2 /\
              (forall e q, In (e, q) l1 -> continues q p);
  li_rest : forall j u p r, In ((j, u) :: p, r) open -> r <= length (next u);
  li_nodup : NoDup (arrivals log);
  li_parent : forall e x y p, In (e, x :: y :: p) log -> entered log (y :: p);
  li_order : forall e i n q r, In (e, (i, n) :: q) log -> In (q, r) open -> r <= i;
  li_roots : forall e i s, In (e, [(i, s)]) log -> i < k;
  li_kids : forall j u p, In (LEnter true, (j, u) :: p) log -> forall i, i < length (next u) ->
              (exists r, In ((j, u) :: p, r) open /\ i < r) \/
              (exists n, In ((i, n) :: (j, u) :: p) (arrivals log));
  li_skipped : forall j u p r, In (LEnter false, (j, u) :: p) log -> In ((j, u) :: p, r) open -> r = 0;
  li_started : forall i, i < k -> exists s, nth_error starts i = Some s /\ In [(i, s)] (arrivals log);
  li_k : k <= length starts;
  li_leave : forall p, In (LLeave, p) log -> entered log p
}.

Lemma dnode_edge_inv i n j u p : dnode ((i, n) :: (j, u) :: p) -> dnode ((j, u) :: p) /\ exists l, nth_error (next u) i = Some (n, l).
Proof. intros H. inversion H; subst. eauto. Qed.

Lemma dnode_nonempty p : dnode p -> p <> [].
Proof. destruct 1; discriminate. Qed.

Lemma entered_cons (log : log_t) e p : entered log p -> entered (e :: log) p.
Proof. intros (b & H). exists b. right; auto. Qed.

Lemma entered_arrival (log : log_t) p : entered log p -> In p (arrivals log).
Proof. intros (b & H). apply in_arrivals. exists (LEnter b). auto. Qed.

Lemma continues_neq (q p : node) : continues q p -> q <> p.
Proof. intros (d & Hd & ->) E. apply (f_equal (@length _)) in E. rewrite app_length in E. destruct d; [congruence|simpl in E; lia]. Qed.

Lemma li_entered log k open : LogInv log k open -> forall p r, In (p, r) open -> entered log p.
Proof.
  intros H p r Hin. destruct (li_open _ _ _ H p r Hin) as (b & l1 & l2 & -> & _).
  exists b. apply in_or_app. right. left. reflexivity.
Qed.

Lemma li_fresh log k open : LogInv log k open -> forall j u p r o n,
  open = ((j, u) :: p, S r) :: o -> ~ In ((r, n) :: (j, u) :: p) (arrivals log).
Proof.
  intros H j u p r o n -> Hin. apply in_arrivals in Hin. destruct Hin as (e & _ & Hin).
  pose proof (li_order _ _ _ H e r n _ (S r) Hin (or_introl eq_refl)). lia.
Qed.

Lemma li_fresh_root log k : LogInv log k [] -> forall s, ~ In [(k, s)] (arrivals log).
Proof.
  intros H s Hin. apply in_arrivals in Hin. destruct Hin as (e & _ & Hin).
  pose proof (li_roots _ _ _ H e k s Hin). lia.
Qed.

(** An arrival at [q]: a child of an open vertex, or a start vertex. *)
Lemma li_open_arrive log k open q e :
  LogInv log k open -> (forall p r, In (p, r) open -> continues q p) ->
  forall p r, In (p, r) open -> exists b l1 l2, (e, q) :: log = l1 ++ (LEnter b, p) :: l2 /\
     (forall e q, In (e, q) l1 -> continues q p).
Proof.
  intros H Hq p r Hin. destruct (li_open _ _ _ H p r Hin) as (b & l1 & l2 & -> & Hl).
  exists b, ((e, q) :: l1), l2. split; [reflexivity|].
  intros e' q' [E|Hin']; [injection E as <- <-; apply (Hq p r Hin)|eapply Hl; eauto].
Qed.

Lemma continues_child (p : node) x : continues (x :: p) p.
Proof. exists [x]. split; [discriminate|reflexivity]. Qed.

Lemma continues_trans (p q r : node) : continues p q -> continues q r -> continues p r.
Proof.
  intros (d & Hd & ->) (d' & Hd' & ->). exists (d ++ d'). split; [destruct d; [congruence|discriminate]|apply app_assoc].
Qed.

Lemma child_continues open x p r o : chain open -> open = (p, r) :: o -> forall q r', In (q, r') open -> continues (x :: p) q.
Proof.
  intros Hc E q r' Hin. destruct (chain_suffix _ Hc p r o E q r' Hin) as [->|H].
  - apply continues_child.
  - eapply continues_trans; [apply continues_child|exact H].
Qed.

Lemma LogInv_holds log k open : dfs_log log k open -> LogInv log k open.
Proof.
  intros H. assert (Hch := dl_chain _ _ _ H). revert Hch.
  induction H as [|log k s b Hd IH Hs Hm|log k s Hd IH Hs Hm|log k j u p r open n l b Hd IH Hn Hm
                 |log k j u p r open n l kind Hd IH Hn Hm Hk|log k p open Hd IH]; intros Hch.
  - constructor; simpl; try tauto; try (intros; tauto); try constructor; try lia.
  - specialize (IH (dl_chain _ _ _ Hd)). constructor.
    + auto.
    + intros e q [E|Hin]; [injection E as <- <-; constructor; auto|eapply li_dnode; eauto].
    + intros q r [E|[]]. injection E as <- <-. exists b, [], log. split; [reflexivity|intros ? ? []].
    + intros j u q r [E|[]]. injection E as <- <- <- <-. destruct b; unfold edge_count; lia.
    + unfold arrivals. cbn [filter fst arrival map snd]. constructor; [apply (li_fresh_root _ _ IH)|apply (li_nodup _ _ _ IH)].
    + intros e x y q [E|Hin]; [discriminate E|]. apply entered_cons. eapply li_parent; eauto.
    + intros e i n q r Hin [E|[]]. injection E as <- <-. destruct Hin as [E|Hin]; [discriminate E|].
      pose proof (li_parent _ _ _ IH _ _ _ _ Hin) as He. destruct He as (b' & He).
      pose proof (li_roots _ _ _ IH _ _ _ He). lia.
    + intros e i s' [E|Hin]; [injection E as <- <- <-; lia|]. pose proof (li_roots _ _ _ IH _ _ _ Hin). lia.
    + intros j u q [E|Hin] i Hi.
      * injection E as -> <- <- <-. left. exists (edge_count next s). split; [left; reflexivity|exact Hi].
      * destruct (li_kids _ _ _ IH j u q Hin i Hi) as [(r & [] & _)|(n & Hn)].
        right. exists n. right. exact Hn.
    + intros j u q r [E|Hin] [E'|[]].
      * injection E as -> <- <- <-. injection E' as <-. reflexivity.
      * injection E' as <- <- <- <-. pose proof (li_roots _ _ _ IH _ _ _ Hin). lia.
    + intros i Hi. destruct (Nat.eq_dec i k) as [->|Hne].
      * exists s. split; auto. left. reflexivity.
      * destruct (li_started _ _ _ IH i) as (s' & Hs' & Hin); [lia|]. exists s'. split; auto. right. exact Hin.
    + apply nth_error_Some. congruence.
    + intros q [E|Hin]; [discriminate E|]. apply entered_cons. eapply li_leave; eauto.
  - specialize (IH (dl_chain _ _ _ Hd)). constructor.
    + auto.
    + intros e q [E|Hin]; [injection E as <- <-; constructor; auto|eapply li_dnode; eauto].
    + intros q r [].
    + intros j u q r [].
    + unfold arrivals. cbn [filter fst arrival map snd]. constructor; [apply (li_fresh_root _ _ IH)|apply (li_nodup _ _ _ IH)].
    + intros e x y q [E|Hin]; [discriminate E|]. apply entered_cons. eapply li_parent; eauto.
    + intros e i n q r Hin [].
    + intros e i s' [E|Hin]; [injection E as <- <- <-; lia|]. pose proof (li_roots _ _ _ IH _ _ _ Hin). lia.
    + intros j u q [E|Hin] i Hi; [discriminate E|].
      destruct (li_kids _ _ _ IH j u q Hin i Hi) as [(r & [] & _)|(n & Hn)].
      right. exists n. right. exact Hn.
    + intros j u q r Hin [].
    + intros i Hi. destruct (Nat.eq_dec i k) as [->|Hne].
      * exists s. split; auto. left. reflexivity.
      * destruct (li_started _ _ _ IH i) as (s' & Hs' & Hin); [lia|]. exists s'. split; auto. right. exact Hin.
    + apply nth_error_Some. congruence.
    + intros q [E|Hin]; [discriminate E|]. apply entered_cons. eapply li_leave; eauto.
  - specialize (IH (dl_chain _ _ _ Hd)).
    assert (Hpar : entered log ((j, u) :: p)) by (eapply li_entered; [exact IH|left; reflexivity]).
    assert (Hfr : ~ In ((r, n) :: (j, u) :: p) (arrivals log)) by (eapply li_fresh; eauto).
    assert (Hcont : forall q r', In (q, r') (((j, u) :: p, r) :: open) -> continues ((r, n) :: (j, u) :: p) q).
    { apply (child_continues _ _ _ r open); auto. eapply chain_tail. exact Hch. }
    assert (Hopen : forall q r', In (q, r') (((j, u) :: p, r) :: open) -> exists r0, In (q, r0) (((j, u) :: p, S r) :: open) /\
                       (r' = r0 \/ q = (j, u) :: p /\ r' = r)).
    { intros q r' [E|Hin]; [injection E as <- <-; exists (S r); split; [left; reflexivity|right; auto]
                           |exists r'; split; [right; auto|left; auto]]. }
    constructor.
    + auto.
    + intros e q [E|Hin]; [injection E as <- <-|eapply li_dnode; eauto].
      econstructor; [|exact Hn]. destruct Hpar as (b' & Hin). eapply li_dnode; eauto.
    + intros q r' [E|Hin].
      * injection E as <- <-. exists b, [], log. split; [reflexivity|intros ? ? []].
      * destruct (Hopen _ _ Hin) as (r0 & Hin0 & _). eapply (li_open_arrive _ _ _ _ (LEnter b) IH); [|exact Hin0].
        intros q0 r1 Hq0. assert (exists r2, In (q0, r2) (((j, u) :: p, r) :: open)) as (r2 & H2).
        { destruct Hq0 as [E|Hq0]; [injection E as <- <-; exists r; left; reflexivity|exists r1; right; auto]. }
        eapply Hcont; exact H2.
    + intros j0 u0 q r' [E|Hin].
      * injection E as <- <- <- <-. destruct b; unfold edge_count; lia.
      * destruct (Hopen _ _ Hin) as (r0 & Hin0 & [->|(E & ->)]).
        -- eapply li_rest; eauto.
        -- injection E as -> -> ->. pose proof (li_rest _ _ _ IH _ _ _ _ (or_introl eq_refl)). lia.
    + unfold arrivals. cbn [filter fst arrival map snd]. constructor; [exact Hfr|apply (li_nodup _ _ _ IH)].
    + intros e x y q [E|Hin].
      * injection E as <- <- <- <-. apply entered_cons; auto.
      * apply entered_cons. eapply li_parent; eauto.
    + intros e i m q r' Hin Ho. destruct Ho as [E|Ho].
      * injection E as <- <-. destruct Hin as [E|Hin].
        { apply (f_equal snd) in E. apply (f_equal (@length _)) in E. simpl in E. lia. }
        exfalso. apply Hfr. apply entered_arrival. eapply li_parent; eauto.
      * destruct Hin as [E|Hin].
        -- injection E as <- <- <- <-. destruct Ho as [E|Ho]; [injection E as <-; auto|].
           exfalso. pose proof (chain_nodup _ (dl_chain _ _ _ Hd)) as ND. inversion ND as [|? ? Hnin _]; subst.
           apply Hnin. change ((j, u) :: p) with (fst ((j, u) :: p, r')). apply in_map. auto.
        -- destruct (Hopen _ _ Ho) as (r0 & Hin0 & [->|(-> & ->)]).
           ++ eapply li_order; eauto.
           ++ pose proof (li_order _ _ _ IH _ _ _ _ (S r) Hin (or_introl eq_refl)). lia.
    + intros e i s' [E|Hin]; [discriminate E|]. eapply li_roots; eauto.
    + intros j0 u0 q [E|Hin] i Hi.
      * injection E as -> <- <- <-. left. exists (edge_count next n). split; [left; reflexivity|exact Hi].
      * destruct (li_kids _ _ _ IH j0 u0 q Hin i Hi) as [(r0 & [E|Hin0] & Hlt)|(m & Hm')].
        -- injection E as <- <- <- <-. destruct (Nat.eq_dec i r) as [->|Hne].
           ++ right. exists n. left. reflexivity.
           ++ left. exists r. split; [right; left; reflexivity|lia].
        -- left. exists r0. split; [right; right; auto|auto].
        -- right. exists m. right. exact Hm'.
    + intros j0 u0 q r' [E|Hin] Ho.
      * injection E as -> <- <- <-. destruct Ho as [E|Ho]; [injection E as <-; reflexivity|].
        apply Hcont in Ho. exfalso. apply continues_neq in Ho. congruence.
      * destruct Ho as [E|Ho].
        -- injection E as <- <- <- <-. exfalso. apply Hfr. apply entered_arrival. exists false; auto.
        -- destruct (Hopen _ _ Ho) as (r0 & Hin0 & [->|(E & ->)]).
           ++ eapply li_skipped; eauto.
           ++ injection E as -> -> ->. pose proof (li_skipped _ _ _ IH _ _ _ _ Hin (or_introl eq_refl)). discriminate.
    + intros i Hi. destruct (li_started _ _ _ IH i Hi) as (s' & Hs' & Hin). exists s'. split; auto. right. exact Hin.
    + apply (li_k _ _ _ IH).
    + intros q [E|Hin]; [discriminate E|]. apply entered_cons. eapply li_leave; eauto.
  - specialize (IH (dl_chain _ _ _ Hd)).
    assert (Hpar : entered log ((j, u) :: p)) by (eapply li_entered; [exact IH|left; reflexivity]).
    assert (Hfr : ~ In ((r, n) :: (j, u) :: p) (arrivals log)) by (eapply li_fresh; eauto).
    assert (Hcont : forall q r', In (q, r') (((j, u) :: p, r) :: open) -> continues ((r, n) :: (j, u) :: p) q).
    { apply (child_continues _ _ _ r open); auto. }
    assert (Hopen : forall q r', In (q, r') (((j, u) :: p, r) :: open) -> exists r0, In (q, r0) (((j, u) :: p, S r) :: open) /\
                       (r' = r0 \/ q = (j, u) :: p /\ r' = r)).
    { intros q r' [E|Hin]; [injection E as <- <-; exists (S r); split; [left; reflexivity|right; auto]
                           |exists r'; split; [right; auto|left; auto]]. }
    constructor.
    + auto.
    + intros e q [E|Hin]; [injection E as <- <-|eapply li_dnode; eauto].
      econstructor; [|exact Hn]. destruct Hpar as (b' & Hin). eapply li_dnode; eauto.
    + intros q r' Hin. destruct (Hopen _ _ Hin) as (r0 & Hin0 & _).
      eapply (li_open_arrive _ _ _ _ (LNonTree kind) IH); [|exact Hin0].
      intros q0 r1 Hq0. assert (exists r2, In (q0, r2) (((j, u) :: p, r) :: open)) as (r2 & H2).
      { destruct Hq0 as [E|Hq0]; [injection E as <- <-; exists r; left; reflexivity|exists r1; right; auto]. }
      eapply Hcont; exact H2.
    + intros j0 u0 q r' Hin. destruct (Hopen _ _ Hin) as (r0 & Hin0 & [->|(E & ->)]).
      * eapply li_rest; eauto.
      * injection E as -> -> ->. pose proof (li_rest _ _ _ IH _ _ _ _ (or_introl eq_refl)). lia.
    + unfold arrivals. cbn [filter fst arrival map snd]. constructor; [exact Hfr|apply (li_nodup _ _ _ IH)].
    + intros e x y q [E|Hin].
      * injection E as <- <- <- <-. apply entered_cons; auto.
      * apply entered_cons. eapply li_parent; eauto.
    + intros e i m q r' Hin Ho. destruct Hin as [E|Hin].
      * injection E as <- <- <- <-. destruct Ho as [E|Ho]; [injection E as <-; auto|].
        exfalso. pose proof (chain_nodup _ (dl_chain _ _ _ Hd)) as ND. inversion ND as [|? ? Hnin _]; subst.
        apply Hnin. change ((j, u) :: p) with (fst ((j, u) :: p, r')). apply in_map. auto.
      * destruct (Hopen _ _ Ho) as (r0 & Hin0 & [->|(-> & ->)]).
        -- eapply li_order; eauto.
        -- pose proof (li_order _ _ _ IH _ _ _ _ (S r) Hin (or_introl eq_refl)). lia.
    + intros e i s' [E|Hin]; [discriminate E|]. eapply li_roots; eauto.
    + intros j0 u0 q [E|Hin] i Hi; [discriminate E|].
      destruct (li_kids _ _ _ IH j0 u0 q Hin i Hi) as [(r0 & [E|Hin0] & Hlt)|(m & Hm')].
      * injection E as <- <- <- <-. destruct (Nat.eq_dec i r) as [->|Hne].
        -- right. exists n. left. reflexivity.
        -- left. exists r. split; [left; reflexivity|lia].
      * left. exists r0. split; [right; auto|auto].
      * right. exists m. right. exact Hm'.
    + intros j0 u0 q r' [E|Hin] Ho; [discriminate E|].
      destruct (Hopen _ _ Ho) as (r0 & Hin0 & [->|(E & ->)]).
      * eapply li_skipped; eauto.
      * injection E as -> -> ->. pose proof (li_skipped _ _ _ IH _ _ _ _ Hin (or_introl eq_refl)). discriminate.
    + intros i Hi. destruct (li_started _ _ _ IH i Hi) as (s' & Hs' & Hin). exists s'. split; auto. right. exact Hin.
    + apply (li_k _ _ _ IH).
    + intros q [E|Hin]; [discriminate E|]. apply entered_cons. eapply li_leave; eauto.
  - specialize (IH (dl_chain _ _ _ Hd)).
    assert (Hpar : entered log p) by (eapply li_entered; [exact IH|left; reflexivity]).
    constructor.
    + auto.
    + intros e q [E|Hin]; [injection E as <- <-|eapply li_dnode; eauto].
      destruct Hpar as (b' & Hin). eapply li_dnode; eauto.
    + intros q r' Hin. destruct (li_open _ _ _ IH q r' (or_intror Hin)) as (b & l1 & l2 & -> & Hl).
      exists b, ((LLeave, p) :: l1), l2. split; [reflexivity|].
      intros e' q' [E|Hin']; [injection E as <- <-|eapply Hl; eauto].
      destruct (chain_suffix _ (dl_chain _ _ _ Hd) p 0 open eq_refl q r' (or_intror Hin)) as [->|Hc]; auto.
      exfalso. pose proof (chain_nodup _ (dl_chain _ _ _ Hd)) as ND. inversion ND as [|? ? Hnin _]; subst.
      apply Hnin. change p with (fst (p, r')). apply in_map. auto.
    + intros j0 u0 q r' Hin. eapply li_rest; [exact IH|right; eauto].
    + exact (li_nodup _ _ _ IH).
    + intros e x y q [E|Hin].
      * injection E as <- ->. apply entered_cons. destruct Hpar as (b & Hb). eapply li_parent; eauto.
      * apply entered_cons. eapply li_parent; eauto.
    + intros e i m q r' Hin Ho. destruct Hin as [E|Hin].
      * injection E as <- ->. destruct Hpar as (b & Hb). eapply (li_order _ _ _ IH); [exact Hb|right; exact Ho].
      * eapply (li_order _ _ _ IH); [exact Hin|right; exact Ho].
    + intros e i s' [E|Hin].
      * injection E as <- ->. destruct Hpar as (b & Hb). eapply li_roots; eauto.
      * eapply li_roots; eauto.
    + intros j0 u0 q [E|Hin] i Hi; [discriminate E|].
      destruct (li_kids _ _ _ IH j0 u0 q Hin i Hi) as [(r0 & [E|Hin0] & Hlt)|(m & Hm')].
      * injection E as _ <-. lia.
      * left. exists r0. split; auto.
      * right. exists m. exact Hm'.
    + intros j0 u0 q r' [E|Hin] Ho; [discriminate E|]. eapply li_skipped; [exact IH|exact Hin|right; exact Ho].
    + intros i Hi. destruct (li_started _ _ _ IH i Hi) as (s' & Hs' & Hin). exists s'. split; auto.
    + apply (li_k _ _ _ IH).
    + intros q [E|Hin]; [injection E as <-; apply entered_cons; auto|]. apply entered_cons. eapply li_leave; eauto.
Qed.
End DFSLog.
