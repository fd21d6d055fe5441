(** Facts about the logs of depth-first searches for the three policies. *)
From Coq Require Import List Bool Arith Lia.
From Verif Require Import Spec TraversalSpec DFSSpec DFSLog.
Import ListNotations.

Section DFSLogMore.
Context {V I L : Type}.
Variable vid : V -> I.
Variable next : V -> list (V * L).
Variable starts : list V.

Notation node := (node V).
Notation log_t := (log_t V).
Notation dnode := (dnode next starts).
Notation ids := (ids vid).

Definition vertex_id_of (p : node) : option I := match p with [] => None | (_, v) :: _ => Some (vid v) end.

Lemma in_enters (log : log_t) p : In p (enters log) <-> entered log p.
Proof.
  unfold enters, entered. rewrite in_map_iff. split.
  - intros ((e & q) & <- & Hin). apply filter_In in Hin. destruct Hin as [Hin He]. destruct e; try discriminate. exists expanded; auto.
  - intros (b & Hin). exists (LEnter b, p). split; auto. apply filter_In; auto.
Qed.

Lemma enters_nodup (log : log_t) : NoDup (arrivals log) -> NoDup (enters log).
Proof.
  induction log as [|(e & p) log IH]; unfold enters, arrivals; simpl; [auto|].
  destruct e; simpl; intros H; auto; inversion H; subst; auto.
  constructor; auto. intros Hin. match goal with H : ~ In _ _ |- _ => apply H end.
  apply in_enters in Hin. apply entered_arrival in Hin. exact Hin.
Qed.

Lemma dnode_suffix p : dnode p -> forall q d, p = d ++ q -> q <> [] -> dnode q.
Proof.
  induction 1 as [k s Hk|i n l j u p Hd IH Hn]; intros q d E Hq.
  - destruct d as [|x d]; simpl in E; [subst; constructor; auto|]. injection E as _ E.
    destruct d; simpl in E; [congruence|discriminate].
  - destruct d as [|x d]; simpl in E; [subst; econstructor; eauto|]. injection E as _ E. eauto.
Qed.

Section Policy.
Variable pol : policy I.
Notation dfs_log := (dfs_log vid next starts pol).

Lemma log_suffix log k open : dfs_log log k open -> forall e p, In (e, p) log -> forall x q d, p = d ++ x :: q -> d <> [] -> entered log (x :: q).
Proof.
  intros H. apply LogInv_holds in H.
  assert (G : forall d p x q, p = d ++ x :: q -> d <> [] -> (exists e, In (e, p) log) -> entered log (x :: q)).
  { induction d as [|y d IH]; intros p x q -> Hd (e & Hin); [congruence|].
    destruct d as [|z d]; simpl in *.
    - eapply li_parent; eauto.
    - apply (IH (z :: d ++ x :: q) x q); [reflexivity|discriminate|].
      destruct (li_parent _ _ _ _ _ H _ _ _ _ Hin) as (b & Hb). exists (LEnter b). exact Hb. }
  intros e p Hin x q d -> Hd. eapply G; eauto.
Qed.

Lemma log_ids_entered log k open : dfs_log log k open -> forall p, entered log p -> forall i, In i (ids p) -> entered_id vid log i.
Proof.
  intros H p (b & Hin) i Hi. unfold DFSSpec.ids in Hi. apply in_map_iff in Hi. destruct Hi as ((j & v) & <- & Hv). simpl.
  apply in_split in Hv. destruct Hv as (d & q & E). exists j, v, q. split; auto.
  destruct d as [|y d].
  - simpl in E. subst p. exists b. exact Hin.
  - eapply log_suffix; eauto. discriminate.
Qed.

Lemma open_entered log k open : dfs_log log k open -> forall p r, In (p, r) open -> entered log p.
Proof. intros H. apply LogInv_holds in H. eapply li_entered; eauto. Qed.

Lemma entered_dnode log k open : dfs_log log k open -> forall p, entered log p -> dnode p.
Proof. intros H p (b & Hin). apply LogInv_holds in H. eapply li_dnode; eauto. Qed.

(** The last event decides about [open]. *)
Lemma log_roots_left log k : dfs_log log k [] -> forall p, entered log p -> forall j u q, p = (j, u) :: q ->
  In (LEnter true, p) log -> forall i, i < length (next u) -> exists n, In ((i, n) :: p) (arrivals log).
Proof.
  intros H p _ j u q -> Hin i Hi. apply LogInv_holds in H.
  destruct (li_kids _ _ _ _ _ H j u q Hin i Hi) as [(r & [] & _)|Hn]; auto.
Qed.

(** No vertex was entered without following its edges. *)
Definition all_expanded (log : log_t) : Prop := forall p, ~ In (LEnter false, p) log.

Lemma all_expanded_enter log p : all_expanded log -> entered log p -> In (LEnter true, p) log.
Proof. intros Ha ([|] & H); auto. exfalso. eapply Ha; eauto. Qed.

(** Each position next to an entered one came up. *)
Lemma complete_children log : dfs_log log (length starts) [] -> all_expanded log ->
  forall j u p i n l, entered log ((j, u) :: p) -> nth_error (next u) i = Some (n, l) -> In ((i, n) :: (j, u) :: p) (arrivals log).
Proof.
  intros H Ha j u p i n l He Hn.
  destruct (log_roots_left log _ H _ He j u p eq_refl (all_expanded_enter _ _ Ha He) i) as (m & Hm).
  { apply nth_error_Some. congruence. }
  assert (Hd : dnode ((i, m) :: (j, u) :: p)).
  { apply in_arrivals in Hm. destruct Hm as (e & _ & Hin). apply LogInv_holds in H. eapply li_dnode; eauto. }
  inversion Hd; subst. replace n with m by congruence. exact Hm.
Qed.

Lemma complete_starts log : dfs_log log (length starts) [] ->
  forall i s, nth_error starts i = Some s -> In [(i, s)] (arrivals log).
Proof.
  intros H i s Hs. apply LogInv_holds in H.
  destruct (li_started _ _ _ _ _ H i) as (s' & Hs' & Hin); [apply nth_error_Some; congruence|].
  replace s with s' by congruence. exact Hin.
Qed.
End Policy.

(** ** All walks *)
Lemma walks_no_other log k open : dfs_log vid next starts PWalks log k open -> forall e p, In (e, p) log ->
  match e with LEnter _ | LLeave => True | _ => False end.
Proof.
  induction 1; intros e p' Hin; [destruct Hin|..]; destruct Hin as [E|Hin]; try (injection E as <- _); eauto; simpl in *; try tauto; try (exfalso; auto; fail).
all: eapply IHdfs_log; eauto.
Qed.

Lemma walks_arrivals log k open : dfs_log vid next starts PWalks log k open -> forall p, In p (arrivals log) -> entered log p.
Proof.
  intros H p Hp. apply in_arrivals in Hp. destruct Hp as (e & He & Hin).
  pose proof (walks_no_other _ _ _ H _ _ Hin). destruct e; try tauto; try discriminate. exists expanded; auto.
Qed.

Lemma walks_complete log : dfs_log vid next starts PWalks log (length starts) [] -> all_expanded log ->
  forall p, dnode p -> entered log p.
Proof.
  intros H Ha. induction 1 as [k s Hk|i n l j u p Hd IH Hn].
  - eapply walks_arrivals; eauto. eapply complete_starts; eauto.
  - eapply walks_arrivals; eauto. eapply complete_children; eauto.
Qed.

(** ** All simple paths *)
Lemma paths_simple log k open : dfs_log vid next starts PPaths log k open -> forall p, entered log p -> NoDup (ids p).
Proof.
  induction 1 as [|log k s b Hd IH Hs Hm|log k s Hd IH Hs Hm|log k j u p r open n l b Hd IH Hn Hm
                 |log k j u p r open n l kind Hd IH Hn Hm Hk|log k p open Hd IH]; intros q (b0 & Hin); [destruct Hin|..]; destruct Hin as [E|Hin];
    try discriminate E; try (apply IH; exists b0; auto; fail).
  - injection E as _ <-. simpl. constructor; [intros []|constructor].
  - injection E as _ <-. simpl. constructor; [exact Hm|]. apply (IH ((j, u) :: p)). eapply open_entered; eauto. left; reflexivity.
Qed.

Lemma paths_arrivals log k open : dfs_log vid next starts PPaths log k open -> forall p, In p (arrivals log) -> NoDup (ids p) -> entered log p.
Proof.
  induction 1 as [|log k s b Hd IH Hs Hm|log k s Hd IH Hs Hm|log k j u p r open n l b Hd IH Hn Hm
                 |log k j u p r open n l kind Hd IH Hn Hm Hk|log k p open Hd IH]; intros q Hq ND.
  - destruct Hq.
  - destruct Hq as [<-|Hq]; [exists b; left; reflexivity|apply entered_cons; auto].
  - exfalso. apply Hm. simpl. unfold leads_back. simpl. tauto.
  - destruct Hq as [<-|Hq]; [exists b; left; reflexivity|apply entered_cons; auto].
  - destruct Hq as [<-|Hq]; [|apply entered_cons; auto].
    exfalso. apply Hm. simpl in *. inversion ND; auto.
  - apply entered_cons; auto.
Qed.

Lemma paths_complete log : dfs_log vid next starts PPaths log (length starts) [] -> all_expanded log ->
  forall p, dnode p -> NoDup (ids p) -> entered log p.
Proof.
  intros H Ha. induction 1 as [k s Hk|i n l j u p Hd IH Hn]; intros ND.
  - eapply paths_arrivals; eauto. eapply complete_starts; eauto.
  - eapply paths_arrivals; eauto. eapply complete_children; eauto. apply IH. inversion ND; auto.
Qed.

(** ** Depth-first tree *)
Section Tree.
Variable P : I -> Prop.
Notation dfs_log := (dfs_log vid next starts (PTree P)).

Lemma entered_id_cons log e i : entered_id vid log i -> entered_id vid (e :: log) i.
Proof. intros (j & v & p & H & E). exists j, v, p. split; auto. apply entered_cons; auto. Qed.

Lemma entered_id_enters (log : log_t) i : entered_id vid log i <-> exists p, In p (enters log) /\ vertex_id_of p = Some i.
Proof.
  split.
  - intros (j & v & p & H & <-). exists ((j, v) :: p). split; auto. apply in_enters; auto.
  - intros ([|(j & v) p] & Hin & E); [discriminate|]. injection E as <-. exists j, v, p. split; auto. apply in_enters; auto.
Qed.

Lemma tree_once log k open : dfs_log log k open -> NoDup (map vertex_id_of (enters log)).
Proof.
  induction 1 as [|log k s b Hd IH Hs Hm|log k s Hd IH Hs Hm|log k j u p r open n l b Hd IH Hn Hm
                 |log k j u p r open n l kind Hd IH Hn Hm Hk|log k p open Hd IH]; auto; try constructor; auto; simpl in *.
  - intros Hin. apply in_map_iff in Hin. destruct Hin as (q & Eq & Hq). apply (proj2 Hm). apply entered_id_enters. exists q; auto.
  - intros Hin. apply in_map_iff in Hin. destruct Hin as (q & Eq & Hq). apply (proj2 Hm). apply entered_id_enters. exists q; auto.
Qed.

(** Two entered positions with the same id are equal. *)
Lemma tree_unique log k open : dfs_log log k open -> forall j v p j' v' p', entered log ((j, v) :: p) -> entered log ((j', v') :: p') ->
  vid v = vid v' -> (j, v) :: p = (j', v') :: p'.
Proof.
  intros H j v p j' v' p' H1 H2 E. apply tree_once in H. apply in_enters in H1. apply in_enters in H2.
  revert H H1 H2. generalize (enters log). induction l as [|q l IH]; simpl; intros ND H1 H2; [tauto|].
  inversion ND as [|? ? Hn ND']; subst. destruct H1 as [E1|H1], H2 as [E2|H2]; auto; try congruence.
  - exfalso. apply Hn. rewrite E1. simpl. rewrite E. change (Some (vid v')) with (vertex_id_of ((j', v') :: p')). apply in_map; auto.
  - exfalso. apply Hn. rewrite E2. simpl. rewrite <- E. change (Some (vid v)) with (vertex_id_of ((j, v) :: p)). apply in_map; auto.
Qed.

Lemma tree_not_P log k open : dfs_log log k open -> forall i, entered_id vid log i -> ~ P i.
Proof.
  induction 1 as [|log k s b Hd IH Hs Hm|log k s Hd IH Hs Hm|log k j u p r open n l b Hd IH Hn Hm
                 |log k j u p r open n l kind Hd IH Hn Hm Hk|log k p open Hd IH]; intros i (j0 & v & q & (b0 & Hin) & <-);
    [destruct Hin|..]; destruct Hin as [E|Hin]; try discriminate E; try (apply IH; exists j0, v, q; split; [exists b0; auto|reflexivity]; fail).
  - injection E as _ <- <- <-. apply Hm.
  - injection E as _ <- <- <-. apply Hm.
Qed.

Lemma tree_simple log k open : dfs_log log k open -> forall p, entered log p -> NoDup (ids p).
Proof.
  induction 1 as [|log k s b Hd IH Hs Hm|log k s Hd IH Hs Hm|log k j u p r open n l b Hd IH Hn Hm
                 |log k j u p r open n l kind Hd IH Hn Hm Hk|log k p open Hd IH]; intros q (b0 & Hin); [destruct Hin|..]; destruct Hin as [E|Hin];
    try discriminate E; try (apply IH; exists b0; auto; fail).
  - injection E as _ <-. simpl. constructor; [intros []|constructor].
  - assert (He : entered log ((j, u) :: p)) by (eapply open_entered; eauto; left; reflexivity).
    injection E as _ <-. simpl. constructor; [|apply (IH ((j, u) :: p)); auto].
    intros Hi. apply (proj2 Hm). eapply log_ids_entered; eauto.
Qed.

Lemma tree_back log k j u p r open n : dfs_log log k (((j, u) :: p, r) :: open) -> leads_back vid ((j, u) :: p) n -> entered_id vid log (vid n).
Proof. intros H Hb. eapply log_ids_entered; eauto. eapply open_entered; eauto. left; reflexivity. Qed.

(** Vertices that came up: constructively, "not not" is all that the log tells. *)
Lemma tree_arrivals log k open : dfs_log log k open -> forall j v p, In ((j, v) :: p) (arrivals log) ->
  ~ (~ P (vid v) /\ ~ entered_id vid log (vid v)).
Proof.
  induction 1 as [|log k s b Hd IH Hs Hm|log k s Hd IH Hs Hm|log k j u p r open n l b Hd IH Hn Hm
                 |log k j u p r open n l kind Hd IH Hn Hm Hk|log k p open Hd IH]; intros j0 v q Hq (H1 & H2).
  - destruct Hq.
  - destruct Hq as [E|Hq].
    + injection E as -> -> <-. apply H2. exists j0, v, []. split; auto. exists b. left; reflexivity.
    + apply (IH j0 v q Hq). split; auto. intros H; apply H2. apply entered_id_cons; auto.
  - destruct Hq as [E|Hq].
    + injection E as -> -> <-. apply Hm. split; auto. intros H; apply H2. apply entered_id_cons; auto.
    + apply (IH j0 v q Hq). split; auto. intros H; apply H2. apply entered_id_cons; auto.
  - destruct Hq as [E|Hq].
    + injection E as -> -> <-. apply H2. exists j0, v, ((j, u) :: p). split; auto. exists b. left; reflexivity.
    + apply (IH j0 v q Hq). split; auto. intros H; apply H2. apply entered_id_cons; auto.
  - destruct Hq as [E|Hq].
    + injection E as -> -> <-. apply Hm. split; auto. intros H; apply H2. apply entered_id_cons; auto.
    + apply (IH j0 v q Hq). split; auto. intros H; apply H2. apply entered_id_cons; auto.
  - apply (IH j0 v q Hq). split; auto. intros H; apply H2. apply entered_id_cons; auto.
Qed.

Variable E : I -> I -> Prop.
Hypothesis HE : presents vid next E.

Lemma dnode_edge i n l u : nth_error (next u) i = Some (n, l) -> E (vid u) (vid n).
Proof.
  intros H. apply HE. apply nth_error_In in H. change (vid n) with ((fun e : V * L => vid (fst e)) (n, l)). apply in_map. exact H.
Qed.

Definition open_start (i : I) : Prop := is_start vid starts i /\ ~ P i.

Lemma tree_reachable log k open : dfs_log log k open -> forall i, entered_id vid log i -> reachable (avoiding E P) open_start i.
Proof.
  intros H.
  assert (G : forall p, dnode p -> forall j v q, p = (j, v) :: q -> entered log p -> reachable (avoiding E P) open_start (vid v)).
  { induction 1 as [k0 s Hk|i0 n l j u p Hd IH Hn]; intros j0 v q Eq He; injection Eq as <- <- <-.
    - apply reachable_start. split.
      + apply in_map. eapply nth_error_In; eauto.
      + eapply tree_not_P; eauto. exists k0, s, []. auto.
    - eapply reachable_step.
      + eapply (IH j u p eq_refl). destruct He as (b & Hb). eapply (log_suffix _ _ _ _ H _ _ Hb _ _ [(i0, n)]); [reflexivity|discriminate].
      + split; [eapply (dnode_edge i0 n l u); eauto|]. eapply tree_not_P; eauto. exists i0, n, ((j, u) :: p). auto. }
  intros i (j & v & p & He & <-). eapply G; eauto. eapply entered_dnode; eauto.
Qed.

Lemma tree_complete log : dfs_log log (length starts) [] -> all_expanded log ->
  (forall i, entered_id vid log i \/ ~ entered_id vid log i) -> 
  forall i, reachable (avoiding E P) open_start i -> entered_id vid log i.
Proof.
  intros H Ha Hdec. apply reachable_ind'.
  - intros i (Hs & HP). apply in_map_iff in Hs. destruct Hs as (s & <- & Hs).
    apply In_nth_error in Hs. destruct Hs as (k & Hk).
    pose proof (complete_starts _ _ H _ _ Hk) as Hin.
    destruct (Hdec (vid s)) as [|Hn]; auto. exfalso. eapply tree_arrivals; eauto.
  - intros i j _ (j0 & u & p & He & <-) (Hij & HP).
    apply HE in Hij. apply in_map_iff in Hij. destruct Hij as ((n & l) & <- & Hn). simpl in *.
    apply In_nth_error in Hn. destruct Hn as (i0 & Hn).
    pose proof (complete_children _ _ H Ha _ _ _ _ _ _ He Hn) as Hin.
    destruct (Hdec (vid n)) as [|Hx]; auto. exfalso. eapply tree_arrivals; eauto.
Qed.
End Tree.

(** ** Forward and cross edges: order of entering *)

(** Position of entering: how many vertices have been entered before. *)
Definition entered_before (log : log_t) (p : node) (m : nat) : Prop :=
  exists l1 b l2, log = l1 ++ (LEnter b, p) :: l2 /\ length (enters l2) = m.

Lemma enters_app (l1 l2 : log_t) : enters (l1 ++ l2) = enters l1 ++ enters l2.
Proof. unfold enters. rewrite filter_app, map_app. reflexivity. Qed.

(** Of two entered positions [p] (still open) and [q], [q] was entered later iff it continues [p]. *)
Lemma later_iff_continues pol log k open : dfs_log vid next starts pol log k open -> forall p r q mp mq,
  In (p, r) open -> entered_before log p mp -> entered_before log q mq -> (mp < mq <-> continues q p).
Proof.
  intros H p r q mp mq Hin (l1 & b & l2 & E1 & M1) (k1 & b' & k2 & E2 & M2).
  pose proof (LogInv_holds _ _ _ _ _ _ _ H) as HI.
  destruct (li_open _ _ _ _ _ HI p r Hin) as (b0 & m1 & m2 & E3 & Hl).
  pose proof (enters_nodup _ (li_nodup _ _ _ _ _ HI)) as ND.
  assert (U : forall a c d x y z (w : node), log = a ++ (LEnter x, w) :: c -> log = d ++ (LEnter y, w) :: z -> length (enters c) = length (enters z)).
  { intros a c d x y z w Ea Ed. rewrite Ea in Ed, ND. rewrite enters_app in ND. clear Ea. revert d Ed ND.
    induction a as [|a0 a IHa]; intros d Ed ND.
    - destruct d as [|d0 d]; simpl in Ed; [injection Ed as _ <-; reflexivity|].
      injection Ed as <- Ed. exfalso. simpl in ND. unfold enters in ND at 1. simpl in ND. inversion ND as [|? ? Hn _]; subst. apply Hn.
      apply in_enters. exists y. apply in_or_app. right. left. reflexivity.
    - destruct d as [|d0 d]; simpl in Ed.
      + injection Ed as -> Ed. exfalso. unfold enters in ND at 1. simpl in ND. inversion ND as [|? ? Hn _]; subst. apply Hn.
        apply in_or_app. right. left. reflexivity.
      + injection Ed as _ Ed. apply (IHa d Ed). unfold enters in ND at 1. simpl in ND.
        destruct (fst a0); simpl in ND; auto. inversion ND; auto. }
  rewrite (U l1 l2 m1 b b0 m2 p E1 E3) in M1.
  assert (Hq : entered log q) by (exists b'; rewrite E2; apply in_or_app; right; left; reflexivity).
  assert (Hnd : NoDup (enters m1 ++ p :: enters m2)).
  { pose proof ND as ND'. rewrite E3, enters_app in ND'. exact ND'. }
  apply in_enters in Hq. rewrite E3, enters_app in Hq. apply in_app_or in Hq.
  change (enters ((LEnter b0, p) :: m2)) with (p :: enters m2) in Hq.
  destruct Hq as [Hq|[<-|Hq]].
  - (* later *)
    assert (Hc : continues q p).
    { apply in_enters in Hq. destruct Hq as (bq & Hq). eapply Hl; eauto. }
    split; auto. intros _.
    apply in_enters in Hq. destruct Hq as (bq & Hq). apply in_split in Hq. destruct Hq as (c1 & c2 & Ec).
    assert (length (enters k2) = length (enters (c2 ++ (LEnter b0, p) :: m2))).
    { eapply (U k1 k2 c1 b' bq _ q E2). rewrite E3, Ec, <- app_assoc. reflexivity. }
    rewrite enters_app, app_length in H0. change (enters ((LEnter b0, p) :: m2)) with (p :: enters m2) in H0. simpl in H0. lia.
  - split; intros Hx; [|exfalso; eapply continues_neq; eauto].
    exfalso. rewrite (U k1 k2 m1 b' b0 m2 p E2 E3) in M2. lia.
  - split; intros Hx.
    + exfalso. apply in_enters in Hq. destruct Hq as (bq & Hq). apply in_split in Hq. destruct Hq as (c1 & c2 & Ec).
      assert (length (enters k2) = length (enters c2)).
      { eapply (U k1 k2 (m1 ++ (LEnter b0, p) :: c1) b' bq c2 q E2). rewrite E3, Ec. rewrite <- app_assoc. reflexivity. }
      rewrite Ec, enters_app, app_length in M1. change (enters ((LEnter bq, q) :: c2)) with (q :: enters c2) in M1. simpl in M1. lia.
    + (* entered before [p], yet continues [p]: then [p] was entered before [q] *)
      exfalso.
      assert (Hlog2 : exists k' o', dfs_log vid next starts pol m2 k' o').
      { clear - H E3. revert m1 E3. induction H; intros m1 E3; destruct m1 as [|x m1]; simpl in E3; try discriminate;
          injection E3 as E3a E3b; try discriminate E3a; subst; eauto; try (injection E3a as <- <-); eauto. }
      destruct Hlog2 as (k' & o' & Hlog2). destruct Hx as (d & Hd & ->).
      apply in_enters in Hq. destruct Hq as (bq & Hq).
      assert (Hp : entered log p) by (exists b0; rewrite E3; apply in_or_app; right; left; reflexivity).
      pose proof (dnode_nonempty _ _ _ (entered_dnode _ _ _ _ H _ Hp)) as Hne. destruct p as [|x p]; [congruence|].
      pose proof (log_suffix _ _ _ _ Hlog2 _ _ Hq x p d eq_refl Hd) as Hin2. apply in_enters in Hin2.
      apply NoDup_remove_2 in Hnd. apply Hnd. apply in_or_app. right. exact Hin2.
Qed.
End DFSLogMore.
