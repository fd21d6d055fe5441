(** From the log of a depth-first search to the sequence of entered vertices. *)
From Coq Require Import List Bool Arith ZArith Lia.
From Verif Require Import Machine GearSpec Spec Common TraversalSpec DFSModel DFSSpec DFSTreeSpec DFSLog DFSLogMore DFSReports DFSProofs DFSMain.
Import ListNotations.

Section DFSTree.
Context {V I L : Type}.
Variable vid : V -> I.
Variable next : V -> list (V * L).
Variable starts : list V.
Notation node := (node V).
Notation log_t := (log_t V).

Fixpoint entries (log : log_t) : list (entry V) :=
  match log with
  | [] => []
  | (LEnter b, p) :: log => entries log ++ entry_of b p
  | _ :: log => entries log
  end.

Lemma entries_app (l1 l2 : log_t) : entries (l1 ++ l2) = entries l2 ++ entries l1.
Proof.
  induction l1 as [|(e & p) l1 IH]; cbn [entries app]; [rewrite app_nil_r; reflexivity|].
  destruct e; auto. rewrite IH, app_assoc. reflexivity.
Qed.

Lemma in_entries e (log : log_t) : In e (entries log) <-> exists b j v q, In (LEnter b, (j, v) :: q) log /\
  e = {| en_above := rev (verts q); en_vertex := v; en_expanded := b |}.
Proof.
  induction log as [|(x & p) log IH]; cbn [entries].
  - split; [intros []|intros (b & j & v & q & [] & _)].
  - assert (G : In e (entries log) -> exists b j v q, In (LEnter b, (j, v) :: q) ((x, p) :: log) /\ e = {| en_above := rev (verts q); en_vertex := v; en_expanded := b |}).
    { intros H. apply IH in H. destruct H as (b & j & v & q & H & E). exists b, j, v, q. split; auto. right; auto. }
    assert (G' : (exists b j v q, In (LEnter b, (j, v) :: q) log /\ e = {| en_above := rev (verts q); en_vertex := v; en_expanded := b |}) -> In e (entries log)) by apply IH.
    destruct x; try (split; [exact G|intros (b & j & v & q & [H|H] & E); [discriminate H|apply G'; exists b, j, v, q; auto]]).
    rewrite in_app_iff. split.
    + intros [H|H]; [auto|]. destruct p as [|(j & v) q]; [destruct H|]. destruct H as [<-|[]]. exists expanded, j, v, q. split; auto. left; reflexivity.
    + intros (b & j & v & q & [H|H] & E).
      * injection H as -> ->. right. left. symmetry. exact E.
      * left. apply G'. exists b, j, v, q. auto.
Qed.

Lemma entries_split (log : log_t) : forall l1 e l2, entries log = l1 ++ e :: l2 ->
  exists g1 b j v q g2, log = g1 ++ (LEnter b, (j, v) :: q) :: g2 /\ entries g2 = l1 /\
    e = {| en_above := rev (verts q); en_vertex := v; en_expanded := b |}.
Proof.
  induction log as [|(x & p) log IH]; intros l1 e l2 H; cbn [entries] in H.
  - destruct l1; discriminate.
  - assert (G : forall l, entries log = l1 ++ e :: l -> exists g1 b j v q g2, (x, p) :: log = g1 ++ (LEnter b, (j, v) :: q) :: g2 /\ entries g2 = l1 /\
      e = {| en_above := rev (verts q); en_vertex := v; en_expanded := b |}).
    { intros l Hl. destruct (IH _ _ _ Hl) as (g1 & b & j & v & q & g2 & -> & E1 & E2). exists ((x, p) :: g1), b, j, v, q, g2. auto. }
    destruct x; eauto. destruct p as [|(j & v) q]; cbn [entry_of] in H; [rewrite app_nil_r in H; eauto|].
    destruct (exists_last (l := e :: l2)) as (l3 & e3 & E3); [discriminate|]. rewrite E3, app_assoc in H.
    apply app_inj_tail in H. destruct H as (H & H3). destruct l3 as [|e0 l3].
    + cbn in E3. injection E3 as E4 E5. exists [], expanded, j, v, q, log. rewrite app_nil_r in H. split; auto. split; auto. congruence.
    + cbn in E3. injection E3 as -> E5. apply (G l3). exact H.
Qed.

Variable pol : policy I.
Notation dfs_log := (dfs_log vid next starts pol).

Lemma log_tail x log k open : dfs_log (x :: log) k open -> exists k' o', dfs_log log k' o'.
Proof. inversion 1; subst; eauto. Qed.
Lemma log_suffix_log l1 : forall l2 k open, dfs_log (l1 ++ l2) k open -> exists k' o', dfs_log l2 k' o'.
Proof.
  induction l1 as [|x l1 IH]; intros l2 k open H; [eauto|]. apply log_tail in H. destruct H as (k' & o' & H). eapply IH; eauto.
Qed.

Lemma log_enter_inv b i v q log k open : dfs_log ((LEnter b, (i, v) :: q) :: log) k open ->
  (q = [] /\ exists k', dfs_log log k' [] /\ nth_error starts i = Some v /\ may_enter vid pol log [] v) \/
  (exists j u p open' l, q = (j, u) :: p /\ dfs_log log k ((q, S i) :: open') /\ nth_error (next u) i = Some (v, l) /\ may_enter vid pol log q v).
Proof.
  inversion 1; subst.
  - left. split; auto. eauto.
  - right. exists j, u, p, open0, l. auto.
Qed.

(** Each edge of an entered vertex that is closed leads to a vertex that came up. *)
Lemma closed_children log k open : dfs_log log k open -> forall j u p i n l, In (LEnter true, (j, u) :: p) log -> (forall r, ~ In ((j, u) :: p, r) open) ->
  nth_error (next u) i = Some (n, l) -> In ((i, n) :: (j, u) :: p) (arrivals log).
Proof.
  intros H j u p i n l Hin Ho Hn. pose proof (LogInv_holds _ _ _ _ _ _ _ H) as HI.
  destruct (li_kids _ _ _ _ _ HI j u p Hin i) as [(r & Hr & _)|(m & Hm)].
  - apply nth_error_Some. congruence.
  - destruct (Ho r Hr).
  - assert (Hd : dnode next starts ((i, m) :: (j, u) :: p)).
    { apply in_arrivals in Hm. destruct Hm as (e & _ & Hx). eapply li_dnode; eauto. }
    apply dnode_edge_inv in Hd. destruct Hd as (_ & l' & Hd). replace n with m by congruence. exact Hm.
Qed.
End DFSTree.

Section Tree.
Context {V I L : Type}.
Variable vid : V -> I.
Variable VS : VSet I.
Variable next : V -> list (V * L).
Variable starts : list V.
Variable P : I -> Prop.
Hypothesis P_dec : forall i, P i \/ ~ P i.
Notation node := (node V).
Notation log_t := (log_t V).
Notation dfs_log := (dfs_log vid next starts (PTree P)).
Notation entry_ids l := (map (fun x => vid (en_vertex x)) l).

Lemma entries_ids (log : log_t) i : (forall p, entered log p -> p <> []) -> In i (entry_ids (entries log)) <-> entered_id vid log i.
Proof.
  intros Hne. rewrite in_map_iff. split.
  - intros (e & <- & He). apply in_entries in He. destruct He as (b & j & v & q & He & ->). exists j, v, q. split; [exists b; exact He|reflexivity].
  - intros (j & v & q & (b & He) & <-). exists {| en_above := rev (verts q); en_vertex := v; en_expanded := b |}. split; auto.
    apply in_entries. exists b, j, v, q. auto.
Qed.

Lemma entered_id_dec (log : log_t) i : entered_id vid log i \/ ~ entered_id vid log i.
Proof.
  induction log as [|(e & p) log IH].
  - right. intros (j & v & q & (b & []) & _).
  - destruct IH as [IH|IH]; [left; apply entered_id_cons; auto|].
    destruct e; try (right; intros (j & v & q & (b & [Hx|Hx]) & Ei); [discriminate Hx|apply IH; exists j, v, q; split; auto; exists b; auto]).
    destruct p as [|(j & v) q]; [right; intros (j & v & q & (b & [Hx|Hx]) & Ei); [discriminate Hx|apply IH; exists j, v, q; split; auto; exists b; auto]|].
    destruct (vs_dec VS (vid v) i) as [Ei|Ei]; [left; exists j, v, q; split; auto; exists expanded; left; reflexivity|].
    right. intros (j' & v' & q' & (b & [Hx|Hx]) & Ei'); [injection Hx as -> -> -> ->; auto|apply IH; exists j', v', q'; split; auto; exists b; auto].
Qed.

Lemma arrived_done log k open : dfs_log log k open -> forall j v p, In ((j, v) :: p) (arrivals log) -> P (vid v) \/ entered_id vid log (vid v).
Proof.
  intros H j v p Hin. destruct (P_dec (vid v)); auto. destruct (entered_id_dec log (vid v)); auto.
  exfalso. eapply tree_arrivals; eauto.
Qed.

Lemma log_nonempty log k open : dfs_log log k open -> forall p, entered log p -> p <> [].
Proof. intros H p Hp. eapply dnode_nonempty, entered_dnode; eauto. Qed.

Lemma open_suffix (log : log_t) k p r o : dfs_log log k ((p, r) :: o) -> forall q r', In (q, r') ((p, r) :: o) -> q = p \/ continues p q.
Proof.
  intros H q r' Hin. pose proof (dl_chain _ _ _ _ _ _ _ H) as Hc. exact (chain_suffix _ Hc p r o eq_refl _ _ Hin).
Qed.

Lemma entries_length (log : log_t) : (forall p, entered log p -> p <> []) -> length (entries log) = length (enters log).
Proof.
  induction log as [|(e & p) log IH]; intros H; auto.
  assert (H' : forall q, entered log q -> q <> []) by (intros q Hq; apply H; apply entered_cons; auto). specialize (IH H').
  unfold enters in *. destruct e; cbn; auto. rewrite app_length, IH. destruct p as [|(j & v) q]; [|cbn; lia].
  exfalso. apply (H []); auto. exists expanded. left. reflexivity.
Qed.

Theorem tree_entries log k open : dfs_log log k open -> depth_first_tree vid (next_edge next) starts P (entries log).
Proof.
  intros H l1 e l2 E0. apply entries_split in E0. destruct E0 as (g1 & b & j & v & q & g2 & -> & <- & ->).
  apply log_suffix_log in H. destruct H as (k' & o' & H). cbn [en_vertex en_above].
  assert (Hdone : forall k0 open0, dfs_log g2 k0 open0 -> forall b0 j0 u p0, In (LEnter b0, (j0, u) :: p0) g2 -> b0 = true -> (forall r, ~ In ((j0, u) :: p0, r) open0) ->
    forall w, next_edge next u w -> P (vid w) \/ In (vid w) (entry_ids (entries g2))).
  { intros k0 open0 Hl b0 j0 u p0 Hin -> Ho w Hw. unfold next_edge in Hw. apply in_map_iff in Hw. destruct Hw as ((n & l) & <- & Hw).
    apply In_nth_error in Hw. destruct Hw as (i & Hw).
    pose proof (closed_children vid next starts _ _ _ _ Hl _ _ _ _ _ _ Hin Ho Hw) as Ha.
    rewrite entries_ids by (eapply log_nonempty; eauto). eapply arrived_done; eauto. }
  pose proof H as H0.
  apply log_enter_inv in H. destruct H as [(-> & k1 & H & Hs & Hm)|(j1 & u & p & op & l & Eq & H & Hn & Hm)].
  - split; [apply Hm|]. split; [rewrite entries_ids by (eapply log_nonempty; eauto); apply Hm|]. left. split; auto. split; [eapply nth_error_In; eauto|].
    intros w Hw i (Hex & w' & Hw' & <-). apply in_entries in Hw. destruct Hw as (b0 & j0 & u & p0 & Hin & ->). cbn [en_expanded en_vertex] in *.
    eapply Hdone; eauto.
  - split; [apply Hm|]. split; [rewrite entries_ids by (eapply log_nonempty; eauto); apply Hm|]. right.
    pose proof (LogInv_holds _ _ _ _ _ _ _ H) as HI.
    destruct (li_open _ _ _ _ _ HI q (S j) (or_introl eq_refl)) as (bq & m1 & m2 & Eg & Hc).
    assert (bq = true) as ->.
    { destruct bq; auto. exfalso.
      assert (S j = 0); [|discriminate]. subst q. eapply (li_skipped _ _ _ _ _ HI j1 u p); [|left; reflexivity]. rewrite Eg. apply in_or_app. right. left. reflexivity. }
    exists (entries m2), {| en_above := rev (verts p); en_vertex := u; en_expanded := true |}, (entries m1).
    split; [rewrite Eg, entries_app; cbn [entries]; subst q; cbn [entry_of]; rewrite <- app_assoc; reflexivity|].
    split; [subst q; reflexivity|]. split; [reflexivity|]. split; [unfold next_edge; apply nth_error_In in Hn; apply in_map_iff; exists (v, l); auto|].
    intros w Hw i (Hex & w' & Hw' & <-). apply in_entries in Hw. destruct Hw as (b0 & j0 & u0 & p0 & Hin & ->). cbn [en_expanded en_vertex] in *.
    eapply (Hdone _ _ H); [rewrite Eg; apply in_or_app; left; exact Hin|exact Hex| |exact Hw'].
    intros r Hr. apply Hc in Hin. destruct (open_suffix _ _ _ _ _ H _ _ Hr) as [E1|E1].
    + rewrite E1 in Hin. eapply continues_neq; eauto.
    + eapply continues_neq; [eapply continues_trans; [exact E1|exact Hin]|reflexivity].
Qed.

(** Preloaded vertices left aside, everything reachable along edges of expanded vertices is entered. *)
Theorem tree_all E log : presents vid next E -> dfs_log log (length starts) [] ->
  forall i, reachable (fun i j => avoiding E P i j /\ forall e, In e (entries log) -> vid (en_vertex e) = i -> en_expanded e = true)
                      (open_start vid starts P) i -> In i (entry_ids (entries log)).
Proof.
  intros HE H. apply reachable_ind'.
  - intros i (Hs & HP). apply in_map_iff in Hs. destruct Hs as (s & <- & Hs).
    apply In_nth_error in Hs. destruct Hs as (k & Hk). pose proof (complete_starts _ _ _ _ _ H _ _ Hk) as Hin.
    rewrite entries_ids by (eapply log_nonempty; eauto). destruct (arrived_done _ _ _ H _ _ _ Hin); [contradiction|auto].
  - intros i j _ Hi ((Hij & HP) & Hex). apply in_map_iff in Hi. destruct Hi as (e & <- & He).
    pose proof (Hex e He eq_refl) as Hexp. apply in_entries in He. destruct He as (b & j0 & u & p & Hin & ->). cbn [en_expanded en_vertex] in *. subst b.
    apply HE in Hij. apply in_map_iff in Hij. destruct Hij as ((n & l) & <- & Hn). cbn [fst] in *.
    apply In_nth_error in Hn. destruct Hn as (i0 & Hn).
    assert (Ha : In ((i0, n) :: (j0, u) :: p) (arrivals log)) by (eapply closed_children; eauto; intros r []).
    rewrite entries_ids by (eapply log_nonempty; eauto). destruct (arrived_done _ _ _ H _ _ _ Ha); [contradiction|auto].
Qed.
End Tree.
