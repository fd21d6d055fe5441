(** The log of a depth-first search is determined by the graph and the decisions which vertices are expanded.
    So runs with different options can be compared. *)
From Coq Require Import List Bool Arith ZArith Lia.
From Verif Require Import Machine GearSpec Spec Common TraversalSpec DFSModel DFSSpec DFSTreeSpec DFSLog DFSLogMore
  DFSReports DFSProofs DFSTerm DFSWProofs DFSMain DFSTree DFSMore.
Import ListNotations.

Section Det.
Context {V I L : Type}.
Variable vid : V -> I.
Variable next : V -> list (V * L).
Variable starts : list V.
Variable pol : policy I.
Notation node := (node V).
Notation log_t := (log_t V).
Notation dfs_log := (dfs_log vid next starts pol).

Variable rule : log_t -> node -> bool.
Definition ruled (log : log_t) : Prop := forall l1 b p l2, log = l1 ++ (LEnter b, p) :: l2 -> b = rule l2 p.

Lemma ruled_app l1 l2 : ruled (l1 ++ l2) -> ruled l2.
Proof. intros H a b p c E. apply (H (l1 ++ a)). rewrite E, app_assoc. reflexivity. Qed.

Lemma kind_unique log p n k1 k2 : has_kind vid log p n k1 -> has_kind vid log p n k2 -> k1 = k2.
Proof. destruct k1, k2; cbn; tauto. Qed.

Lemma log_det : forall m log1 k1 o1 log2 k2 o2, length log1 = m -> length log2 = m -> dfs_log log1 k1 o1 -> dfs_log log2 k2 o2 ->
  ruled log1 -> ruled log2 -> log1 = log2 /\ k1 = k2 /\ o1 = o2.
Proof.
  induction m as [|m IH]; intros log1 k1 o1 log2 k2 o2 E1 E2 H1 H2 R1 R2.
  - destruct log1, log2; try discriminate. inversion H1; inversion H2; auto.
  - destruct log1 as [|x log1], log2 as [|y log2]; try discriminate. cbn in E1, E2. injection E1 as E1. injection E2 as E2.
    assert (R1' := ruled_app [x] _ R1). assert (R2' := ruled_app [y] _ R2).
    assert (B1 : forall b p, x = (LEnter b, p) -> b = rule log1 p) by (intros b p ->; apply (R1 []); reflexivity).
    assert (B2 : forall b p, y = (LEnter b, p) -> b = rule log2 p) by (intros b p ->; apply (R2 []); reflexivity).
    assert (T : forall k o k' o', dfs_log log1 k o -> dfs_log log2 k' o' -> log1 = log2 /\ k = k' /\ o = o').
    { intros. eapply IH; eauto. }
    clear IH R1 R2.
    inversion H1; subst; inversion H2; subst;
      match goal with A : dfs_log log1 ?k ?o, B : dfs_log log2 ?k' ?o' |- _ => destruct (T _ _ _ _ A B) as (El & Ek & Eo) end;
      try discriminate; subst.
    all: repeat match goal with H : S _ = S _ |- _ => injection H as H; subst end.
    all: try (injection Eo as Eo1 Eo2; subst).
    all: repeat match goal with A : nth_error ?l ?i = Some _, B : nth_error ?l ?i = Some _ |- _ => rewrite A in B; injection B as B end; subst.
    all: try contradiction.
    all: try (match goal with A : has_kind _ _ _ _ ?a, B : has_kind _ _ _ _ ?b |- _ => pose proof (kind_unique _ _ _ _ _ A B); subst end).
    all: try (pose proof (B1 _ _ eq_refl) as ->; pose proof (B2 _ _ eq_refl) as ->).
    all: auto.
Qed.

Lemma log_compare log1 k1 o1 log2 k2 o2 : dfs_log log1 k1 o1 -> dfs_log log2 k2 o2 -> ruled log1 -> ruled log2 ->
  length log1 <= length log2 -> exists d, log2 = d ++ log1.
Proof.
  intros H1 H2 R1 R2 Hle.
  assert (E : log2 = firstn (length log2 - length log1) log2 ++ skipn (length log2 - length log1) log2) by (symmetry; apply firstn_skipn).
  exists (firstn (length log2 - length log1) log2). rewrite E at 1. f_equal.
  rewrite E in H2, R2. destruct (log_suffix_log _ _ _ _ _ _ _ _ H2) as (k' & o' & H2'). apply ruled_app in R2.
  eapply log_det with (m := length log1); eauto. rewrite skipn_length. lia.
Qed.

Lemma complete_last log : dfs_log log (length starts) [] -> forall e k o, ~ dfs_log (e :: log) k o.
Proof.
  intros H e k o H'. assert (G : forall k1 o1, dfs_log log k1 o1 -> k1 = length starts /\ o1 = []).
  { clear - H. intros k1 o1 H1. 
    assert (D : forall log k o, dfs_log log k o -> forall k' o', dfs_log log k' o' -> k = k' /\ o = o').
    { clear. induction 1; intros k' o' H'; inversion H'; subst; auto;
      match goal with A : dfs_log ?l _ _ |- _ => destruct (IHdfs_log _ _ A) as (Ek & Eo) end; auto; subst; try discriminate; auto;
      inversion Eo; subst; auto. }
    destruct (D _ _ _ H1 _ _ H). auto. }
  inversion H'; subst; match goal with A : dfs_log log _ _ |- _ => destruct (G _ _ A) as (Ek & Eo) end; try discriminate; subst;
    match goal with A : nth_error starts (length starts) = Some _ |- _ => assert (length starts < length starts); [apply nth_error_Some; congruence|lia] end.
Qed.

Lemma complete_det log1 log2 : dfs_log log1 (length starts) [] -> dfs_log log2 (length starts) [] -> ruled log1 -> ruled log2 -> log1 = log2.
Proof.
  assert (G : forall l1 l2, dfs_log l1 (length starts) [] -> dfs_log l2 (length starts) [] -> ruled l1 -> ruled l2 -> length l1 <= length l2 -> l1 = l2).
  { intros l1 l2 H1 H2 R1 R2 Hle. destruct (log_compare _ _ _ _ _ _ H1 H2 R1 R2 Hle) as (d & ->).
    destruct d as [|x d]; auto. exfalso. 
    destruct (exists_last (l := x :: d)) as (d' & y & E); [discriminate|]. rewrite E, <- app_assoc in H2.
    destruct (log_suffix_log _ _ _ _ _ _ _ _ H2) as (k' & o' & H2'). exact (complete_last _ H1 _ _ _ H2'). }
  intros. destruct (Nat.le_ge_cases (length log1) (length log2)); [auto|symmetry; auto].
Qed.
End Det.

(** ** Reports and the decisions to expand *)
Section Rule.
Context {V I L : Type}.
Variable V_dec : forall a b : V, {a = b} + {a <> b}.
Variable VS : VSet I.
Variable PM : PMap I V.
Variable LM : PMap I L.
Variable XM : DMap I Z 0%Z.
Variable cfg : dfs_cfg.
Variable skip : nat -> bool.
Notation report := (@dfs_report V I L VS PM LM XM).
Variable see : log_t V -> log_event -> node V -> report -> Prop.
Notation reports := (reports V_dec VS PM LM XM cfg skip see).

Fixpoint count_shown (log : log_t V) : nat :=
  match log with
  | [] => 0
  | (e, p) :: log => (match shown V_dec cfg e p with Some _ => 1 | None => 0 end) + count_shown log
  end.

Definition skip_rule (log : log_t V) (p : node V) : bool :=
  match shown V_dec cfg (LEnter true) p with Some _ => negb (skip (count_shown log)) | None => true end.

Lemma reports_count log os : reports log os -> count_shown log = length os.
Proof.
  induction 1 as [|log os e p H IH Hs Hb|log os e j v p rep H IH Hs Hne Hv Hsee Hb]; cbn [count_shown length]; auto.
  - rewrite Hs. exact IH.
  - rewrite Hs. destruct (fr_event rep); [|congruence]. rewrite IH. reflexivity.
Qed.

Lemma reports_ruled log os : reports log os -> ruled skip_rule log.
Proof.
  induction 1 as [|log os e p H IH Hs Hb|log os e j v p rep H IH Hs Hne Hv Hsee Hb]; intros l1 b q l2 E.
  - destruct l1; discriminate.
  - destruct l1 as [|x l1]; cbn in E.
    + injection E as -> -> ->. unfold skip_rule. change (shown V_dec cfg (LEnter true) q) with (shown V_dec cfg (LEnter b) q). rewrite Hs. apply Hb. auto.
    + injection E as E1 E2. eapply IH; eauto.
  - destruct l1 as [|x l1]; cbn in E.
    + injection E as -> <- ->. subst. unfold skip_rule. change (shown V_dec cfg (LEnter true) ((j, fr_vertex rep) :: p)) with (shown V_dec cfg (LEnter b) ((j, fr_vertex rep) :: p)). rewrite Hs.
      destruct (fr_event rep); [|congruence]. rewrite (reports_count _ _ H). apply Hb. auto.
    + injection E as E1 E2. eapply IH; eauto.
Qed.

Lemma ruled_ext (r1 r2 : log_t V -> node V -> bool) log : (forall l p, r1 l p = r2 l p) -> ruled r1 log -> ruled r2 log.
Proof. intros H R l1 b p l2 E. rewrite <- H. eapply R; eauto. Qed.
End Rule.

(** ** Comparing two runs on the same log *)
Section Compare.
Context {V I L : Type}.
Variable V_dec : forall a b : V, {a = b} + {a <> b}.
Variable VS : VSet I.
Variable PM : PMap I V.
Variable LM : PMap I L.
Variable XM : DMap I Z 0%Z.
Variable cfg1 cfg2 : dfs_cfg.
Variable skip1 skip2 : nat -> bool.
Notation report := (@dfs_report V I L VS PM LM XM).
Variable see1 see2 : log_t V -> log_event -> node V -> report -> Prop.
Notation reports1 := (reports V_dec VS PM LM XM cfg1 skip1 see1).
Notation reports2 := (reports V_dec VS PM LM XM cfg2 skip2 see2).

(** Is the event of the report requested by [cfg1]? *)
Definition asked (rep : report) : bool := match fr_event rep with Some ev => dc_report cfg1 ev | None => false end.

Variable same : report -> report -> Prop.
Hypothesis Hsame : forall log e p r1 r2, see1 log e p r1 -> see2 log e p r2 -> fr_vertex r1 = fr_vertex r2 -> fr_event r1 = fr_event r2 -> same r1 r2.
Hypothesis Hshown : forall e p, shown V_dec cfg1 e p = match shown V_dec cfg2 e p with
                                                       | Some ev => if dc_report cfg1 ev then Some ev else None
                                                       | None => None
                                                       end.

Lemma reports_filter log os2 : reports2 log os2 -> forall os1, reports1 log os1 -> Forall2 same os1 (filter asked os2).
Proof.
  induction 1 as [|log os2 e p H IH Hs Hb|log os2 e j v p rep H IH Hs Hne Hv Hsee Hb]; intros os1 H1.
  - inversion H1; subst. constructor.
  - inversion H1; subst; auto. specialize (Hshown e ((j, fr_vertex rep) :: p0)). rewrite Hs in Hshown. congruence.
  - assert (Hx := Hshown e ((j, v) :: p)). rewrite Hs in Hx. unfold asked at 1. cbn [filter].
    inversion H1; subst.
    + destruct (fr_event rep) as [ev|]; [|congruence]. rewrite Hx in *. destruct (dc_report cfg1 ev); [discriminate|]. apply IH; auto.
    + destruct (fr_event rep) as [ev|] eqn:Ev; [|congruence]. destruct (dc_report cfg1 ev) eqn:Er; [|congruence].
      constructor; [|apply IH; auto]. eapply Hsame; eauto. congruence.
Qed.
End Compare.
