(** The algorithm of Tarjan along the log of a depth-first search (DFSSpec). *)
From Coq Require Import List Bool Arith ZArith Lia Sorting.Sorted Sorting.Permutation.
From Verif Require Import Spec DFSSpec DFSLog DFSLogMore SCCSpec.
Import ListNotations.
Open Scope Z_scope.

Section SCCLog.
Context {V L : Type}.
Variable V_dec : forall a b : V, {a = b} + {a <> b}.
Variable next : V -> list (V * L).
Variable starts : list V.
Notation vid := (fun v : V => v).
Notation node := (node V).
Notation log_t := (log_t V).
Notation dfs_log := (dfs_log vid next starts (PTree (fun _ => False))).
Notation E := (edge_of next).
Notation leads := (leads E).

(** Vertex, number, low link; most recent first *)
Definition tent : Type := V * Z * Z.
Definition tv (e : tent) : V := fst (fst e).
Definition tn (e : tent) : Z := snd (fst e).

Definition set_low (u : V) (m : Z) (st : list tent) : list tent := map (fun e => if V_dec (tv e) u then (tv e, tn e, Z.min (snd e) m) else e) st.
Fixpoint find_tent (v : V) (st : list tent) : option tent := match st with [] => None | e :: r => if V_dec (tv e) v then Some e else find_tent v r end.
Fixpoint cut (v : V) (st : list tent) : list V * list tent :=
  match st with [] => ([], []) | e :: r => if V_dec (tv e) v then ([tv e], r) else let (a, b) := cut v r in (tv e :: a, b) end.

Definition tstep (e : log_event) (p : node) (num : Z) (x : list tent * list (list V)) : list tent * list (list V) :=
  let (st, out) := x in
  match e, p with
  | LEnter _, (_, v) :: _ => ((v, num, num) :: st, out)
  | LNonTree _, (_, n) :: (_, u) :: _ => match find_tent n st with Some e => (set_low u (tn e) st, out) | None => (st, out) end
  | LLeave, (_, v) :: q =>
      match find_tent v st with
      | None => (st, out)
      | Some e =>
          let st1 := match q with (_, u) :: _ => set_low u (snd e) st | [] => st end in
          if snd e =? tn e then let (c, r) := cut v st1 in (r, out ++ [c]) else (st1, out)
      end
  | _, _ => (st, out)
  end.
Fixpoint tlog (log : log_t) : list tent * list (list V) :=
  match log with [] => ([], []) | (e, p) :: l => tstep e p (Z.of_nat (length (enters l)) + 1) (tlog l) end.

(** ** Lists *)
Lemma set_low_in u m st w n l : In (w, n, l) (set_low u m st) <-> exists l0, In (w, n, l0) st /\ l = if V_dec w u then Z.min l0 m else l0.
Proof.
  unfold set_low. rewrite in_map_iff. split.
  - intros (((w0 & n0) & l0) & H & Hin). unfold tv, tn in H. cbn in H. destruct (V_dec w0 u) as [e|e]; injection H as <- <- <-; exists l0; (split; [exact Hin|]); destruct (V_dec w0 u); congruence.
  - intros (l0 & Hin & ->). exists (w, n, l0). split; [|exact Hin]. unfold tv, tn. cbn. destruct (V_dec w u); reflexivity.
Qed.
Lemma set_low_tv u m st : map tv (set_low u m st) = map tv st.
Proof. unfold set_low. rewrite map_map. apply map_ext. intros ((w & n) & l). unfold tv. cbn. destruct (V_dec w u); reflexivity. Qed.
Lemma set_low_tn u m st : map tn (set_low u m st) = map tn st.
Proof. unfold set_low. rewrite map_map. apply map_ext. intros ((w & n) & l). unfold tn, tv. cbn. destruct (V_dec w u); reflexivity. Qed.
Lemma find_tent_some v st e : find_tent v st = Some e -> In e st /\ tv e = v.
Proof. induction st as [|x r IH]; cbn; [discriminate|]. destruct (V_dec (tv x) v) as [H|H]; [intros K; injection K as <-; auto|]. intros K. destruct (IH K). auto. Qed.
Lemma find_tent_none v st : find_tent v st = None -> ~ In v (map tv st).
Proof. induction st as [|x r IH]; cbn; [intros _ []|]. destruct (V_dec (tv x) v) as [H|H]; [discriminate|]. intros K [K1|K1]; [auto|exact (IH K K1)]. Qed.
Lemma cut_split v st : In v (map tv st) -> exists a e r, st = a ++ e :: r /\ tv e = v /\ ~ In v (map tv a) /\ cut v st = (map tv (a ++ [e]), r).
Proof.
  induction st as [|x r IH]; cbn; [tauto|]. destruct (V_dec (tv x) v) as [H|H]; intros K.
  - exists [], x, r. cbn. auto.
  - destruct K as [K|K]; [contradiction|]. destruct (IH K) as (a & e & r0 & -> & K1 & K2 & K3). exists (x :: a), e, r0. cbn [app]. split; [reflexivity|]. split; [exact K1|].
    split; [intros [K4|K4]; auto|]. rewrite K3. reflexivity.
Qed.

Definition later (a b : tent) : Prop := tn b < tn a.
Definition grey (open : list (node * nat)) : list V := match open with (p, _) :: _ => verts p | [] => [] end.
Definition sees_edge (log : log_t) (u v : V) : Prop := exists i j p, In ((i, v) :: (j, u) :: p) (arrivals log).

Record TI (log : log_t) (open : list (node * nat)) (st : list tent) (out : list (list V)) : Prop := {
  ti_sorted : StronglySorted later st;
  ti_num : forall v n l, In (v, n, l) st -> exists l1 b j q l2, log = l1 ++ (LEnter b, (j, v) :: q) :: l2 /\ n = Z.of_nat (length (enters l2)) + 1;
  ti_entered : forall v, entered_id vid log v <-> In v (map tv st) \/ In v (concat out);
  ti_nodup : NoDup (map tv st ++ concat out);
  ti_grey : forall v, In v (grey open) -> In v (map tv st);
  ti_order : forall d g q, grey open = d ++ g :: q -> forall h m lh n lg, In h d -> In (h, m, lh) st -> In (g, n, lg) st -> n < m;
  ti_down : forall g n l x m lx, In g (grey open) -> In (g, n, l) st -> In (x, m, lx) st -> n <= m -> leads g x;
  ti_low : forall g n l, In g (grey open) -> In (g, n, l) st -> l <= n /\ exists y ly, In (y, l, ly) st /\ leads g y;
  ti_back : forall x m l, In (x, m, l) st -> ~ In x (grey open) -> exists y my ly, In (y, my, ly) st /\ my < m /\ leads x y;
  ti_edges : forall x m lx y my ly g n l, In (x, m, lx) st -> sees_edge log x y -> In (y, my, ly) st -> In g (grey open) -> In (g, n, l) st -> n <= m ->
    (forall h nh lh, In h (grey open) -> In (h, nh, lh) st -> nh <= m -> nh <= n) -> l <= my;
  ti_done : forall a C b, out = a ++ C :: b -> C <> [] /\ (forall x y, In x C -> In y C -> leads x y) /\ (forall x y, In x C -> E x y -> In y C \/ In y (concat a))
}.

(** ** Facts *)
Lemma leads_refl v : leads v v. Proof. exists []. constructor. Qed.
Lemma leads_trans a b c : leads a b -> leads b c -> leads a c.
Proof. intros (p & Hp) (q & Hq). exists (p ++ q). eapply walk_app; eauto. Qed.
Lemma leads_edge a b : E a b -> leads a b.
Proof. intros H. exists [b]. econstructor; [exact H|constructor]. Qed.
Lemma nth_edge u i n l : nth_error (next u) i = Some (n, l) -> E u n.
Proof. intros H. apply nth_error_In in H. apply in_map_iff. exists (n, l). auto. Qed.

Lemma in_tv v (st : list tent) : In v (map tv st) <-> exists n l, In (v, n, l) st.
Proof.
  rewrite in_map_iff. split; [intros (((w & n) & l) & <- & H); unfold tv; cbn; eauto|]. intros (n & l & H). exists (v, n, l). auto.
Qed.
Lemma sorted_split a e b : StronglySorted later (a ++ e :: b) -> (forall x, In x a -> tn e < tn x) /\ (forall x, In x b -> tn x < tn e).
Proof.
  induction a as [|y a IH]; cbn; intros H; inversion H as [|? ? H1 H2]; subst.
  - split; [intros x []|]. intros x Hx. rewrite Forall_forall in H2. exact (H2 x Hx).
  - destruct (IH H1) as (K1 & K2). split; [|exact K2]. intros x [<-|Hx]; [|auto]. rewrite Forall_forall in H2. apply (H2 e). apply in_or_app. right. now left.
Qed.
Lemma sorted_tail a b : StronglySorted later (a ++ b) -> StronglySorted later b.
Proof. induction a as [|y a IH]; cbn; intros H; [exact H|]. inversion H; subst. auto. Qed.
Lemma same_num st v n l w n' l' : StronglySorted later st -> In (v, n, l) st -> In (w, n', l') st -> n = n' -> (v, n, l) = (w, n', l').
Proof.
  intros HS H1 H2 <-. induction HS as [|e st HS IH HF]; [destruct H1|]. rewrite Forall_forall in HF. destruct H1 as [->|H1], H2 as [H2|H2]; auto.
  - specialize (HF _ H2). unfold later, tn in HF. cbn in HF. lia.
  - subst e. specialize (HF _ H1). unfold later, tn in HF. cbn in HF. lia.
Qed.
Lemma same_vertex st v n l n' l' : NoDup (map tv st) -> In (v, n, l) st -> In (v, n', l') st -> n = n' /\ l = l'.
Proof.
  intros HN H1 H2. induction st as [|e st IH]; [destruct H1|]. cbn in HN. inversion HN as [|? ? K1 K2]; subst. destruct H1 as [->|H1], H2 as [H2|H2].
  - injection H2 as <- <-. auto.
  - exfalso. apply K1. apply in_tv. exists n', l'. exact H2.
  - subst e. exfalso. apply K1. apply in_tv. exists n, l. exact H1.
  - auto.
Qed.
Lemma nodup_left {A} (a b : list A) : NoDup (a ++ b) -> NoDup a.
Proof. induction a as [|x a IH]; cbn; [constructor|]. intros H; inversion H; subst. constructor; [intros K; apply H2; apply in_or_app; auto|auto]. Qed.

(** With nothing open, the stack is empty. *)
Lemma ti_empty log st out : TI log [] st out -> st = [].
Proof.
  intros H. destruct st as [|e0 st0]; [reflexivity|exfalso].
  destruct (exists_last (l := e0 :: st0)) as (a & ((v & n) & l) & Ea); [discriminate|]. pose proof (ti_sorted _ _ _ _ H) as HS. rewrite Ea in HS. pose proof (sorted_split a (v, n, l) [] HS) as (K1 & _).
  destruct (ti_back _ _ _ _ H v n l) as (y & my & ly & Hy & Hlt & _); [rewrite Ea; apply in_or_app; right; now left|intros []|].
  rewrite Ea in Hy. apply in_app_or in Hy. destruct Hy as [Hy|[Hy|[]]].
  - specialize (K1 _ Hy). unfold tn in K1. cbn in K1. lia.
  - injection Hy as <- <- <-. lia.
Qed.

Lemma enters_num_lt l1 b p (l2 : log_t) : Z.of_nat (length (enters l2)) + 1 <= Z.of_nat (length (enters (l1 ++ (LEnter b, p) :: l2))).
Proof. rewrite enters_app, app_length. change (enters ((LEnter b, p) :: l2)) with (p :: enters l2). cbn [length]. lia. Qed.

Lemma ti_bound log open st out : TI log open st out -> forall v n l, In (v, n, l) st -> n <= Z.of_nat (length (enters log)).
Proof. intros H v n l Hin. destruct (ti_num _ _ _ _ H v n l Hin) as (l1 & b & j & q & l2 & -> & ->). apply enters_num_lt. Qed.

Lemma entered_id_other log e p i : (forall b, e <> LEnter b) -> (entered_id vid ((e, p) :: log) i <-> entered_id vid log i).
Proof.
  intros He. split; [|apply entered_id_cons]. intros (j & v & q & (b & [H|H]) & <-); [injection H as H _; exfalso; exact (He b H)|]. exists j, v, q. split; [exists b; exact H|reflexivity].
Qed.
Lemma entered_id_new log b j v p i : entered_id vid ((LEnter b, (j, v) :: p) :: log) i <-> v = i \/ entered_id vid log i.
Proof.
  split.
  - intros (j' & v' & q & (b' & [H|H]) & <-); [injection H as _ _ -> _; auto|]. right. exists j', v', q. split; [exists b'; exact H|reflexivity].
  - intros [<-|H]; [|apply entered_id_cons, H]. exists j, v, p. split; [exists b; now left|reflexivity].
Qed.
Lemma num_cons e (log : log_t) v n : (exists l1 b j q l2, log = l1 ++ (LEnter b, (j, v) :: q) :: l2 /\ n = Z.of_nat (length (enters l2)) + 1) ->
  exists l1 b j q l2, e :: log = l1 ++ (LEnter b, (j, v) :: q) :: l2 /\ n = Z.of_nat (length (enters l2)) + 1.
Proof. intros (l1 & b & j & q & l2 & -> & ->). exists (e :: l1), b, j, q, l2. auto. Qed.

(** A vertex [v] is entered, from the innermost vertex [u] or as start vertex. *)
Lemma ti_enter log k open st out b j v q m open' :
  dfs_log log k open -> TI log open st out -> ~ entered_id vid log v ->
  (match q with [] => open = [] | (ju, u) :: q' => E u v /\ open = (q, S j) :: open' end) ->
  forall o', TI ((LEnter b, (j, v) :: q) :: log) (((j, v) :: q, m) :: o') ((v, Z.of_nat (length (enters log)) + 1, Z.of_nat (length (enters log)) + 1) :: st) out.
Proof.
  intros Hlog H Hnew Hq o'. set (N := Z.of_nat (length (enters log)) + 1).
  assert (HB : forall w n l, In (w, n, l) st -> n < N) by (intros w n l Hin; pose proof (ti_bound _ _ _ _ H _ _ _ Hin); unfold N; lia).
  assert (Hv : ~ In v (map tv st ++ concat out)).
  { intros K. apply Hnew. apply (ti_entered _ _ _ _ H). apply in_app_or in K. exact K. }
  assert (Hgr : forall w, In w (verts q) <-> In w (grey open)).
  { intros w. destruct q as [|(ju & u) q']; [subst open; tauto|]. destruct Hq as (_ & ->). tauto. }
  assert (Hgrey : grey open = verts q) by (destruct q as [|(ju & u) q']; [subst open; reflexivity|destruct Hq as (_ & ->); reflexivity]).
  assert (Hv' : forall n l, ~ In (v, n, l) st).
  { intros n l K. apply Hv. apply in_or_app. left. apply in_tv. eauto. }
  assert (Hu : forall g n l, In g (verts q) -> In (g, n, l) st -> leads g v).
  { intros g n l Hg Hin. destruct q as [|(ju & u) q']; [destruct Hg|]. destruct Hq as (HE & Ho).
    assert (Hu : In u (grey open)) by (rewrite Hgrey; now left). destruct (proj1 (in_tv u st) (ti_grey _ _ _ _ H u Hu)) as (nu & lu & Hin').
    apply leads_trans with u; [|apply leads_edge, HE]. apply (ti_down _ _ _ _ H g n l u nu lu); auto; [apply Hgr, Hg|].
    destruct Hg as [Hg|Hg]; [cbn in Hg; subst g; destruct (same_vertex st u n l nu lu (nodup_left _ _ (ti_nodup _ _ _ _ H)) Hin Hin'); lia|].
    apply in_split in Hg. destruct Hg as (d & r & Hd). assert (n < nu); [|lia].
    apply (ti_order _ _ _ _ H (u :: d) g r) with (h := u) (lh := lu) (lg := l); auto; [|now left]. rewrite Hgrey. cbn. change (map snd q') with (verts q'). rewrite Hd. reflexivity. }
  assert (Hseen : forall x y, sees_edge ((LEnter b, (j, v) :: q) :: log) x y -> sees_edge log x y \/ (y = v /\ exists ju q', q = (ju, x) :: q')).
  { intros x y (i & jx & p & Hin). unfold arrivals in Hin. cbn [filter fst arrival map snd] in Hin. destruct Hin as [Hin|Hin]; [right; injection Hin as _ -> ->; eauto|]. left. exists i, jx, p. exact Hin. }
  assert (Hsold : forall x y, sees_edge log x y -> entered_id vid log x).
  { intros x y (i & jx & p & Hin). apply in_arrivals in Hin. destruct Hin as (e & _ & Hin). exists jx, x, p. split; [|reflexivity]. exact (li_parent _ _ _ _ _ (LogInv_holds _ _ _ _ _ _ _ Hlog) _ _ _ _ Hin). }
  constructor.
  - constructor; [exact (ti_sorted _ _ _ _ H)|]. apply Forall_forall. intros ((w & n) & l) Hin. unfold later, tn. cbn. exact (HB w n l Hin).
  - intros w n l [Hin|Hin]; [injection Hin as <- <- <-; exists [], b, j, q, log; auto|]. apply num_cons. exact (ti_num _ _ _ _ H w n l Hin).
  - intros w. rewrite entered_id_new, (ti_entered _ _ _ _ H w). cbn [map tv fst In]. tauto.
  - cbn [map tv fst app]. constructor; [exact Hv|exact (ti_nodup _ _ _ _ H)].
  - cbn [grey verts map snd fst]. intros w [<-|Hw]; [now left|right]. apply (ti_grey _ _ _ _ H). apply Hgr, Hw.
  - cbn [grey verts map snd]. intros d g r Hd h mh lh n lg Hh H1 H2. destruct d as [|x d]; [destruct Hh|]. cbn in Hd. injection Hd as <- Hd.
    assert (Hg : In g (grey open)) by (rewrite Hgrey; unfold verts; rewrite Hd; apply in_or_app; right; now left).
    assert (Hgv : g <> v) by (intros ->; apply ti_grey with (1 := H) in Hg; apply Hv, in_or_app; auto).
    destruct H2 as [H2|H2]; [injection H2 as H2 _ _; congruence|]. destruct Hh as [<-|Hh].
    + destruct H1 as [H1|H1]; [injection H1 as <- <-; exact (HB _ _ _ H2)|destruct (Hv' _ _ H1)].
    + assert (Hhv : h <> v). { intros ->. apply Hv, in_or_app. left. apply (ti_grey _ _ _ _ H). rewrite Hgrey. unfold verts. rewrite Hd. apply in_or_app; auto. }
      destruct H1 as [H1|H1]; [injection H1 as H1 _ _; congruence|]. apply (ti_order _ _ _ _ H d g r) with (h := h) (lh := lh) (lg := lg); auto. rewrite Hgrey. exact Hd.
  - cbn [grey verts map snd]. intros g n l x mx lx Hg H1 H2 Hle. destruct H1 as [H1|H1].
    + injection H1 as <- <- <-. destruct H2 as [H2|H2]; [injection H2 as <- _ _; apply leads_refl|]. pose proof (HB _ _ _ H2). lia.
    + destruct Hg as [<-|Hg]; [destruct (Hv' _ _ H1)|]. destruct H2 as [H2|H2]; [injection H2 as <- _ _; exact (Hu g n l Hg H1)|]. apply (ti_down _ _ _ _ H g n l x mx lx); auto. apply Hgr, Hg.
  - cbn [grey verts map snd]. intros g n l Hg [H1|H1].
    + injection H1 as <- <- <-. split; [lia|]. exists v, N. split; [now left|apply leads_refl].
    + destruct Hg as [<-|Hg]; [destruct (Hv' _ _ H1)|]. destruct (ti_low _ _ _ _ H g n l) as (K1 & y & ly & K2 & K3); auto; [apply Hgr, Hg|]. split; [exact K1|]. exists y, ly. split; [now right|exact K3].
  - cbn [grey verts map snd]. intros x mx l [H1|H1] Hng; [injection H1 as <- _ _; exfalso; apply Hng; now left|].
    destruct (ti_back _ _ _ _ H x mx l H1) as (y & my & ly & K1 & K2 & K3); [intros K; apply Hng; right; apply Hgr, K|]. exists y, my, ly. split; [now right|auto].
  - cbn [grey verts map snd]. intros x mx lx y my ly g n l H1 HE H2 Hg H3 Hle Hmax.
    destruct H1 as [H1|H1].
    { injection H1 as <- <- <-. exfalso. destruct (Hseen _ _ HE) as [K|(-> & ju & q' & ->)]; [exact (Hnew (Hsold _ _ K))|]. apply Hv, in_or_app. left. apply (ti_grey _ _ _ _ H). apply Hgr. now left. }
    destruct Hg as [<-|Hg].
    { destruct H3 as [H3|H3]; [injection H3 as <- <-; pose proof (HB _ _ _ H1); lia|destruct (Hv' _ _ H3)]. }
    assert (Hgv : g <> v) by (intros ->; apply Hv, in_or_app; left; apply (ti_grey _ _ _ _ H), Hgr, Hg).
    destruct H3 as [H3|H3]; [injection H3 as H3 _ _; congruence|].
    destruct H2 as [H2|H2].
    { injection H2 as <- <- <-. pose proof (proj1 (ti_low _ _ _ _ H g n l (proj1 (Hgr g) Hg) H3)). pose proof (HB _ _ _ H3). lia. }
    destruct (Hseen _ _ HE) as [K|(-> & _)]; [|destruct (Hv' _ _ H2)].
    apply (ti_edges _ _ _ _ H x mx lx y my ly g n l); auto; [apply Hgr, Hg|]. intros h nh lh Hh1 Hh2 Hh3. apply (Hmax h nh lh); auto; [right; apply Hgr, Hh1|now right].
  - exact (ti_done _ _ _ _ H).
Qed.

(** Lower a low link. *)
Definition lowered (u : V) (m : Z) (st st' : list tent) : Prop :=
  map tv st' = map tv st /\ map tn st' = map tn st /\
  forall w n l', In (w, n, l') st' <-> exists l, In (w, n, l) st /\ l' = if V_dec w u then Z.min l m else l.
Lemma set_low_lowered u m st : lowered u m st (set_low u m st).
Proof. split; [apply set_low_tv|]. split; [apply set_low_tn|]. intros w n l'. apply set_low_in. Qed.
Lemma sorted_tn st st' : map tn st' = map tn st -> StronglySorted later st -> StronglySorted later st'.
Proof.
  revert st'. induction st as [|e st IH]; intros [|e' st'] Hm HS; try discriminate; [constructor|]. cbn in Hm. injection Hm as H1 H2. inversion HS as [|? ? K1 K2]; subst. constructor; [auto|].
  apply Forall_forall. intros x Hx. rewrite Forall_forall in K2. unfold later. rewrite H1. apply (in_map tn) in Hx. rewrite H2 in Hx. apply in_map_iff in Hx. destruct Hx as (y & <- & Hy). exact (K2 y Hy).
Qed.

(** The innermost vertex [u] has an edge to the vertex [n] that has been entered before. *)
Lemma ti_non_tree log k open st out kind r n ju u q m open' m' :
  dfs_log log k open -> TI log open st out -> E u n -> open = ((ju, u) :: q, m) :: open' ->
  TI ((LNonTree kind, (r, n) :: (ju, u) :: q) :: log) (((ju, u) :: q, m') :: open') (match find_tent n st with Some e => set_low u (tn e) st | None => st end) out.
Proof.
  intros Hlog H HE ->.
  assert (HN : NoDup (map tv st)) by exact (nodup_left _ _ (ti_nodup _ _ _ _ H)).
  assert (Hgu : In u (grey (((ju, u) :: q, m) :: open'))) by (now left).
  assert (Hseen : forall x y, sees_edge ((LNonTree kind, (r, n) :: (ju, u) :: q) :: log) x y -> sees_edge log x y \/ (x = u /\ y = n)).
  { intros x y (i & jx & p & Hin). unfold arrivals in Hin. cbn [filter fst arrival map snd] in Hin. destruct Hin as [Hin|Hin]; [right; injection Hin as _ -> _ -> _; auto|]. left. exists i, jx, p. exact Hin. }
  assert (Hent : forall v, entered_id vid ((LNonTree kind, (r, n) :: (ju, u) :: q) :: log) v <-> entered_id vid log v) by (intros v; apply entered_id_other; discriminate).
  destruct (find_tent n st) as [((n0 & nn) & ln)|] eqn:Hf.
  - apply find_tent_some in Hf. destruct Hf as (Hn & Hn0). unfold tv in Hn0. cbn in Hn0. subst n0. unfold tn. cbn [fst snd]. destruct (set_low_lowered u nn st) as (T1 & T2 & T3). set (st' := set_low u nn st) in *.
    constructor.
    + exact (sorted_tn st st' T2 (ti_sorted _ _ _ _ H)).
    + intros v nv l Hin. apply T3 in Hin. destruct Hin as (l0 & Hin & _). apply num_cons. exact (ti_num _ _ _ _ H v nv l0 Hin).
    + intros v. rewrite Hent, T1. exact (ti_entered _ _ _ _ H v).
    + rewrite T1. exact (ti_nodup _ _ _ _ H).
    + rewrite T1. exact (ti_grey _ _ _ _ H).
    + intros d g rr Hd h mh lh ng lg Hh H1 H2. apply T3 in H1. apply T3 in H2. destruct H1 as (l1 & H1 & _), H2 as (l2 & H2 & _). exact (ti_order _ _ _ _ H d g rr Hd h mh l1 ng l2 Hh H1 H2).
    + intros g ng l x mx lx Hg H1 H2 Hle. apply T3 in H1. apply T3 in H2. destruct H1 as (l1 & H1 & _), H2 as (l2 & H2 & _). exact (ti_down _ _ _ _ H g ng l1 x mx l2 Hg H1 H2 Hle).
    + intros g ng l Hg H1. apply T3 in H1. destruct H1 as (l0 & H1 & ->). destruct (ti_low _ _ _ _ H g ng l0 Hg H1) as (K1 & y & ly & K2 & K3).
      assert (K2' : exists ly', In (y, l0, ly') st') by (eexists; apply T3; exists ly; split; [exact K2|reflexivity]). destruct K2' as (ly' & K2').
      destruct (V_dec g u) as [->|Hgu']; [|split; [exact K1|exists y, ly'; auto]].
      destruct (Z.min_spec l0 nn) as [(K4 & ->)|(K4 & ->)]; [split; [exact K1|exists y, ly'; auto]|]. split; [lia|]. exists n. eexists. split; [apply T3; exists ln; split; [exact Hn|reflexivity]|apply leads_edge, HE].
    + intros x mx l Hin Hng. apply T3 in Hin. destruct Hin as (l0 & Hin & _). destruct (ti_back _ _ _ _ H x mx l0 Hin Hng) as (y & my & ly & K1 & K2 & K3).
      exists y, my. eexists. split; [apply T3; exists ly; split; [exact K1|reflexivity]|auto].
    + intros x mx lx y my ly g ng l H1 Hs H2 Hg H3 Hle Hmax. apply T3 in H1. apply T3 in H2. apply T3 in H3. destruct H1 as (l1 & H1 & _), H2 as (l2 & H2 & _), H3 as (l3 & H3 & ->).
      destruct (Hseen _ _ Hs) as [K|(-> & ->)].
      * assert (l3 <= my); [|destruct (V_dec g u); lia]. apply (ti_edges _ _ _ _ H x mx l1 y my l2 g ng l3); auto. intros h nh lh K1 K2 K3. eapply Hmax; [exact K1|apply T3; exists lh; split; [exact K2|reflexivity]|exact K3].
      * destruct (same_vertex st n my l2 nn ln HN H2 Hn) as (-> & _). assert (Hmg : mx <= ng) by (eapply Hmax; [exact Hgu|apply T3; exists l1; split; [exact H1|reflexivity]|lia]).
        pose proof (same_num st u mx l1 g ng l3 (ti_sorted _ _ _ _ H) H1 H3 ltac:(lia)) as Heq. injection Heq as <- _ _. destruct (V_dec u u); [lia|congruence].
    + exact (ti_done _ _ _ _ H).
  - apply find_tent_none in Hf. constructor; try exact (ti_sorted _ _ _ _ H).
    + intros v nv l Hin. apply num_cons. exact (ti_num _ _ _ _ H v nv l Hin).
    + intros v. rewrite Hent. exact (ti_entered _ _ _ _ H v).
    + exact (ti_nodup _ _ _ _ H).
    + exact (ti_grey _ _ _ _ H).
    + exact (ti_order _ _ _ _ H).
    + exact (ti_down _ _ _ _ H).
    + exact (ti_low _ _ _ _ H).
    + exact (ti_back _ _ _ _ H).
    + intros x mx lx y my ly g ng l H1 Hs H2 Hg H3 Hle Hmax. destruct (Hseen _ _ Hs) as [K|(-> & ->)]; [|exfalso; apply Hf, in_tv; eauto].
      exact (ti_edges _ _ _ _ H x mx lx y my ly g ng l H1 K H2 Hg H3 Hle Hmax).
    + exact (ti_done _ _ _ _ H).
Qed.

Lemma ti_skip log k st out s : dfs_log log k [] -> TI log [] st out -> TI ((LSkipStart, [(k, s)]) :: log) [] st out.
Proof.
  intros Hlog H. pose proof (ti_empty _ _ _ H) as ->. constructor; try (cbn; intros; contradiction); try exact (ti_sorted _ _ _ _ H).
  - intros v. rewrite entered_id_other by discriminate. exact (ti_entered _ _ _ _ H v).
  - exact (ti_nodup _ _ _ _ H).
  - exact (ti_done _ _ _ _ H).
Qed.

(** All edges of entered vertices that are not open have been seen. *)
Lemma seen_all log k open : dfs_log log k open -> all_expanded log -> forall x, entered_id vid log x ->
  (forall j p r, In ((j, x) :: p, r) open -> r = O) -> forall y, E x y -> sees_edge log x y.
Proof.
  intros Hlog Hall x (j & v & p & He & Hv) Ho y HE. cbn in Hv. subst v. apply in_map_iff in HE. destruct HE as ((y0 & l) & Hy & Hin). cbn in Hy. subst y0. apply In_nth_error in Hin. destruct Hin as (i & Hi).
  pose proof (LogInv_holds _ _ _ _ _ _ _ Hlog) as HL. pose proof (all_expanded_enter _ _ Hall He) as Hen.
  destruct (li_kids _ _ _ _ _ HL j x p Hen i) as [(r & Hr & Hlt)|(n & Hn)].
  - apply nth_error_Some. congruence.
  - rewrite (Ho j p r Hr) in Hlt. lia.
  - assert (Hd : dnode next starts ((i, n) :: (j, x) :: p)) by (apply in_arrivals in Hn; destruct Hn as (e & _ & Hn); exact (li_dnode _ _ _ _ _ HL _ _ Hn)).
    inversion Hd; subst. assert (n = y) by congruence. subst n. exists i, j, p. exact Hn.
Qed.
Lemma seen_entered log k open : dfs_log log k open -> forall x y, sees_edge log x y -> ~ ~ entered_id vid log y.
Proof. intros Hlog x y (i & j & p & Hin) Hno. apply (tree_arrivals _ _ _ _ _ _ _ Hlog i y ((j, x) :: p) Hin). split; [tauto|exact Hno]. Qed.
Lemma leads_closed (P : V -> Prop) : (forall x y, P x -> E x y -> P y) -> forall x y, leads x y -> P x -> P y.
Proof. intros Hc x y (p & Hp). induction Hp as [|a b p c He Hw IH]; [auto|]. intros Ha. apply IH. exact (Hc a b Ha He). Qed.

(** ** Leaving a vertex *)
Definition low_opt (q : node) (m : Z) (st : list tent) : list tent := match q with (_, u) :: _ => set_low u m st | [] => st end.
Lemma low_opt_spec (q : node) m st : let st' := low_opt q m st in
  map tv st' = map tv st /\ map tn st' = map tn st /\
  (forall w n l', In (w, n, l') st' -> exists l, In (w, n, l) st /\ l' <= l /\ (l' = l \/ (l' = m /\ exists i q', q = (i, w) :: q'))) /\
  (forall w n l, In (w, n, l) st -> exists l', In (w, n, l') st') /\
  (forall i u q' n l', q = (i, u) :: q' -> In (u, n, l') st' -> l' <= m).
Proof.
  destruct q as [|(i & u) q']; cbn [low_opt].
  - repeat split; auto; [intros w n l Hin; exists l; split; [exact Hin|split; [lia|auto]]|intros w n l Hin; eauto|discriminate].
  - destruct (set_low_lowered u m st) as (T1 & T2 & T3). split; [exact T1|]. split; [exact T2|]. split; [|split].
    + intros w n l' Hin. apply T3 in Hin. destruct Hin as (l & Hin & ->). exists l. split; [exact Hin|]. destruct (V_dec w u) as [->|Hw]; [|split; [lia|auto]]. split; [lia|].
      destruct (Z.min_spec l m) as [(K & ->)|(K & ->)]; [auto|right; eauto].
    + intros w n l Hin. eexists. apply T3. exists l. split; [exact Hin|reflexivity].
    + intros i0 u0 q0 n l' Hq Hin. injection Hq as _ <- _. apply T3 in Hin. destruct Hin as (l & _ & ->). destruct (V_dec u u); [lia|congruence].
Qed.
Lemma set_low_id u m st : (forall n l, In (u, n, l) st -> l <= m) -> set_low u m st = st.
Proof.
  intros H. unfold set_low. rewrite <- (map_id st) at 2. apply map_ext_in. intros ((w & n) & l) Hin. unfold tv, tn. cbn. destruct (V_dec w u) as [->|]; [|reflexivity]. specialize (H _ _ Hin). rewrite Z.min_l by lia. reflexivity.
Qed.

Lemma sees_edge_leave (log : log_t) p x y : sees_edge ((LLeave, p) :: log) x y -> sees_edge log x y.
Proof. intros (i & j & q & H). exists i, j, q. exact H. Qed.

Lemma chain_verts (o : list (node * nat)) : chain o -> forall p0 r0 o0 j x p r, o = (p0, r0) :: o0 -> In ((j, x) :: p, r) o -> In x (verts p0).
Proof.
  induction 1 as [|x0 r1|i n p1 r1 o1 Hc IH]; intros p0 r0 o0 j x p r Eo Ho.
  - discriminate.
  - destruct Ho as [Ho|[]]. injection Eo as <- _ _. injection Ho as -> _ _. now left.
  - injection Eo as <- _ _. destruct Ho as [Ho|Ho]; [injection Ho as _ -> _ _; now left|]. right. eapply IH; [reflexivity|exact Ho].
Qed.
Section Leave.
Variables (log : log_t) (k : nat) (open' : list (node * nat)) (st : list tent) (out : list (list V)) (j : nat) (v : V) (q : node).
Hypothesis Hlog : dfs_log log k (((j, v) :: q, O) :: open').
Hypothesis Hall : all_expanded log.
Hypothesis H : TI log (((j, v) :: q, O) :: open') st out.
Variables (nv lv : Z).
Hypothesis Hv : In (v, nv, lv) st.

Let HN : NoDup (map tv st) := nodup_left _ _ (ti_nodup _ _ _ _ H).
Lemma lv_grey : grey open' = verts q.
Proof.
  pose proof (li_chain _ _ _ _ _ (LogInv_holds _ _ _ _ _ _ _ Hlog)) as Hc. inversion Hc; subst; reflexivity.
Qed.
Lemma lv_above g n l : In g (verts q) -> In (g, n, l) st -> n < nv.
Proof.
  intros Hg Hin. apply in_split in Hg. destruct Hg as (d & r & Hd). apply (ti_order _ _ _ _ H (v :: d) g r) with (h := v) (lh := lv) (lg := l); [cbn; f_equal; exact Hd|now left|exact Hv|exact Hin].
Qed.
Lemma lv_max h n l : In h (verts ((j, v) :: q)) -> In (h, n, l) st -> n <= nv.
Proof. intros [<-|Hh] Hin; [destruct (same_vertex st v n l nv lv HN Hin Hv); lia|]. pose proof (lv_above h n l Hh Hin). lia. Qed.
Lemma lv_open x n l : In (x, n, l) st -> nv <= n -> forall j' p r, In ((j', x) :: p, r) (((j, v) :: q, O) :: open') -> r = O.
Proof.
  intros Hin Hle j' p r [Heq|Ho]; [injection Heq as _ _ _ <-; reflexivity|exfalso].
  assert (Hx : In x (verts q)).
  { pose proof (li_chain _ _ _ _ _ (LogInv_holds _ _ _ _ _ _ _ Hlog)) as Hc. inversion Hc; subst; [destruct Ho|]. eapply chain_verts; [eassumption|reflexivity|eassumption]. }
  pose proof (lv_above x n l Hx Hin). lia.
Qed.
Lemma lv_closed : lv = nv -> forall x y, (exists n l, In (x, n, l) st /\ nv <= n) -> E x y -> (exists n l, In (y, n, l) st /\ nv <= n) \/ In y (concat out).
Proof.
  intros Hr x y (n & l & Hin & Hle) HE.
  assert (Hs : sees_edge log x y).
  { apply (seen_all log k _ Hlog Hall x); [apply (ti_entered _ _ _ _ H); left; apply in_tv; eauto|exact (lv_open x n l Hin Hle)|exact HE]. }
  destruct (in_dec V_dec y (concat out)) as [K|K]; [auto|left].
  destruct (in_dec V_dec y (map tv st)) as [K'|K'].
  - apply in_tv in K'. destruct K' as (my & ly & K'). exists my, ly. split; [exact K'|]. rewrite <- Hr. apply (ti_edges _ _ _ _ H x n l y my ly v nv lv Hin Hs K'); [now left|exact Hv|exact Hle|].
    intros h nh lh Hh Hh' _. exact (lv_max h nh lh Hh Hh').
  - exfalso. apply (seen_entered log k _ Hlog x y Hs). intros He. apply (ti_entered _ _ _ _ H) in He. tauto.
Qed.
Lemma lv_closed_leads : lv = nv -> forall x y, leads x y -> ((exists n l, In (x, n, l) st /\ nv <= n) \/ In x (concat out)) -> ((exists n l, In (y, n, l) st /\ nv <= n) \/ In y (concat out)).
Proof.
  intros Hr x y Hl. apply (leads_closed (fun x => (exists n l, In (x, n, l) st /\ nv <= n) \/ In x (concat out))); [|exact Hl].
  intros a b [Ha|Ha] HE; [exact (lv_closed Hr a b Ha HE)|]. right. apply in_concat in Ha. destruct Ha as (C & HC & Ha). apply in_split in HC. destruct HC as (o1 & o2 & ->).
  destruct (ti_done _ _ _ _ H o1 C o2 eq_refl) as (_ & _ & K). rewrite concat_app. cbn. destruct (K a b Ha HE); repeat rewrite in_app_iff; auto.
Qed.
Lemma lv_to_root : lv = nv -> forall (d : nat) x n l, In (x, n, l) st -> nv <= n -> (Z.to_nat (n - nv) < d)%nat -> leads x v.
Proof.
  intros Hr. induction d as [|d IH]; intros x n l Hin Hle Hd; [lia|]. destruct (V_dec x v) as [->|Hx]; [apply leads_refl|].
  destruct (ti_back _ _ _ _ H x n l Hin) as (y & my & ly & Hy & Hlt & Hl).
  - intros [K|K]; [cbn in K; congruence|]. pose proof (lv_above x n l K Hin). lia.
  - assert (Hmy : nv <= my).
    { destruct (lv_closed_leads Hr x y Hl) as [(n' & l' & K1 & K2)|K]; [left; eauto| |].
      - destruct (same_vertex st y n' l' my ly HN K1 Hy). lia.
      - exfalso. assert (Hyt : In y (map tv st)) by (apply in_tv; eauto). pose proof (ti_nodup _ _ _ _ H) as Hnd. clear - Hyt K Hnd. induction (map tv st) as [|a t IHt]; [destruct Hyt|]. cbn in Hnd. inversion Hnd as [|? ? H1 H2]; subst.
        destruct Hyt as [->|Hyt]; [apply H1, in_or_app; auto|auto]. }
    apply leads_trans with (b := y); [exact Hl|]. apply (IH y my ly Hy Hmy). lia.
Qed.

Lemma ti_leave_inner : lv <> nv -> TI ((LLeave, (j, v) :: q) :: log) open' (low_opt q lv st) out.
Proof.
  intros Hne. destruct (low_opt_spec q lv st) as (T1 & T2 & T3 & T4 & T5). set (st' := low_opt q lv st) in *.
  assert (Hgv : In v (grey (((j, v) :: q, O) :: open'))) by (now left).
  assert (Hgq : forall g, In g (verts q) -> In g (grey (((j, v) :: q, O) :: open'))) by (intros g Hg; right; exact Hg).
  destruct (ti_low _ _ _ _ H v nv lv Hgv Hv) as (Hlv & yv & lyv & Hyv & Hleadv).
  constructor; try rewrite lv_grey.
  - exact (sorted_tn st st' T2 (ti_sorted _ _ _ _ H)).
  - intros w n l Hin. apply T3 in Hin. destruct Hin as (l0 & Hin & _). apply num_cons. exact (ti_num _ _ _ _ H w n l0 Hin).
  - intros w. rewrite entered_id_other by discriminate. rewrite T1. exact (ti_entered _ _ _ _ H w).
  - rewrite T1. exact (ti_nodup _ _ _ _ H).
  - intros w Hw. rewrite T1. exact (ti_grey _ _ _ _ H w (Hgq w Hw)).
  - intros d g r Hd h m lh n lg Hh H1 H2. apply T3 in H1. apply T3 in H2. destruct H1 as (l1 & H1 & _), H2 as (l2 & H2 & _).
    apply (ti_order _ _ _ _ H (v :: d) g r) with (h := h) (lh := l1) (lg := l2); [cbn; f_equal; exact Hd|right; exact Hh|exact H1|exact H2].
  - intros g n l x m lx Hg H1 H2 Hle. apply T3 in H1. apply T3 in H2. destruct H1 as (l1 & H1 & _), H2 as (l2 & H2 & _). exact (ti_down _ _ _ _ H g n l1 x m l2 (Hgq g Hg) H1 H2 Hle).
  - intros g n l Hg H1. apply T3 in H1. destruct H1 as (l1 & H1 & Hll & [->|(-> & _)]).
    + destruct (ti_low _ _ _ _ H g n l1 (Hgq g Hg) H1) as (K1 & y & ly & K2 & K3). split; [exact K1|]. destruct (T4 _ _ _ K2) as (ly' & K2'). exists y, ly'. auto.
    + destruct (ti_low _ _ _ _ H g n l1 (Hgq g Hg) H1) as (K1 & _). split; [lia|]. destruct (T4 _ _ _ Hyv) as (ly' & K2'). exists yv, ly'. split; [exact K2'|].
      apply leads_trans with (b := v); [|exact Hleadv]. apply (ti_down _ _ _ _ H g n l1 v nv lv (Hgq g Hg) H1 Hv). pose proof (lv_above g n l1 Hg H1). lia.
  - intros x m l Hin Hng. apply T3 in Hin. destruct Hin as (l0 & Hin & _). destruct (V_dec x v) as [->|Hx].
    + destruct (same_vertex st v m l0 nv lv HN Hin Hv) as (-> & ->). destruct (T4 _ _ _ Hyv) as (ly' & K). exists yv, lv, ly'. split; [exact K|]. split; [lia|exact Hleadv].
    + destruct (ti_back _ _ _ _ H x m l0 Hin) as (y & my & ly & K1 & K2 & K3); [intros [K|K]; [cbn in K; congruence|exact (Hng K)]|]. destruct (T4 _ _ _ K1) as (ly' & K). exists y, my, ly'. auto.
  - intros x m lx y my ly g n l H1 Hs H2 Hg H3 Hle Hmax. apply sees_edge_leave in Hs. apply T3 in H1. apply T3 in H2. destruct H1 as (l1 & H1 & _), H2 as (l2 & H2 & _). pose proof H3 as H3'. apply T3 in H3. destruct H3 as (l3 & H3 & Hl3 & _).
    destruct (Z_le_gt_dec nv m) as [Hm|Hm].
    + assert (Hlm : lv <= my) by (apply (ti_edges _ _ _ _ H x m l1 y my l2 v nv lv H1 Hs H2 Hgv Hv Hm); intros h nh lh Hh Hh' _; exact (lv_max h nh lh Hh Hh')).
      assert (Hq : exists ju u q', q = (ju, u) :: q') by (clear - Hg; destruct q as [|(ju & u) q']; [destruct Hg|eauto]). destruct Hq as (ju & u & q' & Hq).
      assert (Hgu : In u (verts q)) by (rewrite Hq; now left). pose proof (ti_grey _ _ _ _ H u (Hgq u Hgu)) as Hu. apply in_tv in Hu. destruct Hu as (nu & lu & Hu). pose proof (lv_above u nu lu Hgu Hu) as Hnu.
      destruct (T4 _ _ _ Hu) as (lu' & Hu'). pose proof (Hmax u nu lu' Hgu Hu' ltac:(lia)) as Hn.
      destruct (V_dec g u) as [->|Hgu'].
      * pose proof (T5 ju u q' n l Hq H3'). lia.
      * exfalso. rewrite Hq in Hg. destruct Hg as [Hg|Hg]; [cbn in Hg; congruence|]. change (In g (verts q')) in Hg. apply in_split in Hg. destruct Hg as (d & r & Hd).
        assert (n < nu); [|lia]. apply (ti_order _ _ _ _ H (v :: u :: d) g r) with (h := u) (lh := lu) (lg := l3); [cbn [grey]; rewrite Hq; cbn; do 2 f_equal; exact Hd|right; now left|exact Hu|exact H3].
    + assert (l3 <= my); [|lia]. apply (ti_edges _ _ _ _ H x m l1 y my l2 g n l3 H1 Hs H2 (Hgq g Hg) H3 Hle).
      intros h nh lh [<-|Hh] Hh' Hle'; [destruct (same_vertex st v nh lh nv lv HN Hh' Hv); lia|]. destruct (T4 _ _ _ Hh') as (lh' & K). exact (Hmax h nh lh' Hh K Hle').
  - exact (ti_done _ _ _ _ H).
Qed.

Lemma low_opt_root : lv = nv -> low_opt q lv st = st.
Proof.
  intros Hr. assert (Hq : q = [] \/ exists ju u q', q = (ju, u) :: q') by (clear; destruct q as [|(ju & u) q']; eauto). destruct Hq as [Hq|(ju & u & q' & Hq)]; [rewrite Hq; reflexivity|].
  assert (Hgu : In u (verts q)) by (rewrite Hq; now left). rewrite Hq. cbn. apply set_low_id. intros n l Hin.
  pose proof (lv_above u n l Hgu Hin) as K. destruct (ti_low _ _ _ _ H u n l) as (K1 & _); [right; exact Hgu|exact Hin|]. lia.
Qed.

Lemma ti_leave_root : lv = nv -> TI ((LLeave, (j, v) :: q) :: log) open' (snd (cut v st)) (out ++ [fst (cut v st)]).
Proof.
  intros Hr. assert (Hgv : In v (grey (((j, v) :: q, O) :: open'))) by (now left).
  assert (Hgq : forall g, In g (verts q) -> In g (grey (((j, v) :: q, O) :: open'))) by (intros g Hg; right; exact Hg).
  destruct (cut_split v st (ti_grey _ _ _ _ H v Hgv)) as (a & ((v0 & n0) & l0) & r & Hst & Hv0 & Hna & Hcut). unfold tv in Hv0. cbn in Hv0. subst v0. rewrite Hcut. cbn [fst snd].
  assert (Hin0 : In (v, n0, l0) st) by (rewrite Hst; apply in_or_app; right; now left). destruct (same_vertex st v n0 l0 nv lv HN Hin0 Hv) as (-> & ->).
  destruct (sorted_split a (v, nv, lv) r) as (S1 & S2); [rewrite <- Hst; exact (ti_sorted _ _ _ _ H)|]. unfold tn in S1, S2. cbn in S1, S2.
  assert (Hr1 : forall x n l, In (x, n, l) r <-> In (x, n, l) st /\ n < nv).
  { intros x n l. rewrite Hst, in_app_iff. split; [intros K; split; [right; now right|exact (S2 _ K)]|]. intros ([K|[K|K]] & Hlt); [specialize (S1 _ K); cbn in S1; lia|injection K as <- <- <-; lia|exact K]. }
  assert (Hsec : forall x, In x (map tv (a ++ [(v, nv, lv)])) <-> exists n l, In (x, n, l) st /\ nv <= n).
  { intros x. rewrite in_tv. split.
    - intros (n & l & K). exists n, l. apply in_app_or in K. destruct K as [K|[K|[]]]; [split; [rewrite Hst; apply in_or_app; auto|specialize (S1 _ K); cbn in S1; lia]|injection K as <- <- <-; split; [exact Hv|lia]].
    - intros (n & l & K & Hle). exists n, l. rewrite Hst in K. apply in_app_or in K. apply in_or_app. destruct K as [K|[K|K]]; [auto|right; now left|specialize (S2 _ K); cbn in S2; lia]. }
  assert (Hperm : Permutation (map tv st ++ concat out) (map tv r ++ concat (out ++ [map tv (a ++ [(v, nv, lv)])]))).
  { assert (Hst' : map tv st = map tv (a ++ [(v, nv, lv)]) ++ map tv r) by (rewrite Hst, <- map_app, <- app_assoc; reflexivity). rewrite Hst'. generalize (map tv (a ++ [(v, nv, lv)])) (map tv r). intros c t. rewrite concat_app. cbn [concat]. rewrite app_nil_r.
    rewrite <- app_assoc. etransitivity; [apply Permutation_app_comm|]. rewrite <- app_assoc. reflexivity. }
  constructor; try rewrite lv_grey.
  - apply (sorted_tail (a ++ [(v, nv, lv)])). rewrite <- app_assoc. cbn. rewrite <- Hst. exact (ti_sorted _ _ _ _ H).
  - intros w n l Hin. apply Hr1 in Hin. apply num_cons. exact (ti_num _ _ _ _ H w n l (proj1 Hin)).
  - intros w. rewrite entered_id_other by discriminate. rewrite (ti_entered _ _ _ _ H w). rewrite <- !in_app_iff. split; apply Permutation_in; [exact Hperm|symmetry; exact Hperm].
  - eapply Permutation_NoDup; [exact Hperm|exact (ti_nodup _ _ _ _ H)].
  - intros w Hw. pose proof (ti_grey _ _ _ _ H w (Hgq w Hw)) as K. apply in_tv in K. destruct K as (n & l & K). apply in_tv. exists n, l. apply Hr1. split; [exact K|exact (lv_above w n l Hw K)].
  - intros d g rr Hd h m lh n lg Hh H1 H2. apply Hr1 in H1. apply Hr1 in H2.
    apply (ti_order _ _ _ _ H (v :: d) g rr) with (h := h) (lh := lh) (lg := lg); [cbn; f_equal; exact Hd|right; exact Hh|apply H1|apply H2].
  - intros g n l x m lx Hg H1 H2 Hle. apply Hr1 in H1. apply Hr1 in H2. exact (ti_down _ _ _ _ H g n l x m lx (Hgq g Hg) (proj1 H1) (proj1 H2) Hle).
  - intros g n l Hg H1. apply Hr1 in H1. destruct H1 as (H1 & Hlt). destruct (ti_low _ _ _ _ H g n l (Hgq g Hg) H1) as (K1 & y & ly & K2 & K3). split; [exact K1|]. exists y, ly. split; [apply Hr1; split; [exact K2|lia]|exact K3].
  - intros x m l Hin Hng. apply Hr1 in Hin. destruct Hin as (Hin & Hlt). destruct (ti_back _ _ _ _ H x m l Hin) as (y & my & ly & K1 & K2 & K3).
    + intros [<-|K]; [destruct (same_vertex st v m l nv lv HN Hin Hv); lia|exact (Hng K)].
    + exists y, my, ly. split; [apply Hr1; split; [exact K1|lia]|auto].
  - intros x m lx y my ly g n l H1 Hs H2 Hg H3 Hle Hmax. apply sees_edge_leave in Hs. apply Hr1 in H1. apply Hr1 in H2. apply Hr1 in H3.
    apply (ti_edges _ _ _ _ H x m lx y my ly g n l (proj1 H1) Hs (proj1 H2) (Hgq g Hg) (proj1 H3) Hle).
    intros h nh lh [<-|Hh] Hh' Hle'; [destruct (same_vertex st v nh lh nv lv HN Hh' Hv); lia|]. apply (Hmax h nh lh Hh); [apply Hr1; split; [exact Hh'|lia]|exact Hle'].
  - intros o1 C o2 Ho. destruct (exists_last (l := C :: o2)) as (o3 & C' & Eo); [discriminate|]. rewrite Eo, app_assoc in Ho. apply app_inj_tail in Ho. destruct Ho as (Ho & HC). destruct o3 as [|C3 o3].
    + cbn in Eo. injection Eo as -> ->. rewrite app_nil_r in Ho. subst o1 C'. split; [rewrite map_app; destruct (map tv a); discriminate|]. split.
      * intros x y Hx Hy. apply Hsec in Hx. apply Hsec in Hy. destruct Hx as (n & l & Hx & Hle), Hy as (n' & l' & Hy & Hle'). apply leads_trans with (b := v); [apply (lv_to_root Hr (S (Z.to_nat (n - nv))) x n l Hx Hle); lia|exact (ti_down _ _ _ _ H v nv lv y n' l' Hgv Hv Hy Hle')].
      * intros x y Hx HE. apply Hsec in Hx. destruct (lv_closed Hr x y Hx HE) as [K|K]; [left; apply Hsec; exact K|auto].
    + cbn in Eo. injection Eo as <- Eo. exact (ti_done _ _ _ _ H o1 C o3 Ho).
Qed.
End Leave.

Lemma ti_init : TI [] [] [] [].
Proof.
  constructor; cbn; try (intros; contradiction); try (now constructor).
  - intros w. split; [intros (j & x & p & (b & Hb) & _); destruct Hb|tauto].
  - intros [|? ?] C b Ho; discriminate.
Qed.

Theorem TI_holds log k open : dfs_log log k open -> all_expanded log -> TI log open (fst (tlog log)) (snd (tlog log)).
Proof.
  induction 1 as [|log k s b Hd IH Hs Hm|log k s Hd IH Hs Hm|log k j u p r open n l b Hd IH Hn Hm
                 |log k j u p r open n l kind Hd IH Hn Hm Hk|log k p open Hd IH]; intros Hall;
    try (specialize (IH (fun p Hin => Hall p (or_intror Hin)))); cbn [tlog]; try (destruct (tlog log) as (st & out) eqn:Et; cbn [fst snd] in IH |- * ).
  - exact ti_init.
  - cbn [tstep]. destruct Hm as (_ & Hm). apply (ti_enter log k [] st out b k s [] _ []); auto.
  - apply (ti_skip log k st out s); auto.
  - cbn [tstep]. destruct Hm as (_ & Hm). apply (ti_enter log k (((j, u) :: p, S r) :: open) st out b r n ((j, u) :: p) _ open); auto. split; [exact (nth_edge _ _ _ _ Hn)|reflexivity].
  - cbn [tstep]. pose proof (ti_non_tree log k (((j, u) :: p, S r) :: open) st out kind r n j u p (S r) open r Hd IH (nth_edge _ _ _ _ Hn) eq_refl) as K. destruct (find_tent n st); exact K.
  - pose proof (li_chain _ _ _ _ _ (LogInv_holds _ _ _ _ _ _ _ Hd)) as Hc.
    destruct p as [|(j & v) q]; [inversion Hc|].
    assert (Hv : In v (map tv st)) by (apply (ti_grey _ _ _ _ IH); now left).
    cbn [tstep]. destruct (find_tent v st) as [((v0 & nv) & lv)|] eqn:Hf; [|apply find_tent_none in Hf; contradiction].
    apply find_tent_some in Hf. destruct Hf as (Hin & Hv0). unfold tv in Hv0. cbn in Hv0. subst v0. cbn [snd]. unfold tn. cbn [fst snd]. change (match q with [] => st | (_, u) :: _ => set_low u lv st end) with (low_opt q lv st).
    assert (Hall' : all_expanded log) by exact (fun p Hin => Hall p (or_intror Hin)).
    destruct (Z.eqb_spec lv nv) as [Hr|Hr].
    + rewrite (low_opt_root log open st out j v q IH nv lv Hin Hr). pose proof (ti_leave_root log k open st out j v q Hd Hall' IH nv lv Hin Hr) as K. destruct (cut v st); exact K.
    + exact (ti_leave_inner log k open st out j v q Hd IH nv lv Hin Hr).
Qed.

(** The results are strongly connected components. *)
Theorem tlog_components log k open : dfs_log log k open -> all_expanded log ->
  (forall C, In C (snd (tlog log)) -> strongly_connected_component E C) /\ NoDup (concat (snd (tlog log))) /\
  (forall a C b, snd (tlog log) = a ++ C :: b -> forall x y, In x C -> E x y -> In y C \/ In y (concat a)) /\
  (forall x, In x (concat (snd (tlog log))) -> entered_id vid log x) /\
  (open = [] -> forall x, entered_id vid log x -> In x (concat (snd (tlog log)))).
Proof.
  intros Hlog Hall. pose proof (TI_holds log k open Hlog Hall) as H. set (st := fst (tlog log)) in *. set (out := snd (tlog log)) in *.
  assert (HN : NoDup (concat out)).
  { pose proof (ti_nodup _ _ _ _ H) as K. clear - K. induction (map tv st) as [|a t IH]; [exact K|]. cbn in K. inversion K; auto. }
  assert (Hcl : forall a C b, out = a ++ C :: b -> forall x y, leads x y -> In x C \/ In x (concat a) -> In y C \/ In y (concat a)).
  { intros a C b Ho x y Hl. apply (leads_closed (fun x => In x C \/ In x (concat a))); [|exact Hl]. intros x' y' [K|K] HE.
    - destruct (ti_done _ _ _ _ H a C b Ho) as (_ & _ & K'). exact (K' x' y' K HE).
    - right. apply in_concat in K. destruct K as (C' & HC' & K). apply in_split in HC'. destruct HC' as (a1 & a2 & ->). rewrite <- app_assoc in Ho. cbn in Ho.
      destruct (ti_done _ _ _ _ H a1 C' (a2 ++ C :: b) Ho) as (_ & _ & K'). rewrite concat_app. cbn. destruct (K' x' y' K HE); repeat rewrite in_app_iff; auto. }
  split.
  { intros C HC. apply in_split in HC. destruct HC as (a & b & Ho). destruct (ti_done _ _ _ _ H a C b Ho) as (K1 & K2 & K3).
    assert (HNC : NoDup (C ++ concat b) /\ forall x, In x C -> ~ In x (concat a)).
    { rewrite Ho, concat_app in HN. cbn in HN. clear - HN. induction (concat a) as [|z t IH]; [split; [exact HN|intros x _ []]|]. cbn in HN. inversion HN as [|? ? N1 N2]; subst. destruct (IH N2) as (I1 & I2). split; [exact I1|]. intros x Hx [->|K]; [apply N1; rewrite !in_app_iff; auto|exact (I2 x Hx K)]. }
    destruct HNC as (HNC & Hdis). split; [exact K1|]. split; [exact (nodup_left _ _ HNC)|]. intros u Hu w. split; [intros Hw; split; apply K2; assumption|].
    intros (L1 & L2). destruct (Hcl a C b Ho u w L1 (or_introl Hu)) as [K|K]; [exact K|exfalso]. apply in_concat in K. destruct K as (C' & HC' & K). apply in_split in HC'. destruct HC' as (a1 & a2 & ->). rewrite <- app_assoc in Ho. cbn in Ho.
    destruct (Hcl a1 C' _ Ho w u L2 (or_introl K)) as [K'|K']; apply (Hdis u Hu); rewrite concat_app; cbn; rewrite !in_app_iff; auto. }
  split; [exact HN|]. split; [intros a C b Ho; exact (proj2 (proj2 (ti_done _ _ _ _ H a C b Ho)))|]. split; [intros x Hx; apply (ti_entered _ _ _ _ H); auto|].
  intros -> x Hx. pose proof (ti_empty _ _ _ H) as Hst. apply (ti_entered _ _ _ _ H) in Hx. rewrite Hst in Hx. destruct Hx as [[]|Hx]; exact Hx.
Qed.
End SCCLog.
