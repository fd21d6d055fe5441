(** Proofs about the model of Dijkstra's algorithm: paths, runs. *)
From Coq Require Import List ZArith Bool Lia Sorted Arith Permutation.
From Verif Require Import Machine GearSpec Spec TraversalSpec Common CommonProofs PathsModel PathsSpec PathsProofs
  PathsExact Weight WeightSpec HeapModel HeapProofs DijkstraModel BFSProofs DijkstraProofs.
Import ListNotations.

Section DijkstraPaths.
Context {V I L : Type}.
Variable V_dec : forall a b : V, {a = b} + {a <> b}.
Variable I_dec : forall a b : I, {a = b} + {a <> b}.
Variable vid : V -> I.
Variable WT : Weights.
Notation W := (w_t WT).
Notation leb := (w_leb WT).
Notation ltb := (w_ltb WT).
Notation add := (w_add WT).
Notation zero := (w_zero WT).
Notation inf := (w_inf WT).
Variable DM : DMap I W inf.
Variable PM : PMap I V.
Variable LM : PMap I L.
Variable next : V -> list (V * W * L).
Variable cfg : dij_cfg.
Hypothesis Htree : dc_is_tree cfg = false.
Variable E : I -> W -> I -> Prop.
Hypothesis Hnext : presents_weighted WT vid next E.
Hypothesis Hnn : nonnegative WT E.
Variable starts : list V.
Variable known : option (dm_t DM).
Variable lim : option Z.
Notation d0 := (d0 vid WT DM cfg starts known).
Notation D0 := (D0 vid WT DM cfg starts known).
Hypothesis Hd0 : forall i, is_start vid starts i -> leb zero (d0 i) = true.
Notation imp := (imp vid WT DM cfg E starts known).

Notation state := (@dij_state V I L WT DM PM LM).
Notation report := (@dij_report V I L WT DM PM LM).
Notation step := (dij_step vid WT DM PM LM next cfg).
Notation init := (dij_init vid WT DM PM LM cfg starts known lim).
Notation ent := (@entry (V * nat) WT).
Notation start_id := (is_start vid starts).
Notation settled := (settled vid WT).
Notation Inv := (Inv vid WT DM next cfg E starts known).
Notation Dsettle := (Dsettle WT DM cfg).
Notation P0 := (create_predecessors vid PM (dc_build_paths cfg) starts).

Definition wpath (X : list (V * W * nat)) (P : pm_t PM) (Lb : pm_t LM) (v : V) (w : W) (k : nat) : Prop :=
  exists s0 p, In s0 starts /\ chain next s0 p v /\ chain_weight WT (d0 (vid s0)) p = w /\ length p = k /\
    ppath vid PM P v (rev (chain_vertices s0 p)) /\
    (forall u, In u (chain_vertices s0 p) -> exists wu, settled X (vid u) wu) /\
    (dc_labeled cfg = true -> forall n ew l, In (n, ew, l) p -> pm_get LM (vid n) Lb = Some l).

Record PInv (X : list (V * W * nat)) (H : list ent) (D : dm_t DM) (P : pm_t PM) (Lb : pm_t LM) : Prop := {
  p_pend : forall i, (forall w, ~ settled X i w) ->
    (dm_get DM i D = d0 i /\ pm_get PM i P = pm_get PM i P0) \/
    (exists e u wu ku ew l, In e H /\ vid (ev WT e) = i /\ e_key e = dm_get DM i D /\
       pm_get PM i P = Some u /\ In (u, wu, ku) X /\ ek WT e = S ku /\ In (ev WT e, ew, l) (next u) /\
       e_key e = add ew wu /\ (dc_labeled cfg = true -> pm_get LM i Lb = Some l));
  p_path : starts_distinct vid starts -> forall v w k, In (v, w, k) X -> wpath X P Lb v w k;
  p_dom : forall i, pm_get PM i P <> None <->
    start_id i \/ (exists w, settled X i w) \/ (exists e, In e H /\ vid (ev WT e) = i)
}.

Lemma settled_cons X x i w : settled X i w -> settled (x :: X) i w.
Proof. intros (v & k & Hin & Hv). exists v, k. split; auto. now right. Qed.

Lemma wpath_cons X x P Lb v w k : wpath X P Lb v w k -> wpath (x :: X) P Lb v w k.
Proof.
  intros (s0 & p & H1 & H2 & H3 & H4 & H5 & H6 & H7). exists s0, p.
  repeat (split; [assumption|]). split; auto. intros u Hu. destruct (H6 u Hu) as (wu & Hw).
  exists wu. now apply settled_cons.
Qed.

Section Built.
Hypothesis Hb : dc_build_paths cfg = true.

Lemma P0_start i : start_id i -> pm_get PM i P0 <> None.
Proof.
  intros Hs. rewrite Hb. unfold create_predecessors.
  destruct (pm_get_of_list_in I_dec PM (map (fun v => (vid v, v)) starts) (pm_empty PM) i)
    as (a & _ & ->); [|discriminate].
  unfold is_start in Hs. apply in_map_iff in Hs. destruct Hs as (v & <- & Hv). exists v.
  apply in_map_iff. eauto.
Qed.

Lemma PInv_init : PInv [] (d_heap init) D0 P0 (pm_empty LM).
Proof.
  constructor.
  - intros i _. left. auto.
  - intros _ v w k [].
  - intros i. split.
    + intros Hne. left. destruct (In_dec I_dec i (map vid starts)); auto.
      exfalso. apply Hne. now apply create_predecessors_other.
    + intros [Hs|[(w & v & k & [] & _)|(e & He & Hv)]]; [now apply P0_start|].
      apply P0_start. unfold dij_init in He. cbn [d_heap] in He.
      apply (proj1 (heapify_in WT _ _)) in He.
      apply start_entries_in in He. destruct He as (u & Hu & Heu & _). rewrite <- Hv, Heu.
      now apply in_map.
Qed.

Lemma PInv_stale X e h D P Lb : Inv X (@DLoop V L WT) (e :: h) D -> PInv X (e :: h) D P Lb ->
  ltb (dm_get DM (vid (ev WT e)) D) (e_key e) = true -> PInv X h D P Lb.
Proof.
  intros HI [H1 H2 H3] Hst. constructor; auto.
  - intros i Hn. destruct (H1 i Hn) as [?|(e' & u & wu & ku & ew & l & [<-|Hin] & Hv & Hk & Hr)]; auto.
    + subst i. rewrite Hk, w_lt_irrefl in Hst. discriminate.
    + right. exists e', u, wu, ku, ew, l. auto.
  - intros i. rewrite H3. split.
    + intros [?|[?|(e' & [<-|Hin] & Hv)]]; auto.
      * destruct (settled_dec I_dec vid WT X i) as [?|Hn]; auto.
        destruct (i_dH _ _ _ _ _ _ _ _ _ _ _ _ HI i Hn) as (_ & _ & [Heq|(e' & [<-|Hin] & Hv' & Hk)]).
        -- left. assert (Himp := i_impH _ _ _ _ _ _ _ _ _ _ _ _ HI e (or_introl eq_refl)).
           destruct (ek WT e) as [|k] eqn:Ek.
           ++ apply (imp_0 vid WT DM cfg E starts known) in Himp; auto. rewrite Hv in Himp. tauto.
           ++ apply imp_S in Himp. exfalso. rewrite Hv in *. rewrite Heq in Hst.
              eapply w_le_lt_contra; [apply w_lt_le; exact Hst|exact Himp].
        -- exfalso. subst i. rewrite Hk, w_lt_irrefl in Hst. discriminate.
        -- right; right. exists e'. auto.
      * right; right. exists e'. auto.
    + intros [?|[?|(e' & Hin & Hv)]]; auto. right; right. exists e'. split; auto. now right.
Qed.

Lemma nodup_in_eq {A B} (f : A -> B) l a b : NoDup (map f l) -> In a l -> In b l -> f a = f b -> a = b.
Proof.
  induction l as [|x l IH]; simpl; [contradiction|]. intros Hn Ha Hbb Hf. inversion Hn as [|? ? Hni Hn']; subst.
  destruct Ha as [<-|Ha], Hbb as [<-|Hbb]; auto.
  - exfalso. apply Hni. rewrite Hf. now apply in_map.
  - exfalso. apply Hni. rewrite <- Hf. now apply in_map.
Qed.

Lemma PInv_settle X e h D P Lb : Inv X (@DLoop V L WT) (e :: h) D -> PInv X (e :: h) D P Lb ->
  ltb (dm_get DM (vid (ev WT e)) D) (e_key e) = false ->
  PInv ((ev WT e, e_key e, ek WT e) :: X) h (Dsettle (vid (ev WT e)) D) P Lb.
Proof.
  intros HI HP Hst. pose proof HP as [H1 H2 H3].
  assert (Hsn : exists w, settled ((ev WT e, e_key e, ek WT e) :: X) (vid (ev WT e)) w).
  { exists (e_key e), (ev WT e), (ek WT e). split; auto. now left. }
  constructor.
  - intros i Hn.
    assert (Hne : i <> vid (ev WT e)).
    { intros ->. destruct Hsn as (w & Hw). eapply Hn; eauto. }
    assert (HnX : forall w, ~ settled X i w) by (intros w Hw; apply (Hn w); now apply settled_cons).
    rewrite Dsettle_other by auto.
    destruct (H1 i HnX) as [?|(e' & u & wu & ku & ew & l & [<-|Hin] & Hv & Hk & Hp & HX & Hr)]; auto.
    + congruence.
    + right. exists e', u, wu, ku, ew, l. repeat (split; [assumption|]). split; [now right|auto].
  - intros Hsd v w k [Heq|Hin]; [|apply wpath_cons; auto].
    injection Heq as <- <- <-.
    destruct (settled_dec I_dec vid WT X (vid (ev WT e))) as [(w' & Hw')|Hn].
    + (* a start vertex given twice *)
      destruct (settle_again vid WT DM next cfg E Hnn starts known Hd0 _ _ _ _ _ _ HI Hst Hw') as (-> & Hz & _).
      destruct Hw' as (v' & k' & Hin & Hv').
      destruct (H2 Hsd _ _ _ Hin) as (s0 & p & Hs0 & Hc & Hcw & Hl & Hpp & Hset & Hlab).
      assert (Hk' : k' = 0).
      { destruct k' as [|k']; auto. exfalso.
        pose proof (i_impX _ _ _ _ _ _ _ _ _ _ _ _ HI _ _ _ Hin) as Hi1. apply imp_S in Hi1.
        pose proof (i_impH _ _ _ _ _ _ _ _ _ _ _ _ HI e (or_introl eq_refl)) as Hi2.
        apply (imp_0 vid WT DM cfg E starts known) in Hi2; auto. destruct Hi2 as [Hi2 _].
        rewrite Hv', <- Hi2, w_lt_irrefl in Hi1. discriminate. }
      assert (He0 : In (ev WT e) starts).
      { eapply (i_v0H _ _ _ _ _ _ _ _ _ _ _ _ HI); [now left|]. unfold epos. rewrite Hz. reflexivity. }
      destruct p as [|x p]; [|simpl in Hl; lia]. inversion Hc; subst.
      assert (v' = ev WT e) by (apply Hsd; auto). subst v'.
      exists (ev WT e), []. rewrite Hz. repeat (split; [assumption|]). split; auto.
      intros u Hu. destruct (Hset u Hu) as (wu & Hwu). exists wu. now apply settled_cons.
    + pose proof (settle_first vid WT DM next cfg E starts known _ _ _ _ _ HI Hst Hn) as Hd.
      pose proof (i_impH _ _ _ _ _ _ _ _ _ _ _ _ HI e (or_introl eq_refl)) as Hi.
      destruct (ek WT e) as [|k] eqn:Ek.
      * apply (imp_0 vid WT DM cfg E starts known) in Hi; auto. destruct Hi as [Hi Hs].
        assert (He0 : In (ev WT e) starts).
        { eapply (i_v0H _ _ _ _ _ _ _ _ _ _ _ _ HI); [now left|]. unfold epos. rewrite Ek. reflexivity. }
        exists (ev WT e), []. split; [auto|]. split; [constructor|]. split; [simpl; auto|]. split; [auto|].
        split; [|split].
        -- simpl. apply pp_start.
           destruct (H1 _ Hn) as [[_ ->]|(e' & u & wu & ku & ew & l & Hin & Hv & Hk & Hp & HX & Hk2 & Hr)].
           ++ rewrite Hb. now apply create_predecessors_start.
           ++ exfalso. assert (Himp := i_impH _ _ _ _ _ _ _ _ _ _ _ _ HI e' Hin). rewrite Hk2 in Himp.
              apply imp_S in Himp. rewrite Hv, Hk, Hd, Hi, w_lt_irrefl in Himp. discriminate.
        -- intros u [<-|[]]. exact Hsn.
        -- intros _ n ew l [].
      * destruct (H1 _ Hn) as [[Heq _]|(e' & u & wu & ku & ew & l & Hin & Hv & Hk & Hp & HX & Hk2 & Hr1 & Hr2 & Hr3)].
        -- exfalso. apply imp_S in Hi. rewrite <- Heq, Hd, w_lt_irrefl in Hi. discriminate.
        -- assert (e' = e).
           { apply (nodup_in_eq (hid vid WT) (filter (epos WT) (e :: h))).
             - exact (i_nd _ _ _ _ _ _ _ _ _ _ _ _ HI).
             - apply filter_In. split; auto. unfold epos. rewrite Hk2. reflexivity.
             - apply filter_In. split; [now left|]. unfold epos. rewrite Ek. reflexivity.
             - unfold hid. rewrite Hv, Hk, Hd. reflexivity. }
           subst e'. assert (ku = k) by congruence. subst ku.
           destruct (H2 Hsd _ _ _ HX) as (s0 & p & Hs0 & Hc & Hcw & Hl & Hpp & Hset & Hlab).
           exists s0, (p ++ [(ev WT e, ew, l)]). split; [auto|].
           split; [now apply chain_snoc with (u := u)|].
           split; [rewrite chain_weight_snoc, Hcw; auto|].
           split; [rewrite app_length; simpl; lia|].
           rewrite chain_vertices_snoc. split; [|split].
           ++ rewrite rev_app_distr. simpl rev at 1. simpl app.
              eapply pp_step; eauto. intros Heq. apply (Hn wu). rewrite Heq. exists u, k. auto.
           ++ intros x Hx. apply in_app_or in Hx. destruct Hx as [Hx|[<-|[]]].
              ** destruct (Hset x Hx) as (wx & Hwx). exists wx. now apply settled_cons.
              ** exact Hsn.
           ++ intros Hlb n ew' l' Hin'. apply in_app_or in Hin'. destruct Hin' as [Hin'|[Heq|[]]].
              ** eapply Hlab; eauto.
              ** injection Heq as <- <- <-. auto.
  - intros i. rewrite H3. split.
    + intros [?|[(w & Hw)|(e' & [<-|Hin] & Hv)]]; auto.
      * right; left. exists w. now apply settled_cons.
      * right; left. subst i. auto.
      * right; right. exists e'. auto.
    + intros [?|[(w & v & k & [Heq|Hin] & Hv)|(e' & Hin & Hv)]]; auto.
      * injection Heq as <- <- <-. right; right. exists e. split; auto. now left.
      * right; left. exists w, v, k. auto.
      * right; right. exists e'. split; auto. now right.
Qed.

Lemma PInv_relax X v w k n ew l rest H D P Lb no :
  Inv X (DEdges WT v w k ((n, ew, l) :: rest)) H D -> PInv X H D P Lb ->
  leb (dm_get DM (vid n) D) (add ew w) = false ->
  PInv X (heappush WT (add ew w, no, (n, S k)) H) (dm_set DM (vid n) (add ew w) D)
       (pm_set PM (vid n) v P) (if dc_labeled cfg then pm_set LM (vid n) l Lb else Lb).
Proof.
  intros HI [H1 H2 H3] Hle.
  pose proof (relax_unsettled vid WT DM next cfg E Hnext Hnn starts known Hd0 _ _ _ _ _ _ _ _ _ _ HI Hle) as Hns.
  destruct (edge_in vid WT DM next cfg E Hnext starts known _ _ _ _ _ _ _ _ _ _ HI) as (HE & Hin & HinX).
  set (e0 := (add ew w, no, (n, S k)) : ent).
  assert (Hlo : forall i, i <> vid n ->
     pm_get LM i (if dc_labeled cfg then pm_set LM (vid n) l Lb else Lb) = pm_get LM i Lb).
  { intros i Hne. destruct (dc_labeled cfg); auto. now apply pm_get_set_other. }
  constructor.
  - intros i Hn. destruct (I_dec i (vid n)) as [->|Hne].
    + right. exists e0, v, w, k, ew, l. rewrite dm_get_set_same, pm_get_set_same.
      split; [apply heappush_in; auto|]. split; [reflexivity|]. split; [reflexivity|]. split; [reflexivity|].
      split; [exact HinX|]. split; [reflexivity|]. split; [exact Hin|]. split; [reflexivity|].
      intros ->. apply pm_get_set_same.
    + rewrite dm_get_set_other, pm_get_set_other, Hlo by auto.
      destruct (H1 i Hn) as [?|(e' & u & wu & ku & ew' & l' & Hin' & Hr)]; auto.
      right. exists e', u, wu, ku, ew', l'. split; [apply heappush_in; auto|auto].
  - intros Hsd v' w' k' Hin'. destruct (H2 Hsd _ _ _ Hin') as (s0 & p & Hs0 & Hc & Hcw & Hl & Hpp & Hset & Hlab).
    exists s0, p. repeat (split; [assumption|]).
    assert (Hne : forall u, In u (chain_vertices s0 p) -> vid u <> vid n).
    { intros u Hu Heq. destruct (Hset u Hu) as (wu & Hwu). rewrite Heq in Hwu. eapply Hns; eauto. }
    split; [|split; auto].
    + eapply ppath_ext; eauto. intros u Hu. apply pm_get_set_other. apply Hne. now apply in_rev.
    + intros Hlb n' ew' l' Hin2. rewrite Hlo; [eapply Hlab; eauto|]. apply Hne.
      right. apply in_map_iff. exists (n', ew', l'). auto.
  - intros i. destruct (I_dec i (vid n)) as [->|Hne].
    + rewrite pm_get_set_same. split; [|discriminate]. intros _. right; right. exists e0.
      split; [apply heappush_in; auto|auto].
    + rewrite pm_get_set_other, H3 by auto. split.
      * intros [?|[?|(e' & He' & Hv)]]; auto. right; right. exists e'. split; auto. apply heappush_in. auto.
      * intros [?|[?|(e' & He' & Hv)]]; auto. apply heappush_in in He'. destruct He' as [->|He'].
        -- exfalso. apply Hne. rewrite <- Hv. reflexivity.
        -- right; right. exists e'. auto.
Qed.
End Built.

(** ** Runs *)
Definition rx (r : report) : V * W * nat := (dr_vertex r, dr_distance r, dr_depth r).

(** [X] and the further values are a possible state, in which [os] has been reported. *)
Record Big (os : list report) (X : list (V * W * nat)) (pc : @dij_pc V L WT) (H : list ent) (D : dm_t DM)
    (P : pm_t PM) (Lb : pm_t LM) : Prop := {
  b_inv : Inv X pc H D;
  b_pinv : dc_build_paths cfg = true -> PInv X H D P Lb;
  b_os : map rx os = rev (filter (xpos WT) X);
  b_hist : forall o1 r o2, os = o1 ++ r :: o2 ->
     exists X1 pc1 H1, Inv X1 pc1 H1 (dr_distances r) /\
       (dc_build_paths cfg = true -> PInv X1 H1 (dr_distances r) (dr_pred r) (dr_labels r)) /\
       (exists X2, X1 = rx r :: X2) /\ (exists X3, X = X3 ++ X1) /\ map rx (o1 ++ [r]) = rev (filter (xpos WT) X1) /\
       forall i w, settled X1 i w ->
         pm_get PM i P = pm_get PM i (dr_pred r) /\ pm_get LM i Lb = pm_get LM i (dr_labels r)
}.

Definition BigS (os : list report) (s : state) : Prop :=
  Big os (d_calls s) (d_pc s) (d_heap s) (d_distances s) (d_pred s) (d_labels s).

Lemma BigS_init : BigS [] init.
Proof.
  constructor; simpl; auto.
  - exact (Inv_init vid WT DM PM LM next cfg E starts known lim).
  - intros Hb. exact (PInv_init Hb).
  - intros o1 r o2 Heq. destruct o1; discriminate.
Qed.

Lemma Big_step_hist os X pc H D P Lb X' P' Lb' :
  Big os X pc H D P Lb -> (exists X3, X' = X3 ++ X) ->
  (forall i w, settled X i w -> pm_get PM i P' = pm_get PM i P /\ pm_get LM i Lb' = pm_get LM i Lb) ->
  forall o1 r o2, os = o1 ++ r :: o2 ->
     exists X1 pc1 H1, Inv X1 pc1 H1 (dr_distances r) /\
       (dc_build_paths cfg = true -> PInv X1 H1 (dr_distances r) (dr_pred r) (dr_labels r)) /\
       (exists X2, X1 = rx r :: X2) /\ (exists X3, X' = X3 ++ X1) /\ map rx (o1 ++ [r]) = rev (filter (xpos WT) X1) /\
       forall i w, settled X1 i w ->
         pm_get PM i P' = pm_get PM i (dr_pred r) /\ pm_get LM i Lb' = pm_get LM i (dr_labels r).
Proof.
  intros HB (X3 & ->) Hfr o1 r o2 Heq.
  destruct (b_hist _ _ _ _ _ _ _ HB o1 r o2 Heq) as (X1 & pc1 & H1 & Ha & Hbb & Hc & (X4 & HX) & Hd & He).
  exists X1, pc1, H1. split; [auto|split; [auto|split; [auto|split; [|split; [auto|]]]]].
  - exists (X3 ++ X4). rewrite <- app_assoc. congruence.
  - intros i w Hs. destruct (He i w Hs) as [<- <-]. apply (Hfr i w).
    destruct Hs as (v & k & Hin & Hv). exists v, k. split; auto. rewrite HX. apply in_or_app. auto.
Qed.

(** A vertex is settled (and possibly reported). *)
Lemma Big_settle os s e h : BigS os s -> d_pc s = DLoop WT -> d_heap s = e :: h ->
  ltb (dm_get DM (vid (ev WT e)) (d_distances s)) (e_key e) = false ->
  let s1 := dij_settle vid WT DM PM LM cfg (d_set_heap WT DM PM LM s h) (ev WT e) (e_key e) (ek WT e) in
  Big (os ++ (if 0 <? ek WT e then [dij_observe WT DM PM LM (ev WT e) s1] else []))
      ((ev WT e, e_key e, ek WT e) :: d_calls s)
      (DEdges WT (ev WT e) (e_key e) (ek WT e) (next (ev WT e)))
      (d_heap s1) (d_distances s1) (d_pred s1) (d_labels s1).
Proof.
  intros HB Hpc Hh Hst s1. unfold BigS in HB. rewrite Hpc, Hh in HB.
  assert (HD : d_distances s1 = Dsettle (vid (ev WT e)) (d_distances s)).
  { unfold s1, dij_settle. simpl. rewrite Htree. reflexivity. }
  assert (HI : Inv ((ev WT e, e_key e, ek WT e) :: d_calls s)
       (DEdges WT (ev WT e) (e_key e) (ek WT e) (next (ev WT e))) (d_heap s1) (d_distances s1)).
  { rewrite HD. apply (Inv_settle I_dec vid WT DM next cfg E Hnext Hnn starts known Hd0); auto.
    apply (b_inv _ _ _ _ _ _ _ HB). }
  assert (HP : dc_build_paths cfg = true ->
       PInv ((ev WT e, e_key e, ek WT e) :: d_calls s) (d_heap s1) (d_distances s1) (d_pred s1) (d_labels s1)).
  { intros Hb. rewrite HD. apply PInv_settle; auto.
    - apply (b_inv _ _ _ _ _ _ _ HB).
    - apply (b_pinv _ _ _ _ _ _ _ HB Hb). }
  assert (Hmap : map rx (os ++ (if 0 <? ek WT e then [dij_observe WT DM PM LM (ev WT e) s1] else [])) =
       rev (filter (xpos WT) ((ev WT e, e_key e, ek WT e) :: d_calls s))).
  { rewrite map_app, (b_os _ _ _ _ _ _ _ HB). simpl. unfold xpos at 2. simpl.
    destruct (0 <? ek WT e); simpl; auto. now rewrite app_nil_r. }
  constructor; auto.
  intros o1 r o2 Heq.
  assert (Hold : forall o2', os = o1 ++ r :: o2' -> exists X1 pc1 H1, Inv X1 pc1 H1 (dr_distances r) /\
       (dc_build_paths cfg = true -> PInv X1 H1 (dr_distances r) (dr_pred r) (dr_labels r)) /\
       (exists X2, X1 = rx r :: X2) /\
       (exists X3, (ev WT e, e_key e, ek WT e) :: d_calls s = X3 ++ X1) /\ map rx (o1 ++ [r]) = rev (filter (xpos WT) X1) /\
       forall i w, settled X1 i w ->
         pm_get PM i (d_pred s1) = pm_get PM i (dr_pred r) /\ pm_get LM i (d_labels s1) = pm_get LM i (dr_labels r)).
  { intros o2' Ho. eapply Big_step_hist; eauto. exists [(ev WT e, e_key e, ek WT e)]. reflexivity. }
  destruct (0 <? ek WT e) eqn:Hk.
  - apply snoc_split in Heq. destruct Heq as [(-> & -> & ->)|(o2' & -> & Heq)]; [|eauto].
    exists ((ev WT e, e_key e, ek WT e) :: d_calls s), (DEdges WT (ev WT e) (e_key e) (ek WT e) (next (ev WT e))), (d_heap s1).
    split; [exact HI|split; [exact HP|split; [|split; [|split; [exact Hmap|]]]]].
    + exists (d_calls s). reflexivity.
    + exists []. reflexivity.
    + intros. auto.
  - rewrite app_nil_r in Heq. eauto.
Qed.

Lemma BigS_step pre s o s' : BigS pre s -> step s = Go o s' -> BigS (pre ++ o) s'.
Proof.
  intros HB Hst. unfold dij_step in Hst.
  destruct (d_pc s) as [|v w k rest] eqn:Hpc.
  - destruct (d_heap s) as [|[[w no] [v k]] h] eqn:Hh; [discriminate|].
    rewrite Htree in Hst. simpl negb in Hst. cbn [andb] in Hst.
    destruct (ltb (dm_get DM (vid v) (d_distances s)) w) eqn:Hlt.
    + injection Hst as <- <-. rewrite app_nil_r. unfold BigS in *. simpl. rewrite Hpc, Hh in *.
      constructor.
      * eapply (Inv_stale I_dec vid WT DM next cfg E starts known); [apply HB|exact Hlt].
      * intros Hb. eapply PInv_stale; [apply HB|apply HB; auto|exact Hlt].
      * apply HB.
      * apply HB.
    + pose proof (Big_settle pre s (w, no, (v, k)) h HB Hpc Hh Hlt) as HB'. simpl in HB'.
      cbv zeta in Hst. cbn [d_limit dij_settle d_set_heap] in Hst.
      destruct (limit_check (d_limit s)) as [lm|]; [|discriminate].
      injection Hst as <- <-. exact HB'.
  - destruct rest as [|[[n ew] l] rest].
    + injection Hst as <- <-. rewrite app_nil_r. unfold BigS in *. simpl. rewrite Hpc in *.
      destruct HB. constructor; auto. eapply Inv_edges_done; eauto.
    + destruct (leb inf (add ew w)) eqn:Hinf; [discriminate|].
      rewrite Htree in Hst. simpl negb in Hst. cbn [andb] in Hst.
      destruct (leb (dm_get DM (vid n) (d_distances s)) (add ew w)) eqn:Hle.
      * injection Hst as <- <-. rewrite app_nil_r. unfold BigS in *. simpl. rewrite Hpc in *.
        destruct HB. constructor; auto.
        eapply (Inv_skip I_dec vid WT DM next cfg E Hnn starts known); eauto.
      * injection Hst as <- <-. rewrite app_nil_r. unfold BigS in *. simpl. rewrite Htree. rewrite Hpc in HB.
        pose proof HB as HB0. destruct HB. constructor; auto.
        -- eapply (Inv_relax I_dec vid WT DM next cfg E Hnext Hnn starts known Hd0); eauto.
        -- intros Hb. rewrite Hb. simpl. eapply PInv_relax; eauto.
        -- eapply Big_step_hist; eauto; [exists []; reflexivity|].
           intros i w' Hs. assert (Hne : i <> vid n).
           { intros ->. eapply (relax_unsettled vid WT DM next cfg E Hnext Hnn starts known Hd0); eauto. }
           destruct (dc_build_paths cfg), (dc_labeled cfg); simpl; rewrite ?pm_get_set_other by auto; auto.
Qed.

Lemma dij_any n os r : run step n init = (os, r) ->
  exists X pc, let s := outcome_state r in
    Big os X pc (d_heap s) (d_distances s) (d_pred s) (d_labels s) /\
    match r with
    | Running s' => X = d_calls s' /\ pc = d_pc s'
    | Ended s' => X = d_calls s' /\ pc = DLoop WT /\ d_heap s' = []
    | Raised x s' =>
        (x = RuntimeErrorLimit /\ lim <> None /\ exists e, X = e :: d_calls s') \/
        (x = OverflowErrorDistance /\ X = d_calls s' /\ exists v w k n ew l rest,
           pc = DEdges WT v w k ((n, ew, l) :: rest) /\ leb inf (add ew w) = true)
    end.
Proof.
  intros HR.
  pose proof (run_inv_any step (fun os s => BigS os s /\ (lim = None -> d_limit s = None))) as Hany.
  assert (Hstep : forall pre s o s', (BigS pre s /\ (lim = None -> d_limit s = None)) -> step s = Go o s' ->
     BigS (pre ++ o) s' /\ (lim = None -> d_limit s' = None)).
  { intros pre s o s' [Hi Hl] Hst. split; [eapply BigS_step; eauto|]. intros Hn. specialize (Hl Hn).
    clear -Hst Hl. unfold dij_step in Hst.
    destruct (d_pc s) as [|v w k [|[[nn ew] l] rest]].
    - destruct (d_heap s) as [|[[w no] [v k]] h]; [discriminate|].
      destruct (_ && _); [injection Hst as <- <-; auto|].
      simpl in Hst; rewrite Hl in Hst; simpl in Hst; injection Hst as <- <-; auto.
    - injection Hst as <- <-; auto.
    - destruct (leb _ _); [discriminate|]; destruct (_ && _); injection Hst as <- <-; auto. }
  specialize (Hany Hstep n [] init os r).
  assert (H0 : BigS [] init /\ (lim = None -> d_limit init = None)).
  { split; [apply BigS_init|]. intros ->. reflexivity. }
  specialize (Hany H0 HR). simpl in Hany. clear Hstep H0.
  destruct r as [s'|s'|x s']; simpl.
  - exists (d_calls s'), (d_pc s'). split; [apply Hany|auto].
  - destruct Hany as (os1 & o & s1 & -> & [HB _] & Hst). unfold dij_step in Hst.
    destruct (d_pc s1) as [|v w k [|[[nn ew] l] rest]] eqn:Hpc.
    + destruct (d_heap s1) as [|[[w no] [v k]] h] eqn:Hh.
      * injection Hst as <- <-. exists (d_calls s1), (DLoop WT). rewrite app_nil_r.
        unfold BigS in HB. rewrite Hpc in HB. auto.
      * destruct (_ && _); [discriminate|]. destruct (limit_check _); discriminate.
    + discriminate.
    + destruct (leb inf (add ew w)); [discriminate|]. destruct (_ && _); discriminate.
  - destruct Hany as (os1 & o & s1 & -> & [HB Hl] & Hst). unfold dij_step in Hst.
    destruct (d_pc s1) as [|v w k [|[[nn ew] l] rest]] eqn:Hpc.
    + destruct (d_heap s1) as [|[[w no] [v k]] h] eqn:Hh; [discriminate|].
      rewrite Htree in Hst. simpl negb in Hst. cbn [andb] in Hst.
      destruct (ltb (dm_get DM (vid v) (d_distances s1)) w) eqn:Hlt; [discriminate|].
      pose proof (Big_settle os1 s1 (w, no, (v, k)) h HB Hpc Hh Hlt) as HB'. simpl in HB'.
      cbv zeta in Hst. cbn [d_limit dij_settle d_set_heap] in Hst.
      destruct (limit_check (d_limit s1)) as [lm|] eqn:Hlc; [discriminate|].
      injection Hst as <- <- <-. eexists. eexists. split; [exact HB'|]. left. split; auto. split.
      * intros Hn. rewrite (Hl Hn) in Hlc. discriminate.
      * simpl. eauto.
    + discriminate.
    + destruct (leb inf (add ew w)) eqn:Hinf.
      * injection Hst as <- <- <-. exists (d_calls s1), (d_pc s1). rewrite app_nil_r. split; [exact HB|].
        right. split; auto. split; auto. rewrite Hpc. exists v, w, k, nn, ew, l, rest. auto.
      * destruct (_ && _); discriminate.
Qed.
End DijkstraPaths.
