(** The traversal for infinite branching: paths, stored distances, calls of the neighbor function, elements read. *)
From Coq Require Import List ZArith Bool Lia Arith Permutation Sorted.
From Verif Require Import Machine GearSpec Spec Common CommonProofs TraversalSpec PathsModel PathsSpec PathsProofs PathsExact Weight WeightSpec HeapModel HeapProofs DijkstraModel DijkstraProofs DijkstraPaths DijkstraPlain DijkstraMore
  BiSPMore BiSPPaths InfModel InfSpec InfGraph InfRun InfMore.
Import ListNotations.

Section InfPaths.
Context {V : Type}.
Variable V_dec : forall a b : V, {a = b} + {a <> b}.
Variable edge : V -> nat -> option (V * option Z).
Notation state := (V * nat)%type.
Notation ZI := ZInfWeights.
Notation W := (option Z).
Notation add := (w_add ZI).
Notation leb := (w_leb ZI).
Notation ltb := (w_ltb ZI).
Notation wt := (walk_weight ZI).
Hypothesis Hseq : edge_sequences edge.
Hypothesis Hsort : edges_sorted edge.
Hypothesis Hnn : forall v k u w, edge v k = Some (u, w) -> leb (Some 0%Z) w = true.
Variable DM : DMap V W None.
Variable PM : PMap V V.
Variable DMi : DMap state W None.
Variable PMi : PMap state state.
Variable LMi : PMap state unit.
Variables build_paths store_distances : bool.
Variable starts : list V.
Hypothesis Hnd : NoDup starts.

Notation cfg := (inf_inner_cfg build_paths).
Notation sstarts := (map (fun v : V => (v, 0)) starts).
Notation sid := (fun s : state => s).
Notation snext := (snext edge).
Notation E := (inf_edge edge).
Notation SE := (SE edge).
Notation before := (before edge).
Notation dreport := (@dij_report state state unit ZI DMi PMi LMi).
Notation SD := (@state_dec V V_dec).
Notation nreport := (@inf_report V DM PM).
Notation St := (fun v => In v starts).
Notation base := (base DMi PMi LMi).
Notation view := (view DM PM DMi PMi LMi build_paths store_distances starts).
Notation outP := (out_pred PM DMi PMi LMi build_paths starts).
Notation outD := (out_dist DM DMi PMi LMi store_distances starts).
Notation irun := (inf_run V_dec edge DM PM DMi PMi LMi build_paths store_distances starts).
Notation drun := (dij_run sid ZI DMi PMi LMi snext cfg sstarts None).
Notation settled := (settled sid ZI).
Notation xpos := (xpos ZI). Notation xv := (xv ZI).

Let Hpres := SE_presents edge.
Let Hsnn := SE_nonneg edge Hseq Hsort Hnn.
Let Htree : dc_is_tree cfg = false := eq_refl.
Let Hd0' : forall i, is_start sid sstarts i -> leb (w_zero ZI) (d0 sid ZI DMi cfg sstarts None i) = true := Hd0 SD sid ZI DMi PMi LMi snext cfg Htree SE Hpres Hsnn sstarts.

(** *** Paths *)
Lemma chain_snoc_inv (s : state) p x w l t : chain (WT := ZI) snext s (p ++ [(x, w, l)]) t -> exists y, chain (WT := ZI) snext s p y /\ In (x, w, l) (snext y) /\ t = x.
Proof.
  revert s. induction p as [|[[a b] c] p IH]; intros s H; cbn [app] in H; inversion H; subst.
  - match goal with H : chain _ _ [] _ |- _ => inversion H; subst end. exists s. repeat split; auto. constructor.
  - match goal with H : chain _ _ (p ++ _) _ |- _ => apply IH in H; destruct H as (y & H1 & H2 & H3) end. exists y. repeat split; auto. econstructor; eauto.
Qed.

Lemma outer_path (P : pm_t PMi) (OP : pm_t PM) (s0 : V) p : forall v k,
  chain (WT := ZI) snext (s0, 0) p (v, k) -> ppath sid PMi P (v, k) (rev (chain_vertices (WT := ZI) (s0, 0) p)) ->
  (forall u, In (u, 0) (chain_vertices (WT := ZI) (s0, 0) p) -> pm_get PM u OP = option_map fst (pm_get PMi (u, 0) P)) ->
  ppath (fun v => v) PM OP v (rev (s0 :: base_vertices (forth ZI p))) /\
  exists l, ppath sid PMi P (v, 0) l /\ length l <= length (chain_vertices (WT := ZI) (s0, 0) p).
Proof.
  induction p as [|[[x w] lb] p IH] using rev_ind; intros v k Hc Hp HO.
  - inversion Hc; subst. cbn in Hp. split.
    + cbn. apply pp_start. rewrite HO by (now left). inversion Hp as [? Hg|? ? ? ? ? Hr]; subst; [rewrite Hg; reflexivity|inversion Hr].
    + exists [(v, 0)]. split; auto.
  - apply chain_snoc_inv in Hc. destruct Hc as ([v' k'] & Hc & Hin & Hx). subst x.
    rewrite chain_vertices_snoc in *. cbn [fst] in *. rewrite rev_app_distr in Hp. cbn [rev app] in Hp.
    destruct (chain_last ZI snext (s0, 0) p (v', k') Hc) as (a & Ha & _).
    assert (Hu : pm_get PMi (v, k) P = Some (v', k') /\ (v, k) <> (v', k') /\ ppath sid PMi P (v', k') (rev (chain_vertices (WT := ZI) (s0, 0) p))).
    { rewrite Ha, rev_app_distr in *. cbn [rev app] in *. inversion Hp as [|? u ? Hg Hne Hr]; subst. destruct (ppath_head sid PMi P u _ Hr) as (l' & Hl). injection Hl as <- _. auto. }
    destruct Hu as (Hg & Hne & Hr).
    assert (HO' : forall u, In (u, 0) (chain_vertices (WT := ZI) (s0, 0) p) -> pm_get PM u OP = option_map fst (pm_get PMi (u, 0) P)) by (intros u Hu; apply HO, in_or_app; now left).
    destruct (IH v' k' Hc Hr HO') as (HP & l & Hl & Hll).
    assert (Hs : SE (v', k') w (v, k)). { apply Hpres. apply in_map_iff. exists ((v, k), w, lb). auto. }
    apply SE_inv in Hs. destruct Hs as (b0 & u & b & Hb & He & _ & Ht).
    unfold forth. rewrite map_app. fold (forth ZI p). unfold base_vertices. rewrite flat_map_app. fold (base_vertices (forth ZI p)). cbn [map flat_map fst snd].
    destruct Ht as [Ht|Ht]; injection Ht as -> ->.
    + split.
      * cbn [app]. rewrite app_comm_cons, rev_app_distr. cbn [rev app]. apply pp_step with v'; auto.
        -- rewrite HO by (apply in_or_app; right; now left). rewrite Hg. reflexivity.
        -- intros ->. pose proof (ppath_det sid PMi P (v', 0) _ Hl _ Hp) as Hdet. rewrite Hdet in Hll. cbn [length] in Hll. rewrite rev_length in Hll. lia.
      * exists ((u, 0) :: rev (chain_vertices (WT := ZI) (s0, 0) p)). split; auto. rewrite app_length. cbn [length]. rewrite rev_length. lia.
    + split; [rewrite !app_nil_r; exact HP|]. exists l. split; auto. rewrite app_length. lia.
Qed.

Lemma outP_app os ir : outP (os ++ [ir]) = if base ir && build_paths
    then match pm_get PMi (dr_vertex ir) (dr_pred ir) with Some (u, _) => pm_set PM (fst (dr_vertex ir)) u (outP os) | None => outP os end else outP os.
Proof. unfold out_pred at 1. rewrite fold_left_app. reflexivity. Qed.

Lemma base_vertex ir : base ir = true -> dr_vertex ir = (fst (dr_vertex ir), 0).
Proof. unfold InfRun.base. intros H. apply Nat.eqb_eq in H. destruct (dr_vertex ir) as [a b]. cbn [fst snd] in *. now subst. Qed.

Lemma outP_none v os : (forall ir, In ir os -> dr_vertex ir <> (v, 0)) -> pm_get PM v (outP os) = pm_get PM v (create_predecessors (fun v => v) PM build_paths starts).
Proof.
  induction os as [|ir os IH] using rev_ind; intros Hn; [reflexivity|]. rewrite outP_app.
  assert (IH' : pm_get PM v (outP os) = pm_get PM v (create_predecessors (fun v => v) PM build_paths starts)) by (apply IH; intros x Hx; apply Hn, in_or_app; now left).
  destruct (base ir) eqn:Hb; [|exact IH']. destruct build_paths; [|exact IH']. cbn [andb]. destruct (pm_get PMi (dr_vertex ir) (dr_pred ir)) as [[u ku]|]; [|exact IH'].
  rewrite pm_get_set_other; [exact IH'|]. intros C. apply (Hn ir); [apply in_or_app; right; now left|]. rewrite (base_vertex _ Hb). congruence.
Qed.

Lemma outP_some v ir u : forall os, build_paths = true -> NoDup (dij_ids sid os) -> In ir os -> dr_vertex ir = (v, 0) -> pm_get PMi (v, 0) (dr_pred ir) = Some u ->
  pm_get PM v (outP os) = Some (fst u).
Proof.
  intros os Hbp. induction os as [|x os IH] using rev_ind; intros Hn Hin Hv Hg; [contradiction|]. rewrite outP_app.
  unfold dij_ids in Hn. rewrite map_app in Hn. cbn [map] in Hn. apply in_app_or in Hin. destruct Hin as [Hin|[->|[]]].
  - assert (Hx : dr_vertex x <> (v, 0)).
    { intros C. apply NoDup_remove_2 in Hn. apply Hn. rewrite app_nil_r. apply in_map_iff. exists ir. split; auto. congruence. }
    assert (IH' : pm_get PM v (outP os) = Some (fst u)) by (apply IH; auto; apply NoDup_remove_1 in Hn; now rewrite app_nil_r in Hn).
    destruct (base x) eqn:Hb; [|exact IH']. replace (true && build_paths) with true by (now rewrite Hbp). destruct (pm_get PMi (dr_vertex x) (dr_pred x)) as [[u' ku]|]; [|exact IH'].
    rewrite pm_get_set_other; [exact IH'|]. intros C. apply Hx. rewrite (base_vertex _ Hb). congruence.
  - assert (Hb : base ir = true) by (unfold InfRun.base; rewrite Hv; reflexivity). replace (base ir && build_paths) with true by (now rewrite Hb, Hbp). rewrite Hv, Hg. cbn [fst]. destruct u as [u ku]. apply pm_get_set_same.
Qed.

(** *** Stored distances *)
(** What [distances] holds after the reports [os] *)
Definition stored (D : dm_t DM) (os : list nreport) : Prop :=
  (forall rep, In rep os -> dm_get DM (nr_vertex rep) D = nr_distance rep) /\
  (forall v, In v starts -> dm_get DM v D = Some 0%Z) /\
  (forall v, ~ In v starts -> ~ In v (map nr_vertex os) -> dm_get DM v D = None).

Lemma outD_app os ir : outD (os ++ [ir]) = if base ir && store_distances then dm_set DM (fst (dr_vertex ir)) (dr_distance ir) (outD os) else outD os.
Proof. unfold out_dist at 1. rewrite fold_left_app. reflexivity. Qed.

Lemma outD_nil : (store_distances = true -> stored (outD []) []) /\ (store_distances = false -> forall v, dm_get DM v (outD []) = None).
Proof.
  unfold out_dist. cbn [fold_left]. unfold define_distances. split.
  - intros ->. assert (H : forall l v, dm_get DM v (fold_left (fun m p => dm_set DM (fst p) (snd p) m) (map (fun v : V => (v, Some 0%Z)) l) (dm_empty DM)) = if In_dec V_dec v l then Some 0%Z else None).
    { induction l as [|x l IH] using rev_ind; intros v; [cbn; apply dm_get_empty|]. rewrite map_app, fold_left_app. cbn [fold_left map fst snd].
      destruct (V_dec x v) as [->|Hne].
      - rewrite dm_get_set_same. destruct (In_dec V_dec v (l ++ [v])) as [_|C]; auto. exfalso. apply C, in_or_app. right. now left.
      - rewrite dm_get_set_other by auto. rewrite IH. destruct (In_dec V_dec v l) as [j|j], (In_dec V_dec v (l ++ [x])) as [i|i]; auto.
        + exfalso. apply i, in_or_app. now left.
        + exfalso. apply in_app_or in i. destruct i as [i|[i|[]]]; auto. }
    split; [intros rep []|]. split; intros v Hv; [|intros _]; eapply eq_trans; try exact (H starts v); destruct (In_dec V_dec v starts); auto; contradiction.
  - intros ->. intros v. apply dm_get_empty.
Qed.

Lemma outD_false os : store_distances = false -> forall v, dm_get DM v (outD os) = None.
Proof.
  intros Hs v. induction os as [|ir os IH] using rev_ind; [now apply outD_nil|]. rewrite outD_app.
  replace (base ir && store_distances) with false by (rewrite Hs; now rewrite andb_false_r). exact IH.
Qed.

Lemma outD_stored os : store_distances = true -> NoDup (dij_ids sid os) -> (forall ir, In ir os -> ~ is_start sid sstarts (dr_vertex ir)) -> stored (outD os) (view [] os).
Proof.
  intros Hs. induction os as [|ir os IH] using rev_ind; intros Hn Hns; [apply outD_nil; auto|].
  pose proof (view_nodup DM PM DMi PMi LMi build_paths store_distances starts (os ++ [ir]) [] Hn) as Hn'.
  assert (Hn0 : NoDup (dij_ids sid os)) by (unfold dij_ids in *; rewrite map_app in Hn; exact (BiSPMore.NoDup_app_l _ _ Hn)).
  destruct (IH Hn0 (fun x Hx => Hns x (in_or_app _ _ _ (or_introl Hx)))) as (H1 & H2 & H3).
  rewrite outD_app. rewrite view_app in *. cbn [InfRun.view] in *. cbn [app] in *. rewrite app_nil_r in *. destruct (base ir) eqn:Hb.
  - replace (true && store_distances) with true by (now rewrite Hs). rewrite map_app in Hn'. cbn [map nr_vertex] in Hn'.
    assert (Hni : ~ In (fst (dr_vertex ir)) (map nr_vertex (view [] os))) by (apply NoDup_remove_2 in Hn'; now rewrite app_nil_r in Hn').
    split; [|split].
    + intros rep Hin. apply in_app_or in Hin. destruct Hin as [Hin|[<-|[]]]; cbn [nr_vertex nr_distance]; [|apply dm_get_set_same].
      rewrite dm_get_set_other; [auto|]. intros C. apply Hni. rewrite <- C. now apply in_map.
    + intros v Hv. rewrite dm_get_set_other; [auto|]. intros C. apply (Hns ir); [apply in_or_app; right; now left|]. rewrite (base_vertex ir Hb), <- C. now apply sst_base.
    + intros v Hv Hv'. rewrite map_app in Hv'. cbn [map nr_vertex] in Hv'. rewrite dm_get_set_other; [|intros C; apply Hv', in_or_app; right; left; congruence].
      apply H3; auto. intros C. apply Hv', in_or_app. now left.
  - cbn [andb]. rewrite app_nil_r. split; [|split]; auto.
Qed.

Lemma view_split o1 rep o2 : forall os pre, view pre os = o1 ++ rep :: o2 -> exists i1 ir i2, os = i1 ++ ir :: i2 /\ view pre (i1 ++ [ir]) = o1 ++ [rep] /\ nr_distances rep = outD (pre ++ i1 ++ [ir]).
Proof.
  revert o1. intros o1 os. revert o1. induction os as [|x os IH]; intros o1 pre Hv; [destruct o1; discriminate|]. cbn [InfRun.view] in Hv. destruct (base x) eqn:Hb; cbn [app] in Hv.
  - destruct o1 as [|y o1].
    + cbn [app] in Hv. injection Hv as <- Hv. exists [], x, os. split; [reflexivity|]. cbn [app InfRun.view]. rewrite Hb. split; reflexivity.
    + cbn [app] in Hv. injection Hv as <- Hv. destruct (IH _ _ Hv) as (i1 & ir & i2 & -> & H2 & H3). exists (x :: i1), ir, i2. cbn [app InfRun.view]. rewrite Hb. split; [reflexivity|].
      rewrite H2. split; [reflexivity|]. rewrite <- app_assoc in H3. exact H3.
  - destruct (IH _ _ Hv) as (i1 & ir & i2 & -> & H2 & H3). exists (x :: i1), ir, i2. cbn [app InfRun.view]. rewrite Hb. split; [reflexivity|].
    split; [exact H2|]. rewrite <- app_assoc in H3. exact H3.
Qed.

Section Run.
Variable lim : option Z.
Variable n : nat.
Variables (os' : list nreport) (r' : outcome (@inf_state V DM PM DMi PMi LMi) exn).
Hypothesis HR : irun lim n = (os', r').

Theorem inf_paths : build_paths = true -> forall (LM : PMap V unit) labels Q,
  (forall rep, In rep os' -> exists s0 q, In s0 starts /\ wwalk ZI E s0 q (nr_vertex rep) /\ wt q = nr_distance rep /\
     delivers V_dec (fun v => v) PM LM (nr_pred rep) labels false Q (nr_vertex rep) (s0 :: map snd q) /\
     delivers V_dec (fun v => v) PM LM (n_pred (outcome_state r')) labels false Q (nr_vertex rep) (s0 :: map snd q)) /\
  (forall v, In v starts -> delivers V_dec (fun v => v) PM LM (n_pred (outcome_state r')) labels false Q v [v] /\
     forall rep, In rep os' -> delivers V_dec (fun v => v) PM LM (nr_pred rep) labels false Q v [v]).
Proof.
  intros Hbp LM labels Q. destruct (run_dij V_dec edge Hseq Hsort Hnn DM PM DMi PMi LMi build_paths store_distances starts Hnd lim n os' r' HR) as (os & r & Hd & -> & HS & Hk).
  destruct (dij_reported SD sid ZI DMi PMi LMi snext cfg Htree SE Hpres Hsnn sstarts lim n os r Hd) as (Hn & Hr & _).
  destruct (dij_any SD sid ZI DMi PMi LMi snext cfg Htree SE Hpres Hsnn sstarts None lim Hd0' n os r Hd) as (X & pc & HB & _). cbv zeta in HB.
  set (P := d_pred (outcome_state r)) in *. rewrite (s_pred _ _ _ _ _ _ _ _ _ _ _ HS).
  assert (Hsd : starts_distinct sid sstarts) by (intros a b _ _ e; exact e).
  assert (Hprefix : forall pre, (exists suf, os = pre ++ suf) -> (forall v, In v starts -> pm_get PM v (outP pre) = Some v) /\
     (forall ir v u, In ir pre -> dr_vertex ir = (v, 0) -> pm_get PMi (v, 0) P = Some u -> pm_get PM v (outP pre) = Some (fst u))).
  { intros pre (suf & Hsuf). split.
    - intros v Hv. rewrite outP_none.
      + rewrite Hbp. apply (create_predecessors_start V_dec (fun v => v)); auto.
      + intros ir Hin C. apply (proj1 (Hr ir ltac:(rewrite Hsuf; apply in_or_app; now left))). rewrite C. now apply sst_base.
    - intros ir v u Hin Hv Hg. apply (outP_some v ir); auto.
      + rewrite Hsuf in Hn. unfold dij_ids in *. rewrite map_app in Hn. apply BiSPMore.NoDup_app_l in Hn. exact Hn.
      + apply in_split in Hin. destruct Hin as (a & b & ->). rewrite <- app_assoc in Hsuf. cbn [app] in Hsuf.
        destruct (b_hist _ _ _ _ _ _ _ _ _ _ _ _ _ _ _ _ _ HB a ir (b ++ suf) Hsuf) as (X1 & pc1 & H1 & _ & _ & (X2 & HX1) & _ & _ & Hsame).
        destruct (Hsame (v, 0) (dr_distance ir)) as [Hs1 _]; [|fold P in Hs1; congruence].
        exists (dr_vertex ir), (dr_depth ir). split; auto. rewrite HX1. now left. }
  split.
  - intros rep Hin. destruct (view_in DM PM DMi PMi LMi build_paths store_distances starts rep os [] Hin) as (o1 & ir & o2 & Heq & Hb & Hv & Hdist & Hnp & _). cbn [app] in Hnp.
    destruct (b_hist _ _ _ _ _ _ _ _ _ _ _ _ _ _ _ _ _ HB o1 ir o2 Heq) as (X1 & pc1 & H1 & HI1 & HP1 & (X2 & HX1) & _ & Hos & Hsame).
    destruct (p_path _ _ _ _ _ _ _ _ _ _ _ _ _ _ (HP1 Hbp) Hsd (dr_vertex ir) (dr_distance ir) (dr_depth ir)) as (s0' & p & Hs0 & Hc & Hw & Hlen & Hpp & Hset & _).
    { rewrite HX1. now left. }
    rewrite (d0_start SD sid ZI DMi PMi LMi snext cfg Htree SE Hpres Hsnn) in Hw by (unfold is_start; rewrite map_id; auto).
    apply in_map_iff in Hs0. destruct Hs0 as (s0 & <- & Hs0). rewrite Hv in *.
    pose proof (forth_walk sid ZI snext SE Hpres _ _ _ Hc) as Hwalk. 
    destruct (walk_down edge Hseq Hsort Hnn s0 (forth ZI p) (nr_vertex rep, 0) Hwalk _ _ eq_refl) as (q & a & Hq & Hb0 & Hwq & Hm).
    cbn [InfGraph.before] in Hb0. injection Hb0 as <-.
    exists s0, q. split; auto. split; auto. split.
    { rewrite Hdist, <- Hw. rewrite <- (forth_weight ZI). rewrite Hwq. destruct (wt q); reflexivity. }
    assert (HpP : ppath sid PMi P (nr_vertex rep, 0) (rev (chain_vertices (WT := ZI) (s0, 0) p))).
    { eapply ppath_ext; [exact Hpp|]. intros u Hu. apply in_rev in Hu. destruct (Hset u Hu) as (wu & Hwu). now apply (Hsame _ _ Hwu). }
    assert (Hout : forall pre, (exists suf, os = pre ++ suf) -> (forall x, In x (o1 ++ [ir]) -> In x pre) -> ppath (fun v => v) PM (outP pre) (nr_vertex rep) (rev (s0 :: base_vertices (forth ZI p)))).
    { intros pre Hpre Hsub. destruct (Hprefix pre Hpre) as [Hps Hpr]. apply (outer_path P (outP pre) s0 p _ _ Hc HpP).
      intros u Hu. destruct (Hset (u, 0) Hu) as (wu & st & ku & HinX & Hst). subst st.
      assert (Hgu : exists y, pm_get PMi (u, 0) P = Some y /\ (In u starts -> y = (u, 0))).
      { destruct (p_path _ _ _ _ _ _ _ _ _ _ _ _ _ _ (HP1 Hbp) Hsd _ _ _ HinX) as (s1 & p1 & Hs1 & Hc1 & _ & Hl1 & Hpp1 & _).
        destruct (Hsame (u, 0) wu) as [Hs2 _]; [exists (u, 0), ku; auto|]. fold P in Hs2. rewrite Hs2. assert (Hsu : In u starts -> is_start sid sstarts (u, 0)) by (intros Hz; now apply sst_base). remember (rev _) as l1 eqn:El1 in Hpp1. destruct Hpp1 as [x1 Hg1|x1 y l1 Hg1 Hne1 Hr1]; [eauto|].
        exists y. split; auto. intros Hus. exfalso. pose proof (i_impX _ _ _ _ _ _ _ _ _ _ _ _ HI1 _ _ _ HinX) as Hi.
        destruct (imp_start_zero SD sid ZI DMi PMi LMi snext cfg Htree SE Hpres Hsnn sstarts _ _ _ Hi) as [Hz _]; [exact (Hsu Hus)|]. rewrite Hz in Hl1.
        destruct p1; [|discriminate]. cbn [chain_vertices map rev app] in El1. injection El1 as _ El1. rewrite El1 in Hr1. inversion Hr1. }
      destruct Hgu as (y & Hy & Hys). rewrite Hy. cbn [option_map]. destruct (In_dec V_dec u starts) as [Hus|Hus].
      - rewrite (Hys Hus). now apply Hps.
      - assert (Hrep : exists ir', In ir' (o1 ++ [ir]) /\ dr_vertex ir' = (u, 0)).
        { assert (Hxp : xpos ((u, 0), wu, ku) = true).
          { unfold DijkstraProofs.xpos, DijkstraProofs.xk. cbn [snd]. destruct ku as [|ku]; auto. exfalso. apply Hus.
            pose proof (i_v0X _ _ _ _ _ _ _ _ _ _ _ _ HI1 _ HinX eq_refl) as Hs. apply in_map_iff in Hs. destruct Hs as (z & Hz & Hzs). cbn in Hz. congruence. }
          assert (Hir : In ((u, 0), wu, ku) (map (rx ZI DMi PMi LMi) (o1 ++ [ir]))) by (rewrite Hos; apply in_rev; rewrite rev_involutive; apply filter_In; auto).
          apply in_map_iff in Hir. destruct Hir as (ir' & He & Hi'). exists ir'. split; auto. unfold rx in He. injection He as -> _ _. reflexivity. }
        destruct Hrep as (ir' & Hi' & Hvi). apply (Hpr ir'); auto. }
    rewrite Hm, Hnp. split; rewrite <- (rev_involutive (s0 :: base_vertices (forth ZI p))); (apply ppath_delivers; [|discriminate]).
    + apply Hout; [exists o2; rewrite <- app_assoc; exact Heq|auto].
    + apply Hout; [exists []; now rewrite app_nil_r|]. intros x Hx. rewrite Heq. apply in_app_or in Hx. apply in_or_app. destruct Hx as [Hx|[->|[]]]; [now left|right; now left].
  - intros v Hv. assert (Hst : forall pre, (exists suf, os = pre ++ suf) -> delivers V_dec (fun v => v) PM LM (outP pre) labels false Q v [v]).
    { intros pre Hpre. change [v] with (rev [v]). apply ppath_delivers; [|discriminate]. apply pp_start. now apply (proj1 (Hprefix pre Hpre)). }
    split; [apply Hst; exists []; now rewrite app_nil_r|].
    intros rep Hin. destruct (view_in DM PM DMi PMi LMi build_paths store_distances starts rep os [] Hin) as (o1 & ir & o2 & Heq & _ & _ & _ & Hnp & _). cbn [app] in Hnp. rewrite Hnp. apply Hst.
    exists o2. rewrite <- app_assoc. exact Heq.
Qed.

Theorem inf_stored :
  (store_distances = true ->
    stored (n_distances (outcome_state r')) os' /\
    (forall o1 rep o2, os' = o1 ++ rep :: o2 -> stored (nr_distances rep) (o1 ++ [rep])) /\
    (forall s, r' = Ended s -> forall v,
       (wreachable ZI E St v -> is_distance ZI E St v (dm_get DM v (n_distances s))) /\
       (~ wreachable ZI E St v -> dm_get DM v (n_distances s) = None))) /\
  (store_distances = false -> forall v, dm_get DM v (n_distances (outcome_state r')) = None /\ forall rep, In rep os' -> dm_get DM v (nr_distances rep) = None).
Proof.
  destruct (run_dij V_dec edge Hseq Hsort Hnn DM PM DMi PMi LMi build_paths store_distances starts Hnd lim n os' r' HR) as (os & r & Hd & Hos' & HS & Hk).
  destruct (dij_reported SD sid ZI DMi PMi LMi snext cfg Htree SE Hpres Hsnn sstarts lim n os r Hd) as (Hn & Hr & _).
  rewrite (s_dist _ _ _ _ _ _ _ _ _ _ _ HS).
  assert (Hpre : forall pre suf, store_distances = true -> os = pre ++ suf -> stored (outD pre) (view [] pre)).
  { intros pre suf Hs Heq. apply outD_stored; auto.
    - rewrite Heq in Hn. unfold dij_ids in *. rewrite map_app in Hn. exact (BiSPMore.NoDup_app_l _ _ Hn).
    - intros ir Hin. apply (proj1 (Hr ir ltac:(rewrite Heq; apply in_or_app; now left))). }
  split.
  - intros Hs. assert (Hfin : stored (outD os) os') by (rewrite Hos'; apply (Hpre os []); auto; now rewrite app_nil_r). split; [exact Hfin|]. split.
    + intros o1 rep o2 Heq. rewrite Hos' in Heq. destruct (view_split o1 rep o2 os [] Heq) as (i1 & ir & i2 & Ho & Hv & Hdd). rewrite <- Hv, Hdd. cbn [app]. apply (Hpre _ i2); auto. rewrite <- app_assoc. exact Ho.
    + intros s Hend v. destruct (inf_reports V_dec edge Hseq Hsort Hnn DM PM DMi PMi LMi build_paths store_distances starts Hnd lim n os' r' HR) as (_ & _ & Hrep & Hcomp).
      pose proof (s_dist _ _ _ _ _ _ _ _ _ _ _ HS) as HSD. rewrite Hend in HSD. cbn [outcome_state] in HSD. rewrite HSD. destruct Hfin as (F1 & F2 & F3). split.
      * intros Hv. destruct (Hcomp s Hend v Hv) as [Hst|Hin].
        -- rewrite F2 by auto. pose proof (start_distance SD sid ZI DMi PMi LMi snext cfg Htree SE Hpres Hsnn sstarts (v, 0)) as Hz. apply dist_st_iff; auto. apply Hz. now apply sst_base.
        -- apply in_map_iff in Hin. destruct Hin as (rep & <- & Hin). rewrite F1 by auto. now apply Hrep.
      * intros Hv. apply F3; intros C; apply Hv; [exists v, []; split; auto; constructor|].
        apply in_map_iff in C. destruct C as (rep & <- & Hin). destruct (Hrep rep Hin) as (_ & [(s0 & q & Hs0 & Hq & _) _] & _). exists s0, q. auto.
  - intros Hs v. split; [now apply outD_false|]. intros rep Hin. rewrite Hos' in Hin. destruct (view_in DM PM DMi PMi LMi build_paths store_distances starts rep os [] Hin) as (o1 & ir & o2 & _ & _ & _ & _ & _ & Hdd).
    rewrite Hdd. now apply outD_false.
Qed.
End Run.
End InfPaths.
