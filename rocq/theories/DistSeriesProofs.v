(** Proofs about series of traversals with a common mapping of distances. *)
From Coq Require Import List ZArith Bool Arith Lia Sorted.
From Verif Require Import Machine Common GearSpec Spec TraversalSpec Weight WeightSpec HeapModel DijkstraModel DijkstraProofs DijkstraPaths DijkstraMore DijkstraPlain DistSeriesModel DistSeriesSpec.
Import ListNotations.

Section DistSeriesProofs.
Context {V I L : Type}.
Variable I_dec : forall a b : I, {a = b} + {a <> b}.
Variable vid : V -> I.
Variable WT : Weights.
Notation W := (w_t WT).
Notation leb := (w_leb WT).
Notation ltb := (w_ltb WT).
Notation add := (w_add WT).
Notation zero := (w_zero WT).
Notation inf := (w_inf WT).
Variable DM : DMap I W inf.
Variable PM : PMap I V.
Variable LM : PMap I L.
Variable next : V -> list (V * W * L).
Variable E : I -> W -> I -> Prop.
Hypothesis Hnext : presents_weighted WT vid next E.
Hypothesis Hnn : nonnegative WT E.
Notation get m i := (dm_get DM i m).

(** Each distance in the mapping is the weight of a walk. *)
Notation justified Src m := (tells_walks WT E Src (fun i => get m i)).
Definition closed (m : dm_t DM) : Prop :=
  forall i w j, E i w j -> get m i <> inf -> ltb (get m j) inf = true /\ leb (get m j) (add w (get m i)) = true.

Lemma fold_add_nonneg p : forall d i j, leb zero d = true -> wwalk WT E i p j -> leb zero (fold_left (fun d e => add (fst e) d) p d) = true.
Proof.
  induction p as [|[w x] p IH]; intros d i j Hd Hw; cbn [fold_left fst]; [exact Hd|]. inversion Hw; subst. eapply IH; [|eauto].
  eapply w_leb_trans; [exact Hd|]. apply w_add_infl. eapply Hnn; eauto.
Qed.
Lemma justified_nonneg Src m i : justified Src m -> leb zero (get m i) = true.
Proof.
  intros HJ. destruct (HJ i) as [->|(_ & s & p & _ & Hw & <-)]; [|eapply fold_add_nonneg; eauto; apply w_leb_refl].
  destruct (w_leb_total WT zero inf) as [H|H]; [exact H|]. rewrite w_zero_inf in H. discriminate.
Qed.
Lemma zero_inf : ltb zero inf = true.
Proof. apply w_ltb_lt, w_zero_inf. Qed.

Section Round.
Variable r : dround V.
Hypothesis Hok : dround_ok r.
Variable known : dm_t DM.
Notation cfg := (dr_cfg r).
Notation starts := (dr_starts r).
Notation St := (is_start vid starts).
Notation d0 := (d0 vid WT DM cfg starts (Some known)).
Notation imp := (imp vid WT DM cfg E starts (Some known)).

Variable Src : I -> Prop.
Hypothesis HJ : justified Src known.
Definition ini (i : I) : W := if In_dec I_dec i (map vid starts) then (if w_eqb WT (get known i) inf then zero else get known i) else get known i.
Lemma w_eqb_r (a b : W) : reflect (a = b) (w_eqb WT a b).
Proof.
  unfold w_eqb. destruct (leb a b) eqn:E1; cbn [andb].
  - destruct (leb b a) eqn:E2; constructor; [now apply w_leb_antisym|]. intros ->. rewrite w_leb_refl in E2. discriminate.
  - constructor. intros ->. rewrite w_leb_refl in E1. discriminate.
Qed.
Lemma ini_is : initial_distances WT St (fun i => get known i) ini.
Proof.
  intros i. unfold ini, is_start. destruct (In_dec I_dec i (map vid starts)) as [H|H]; destruct (w_eqb_r (get known i) inf) as [He|He]; split; try tauto; auto; intros; try contradiction.
Qed.
Lemma ini_pos i : leb zero (ini i) = true.
Proof. unfold ini. destruct (In_dec _ _ _); [destruct (w_eqb _ _ _); [apply w_leb_refl|]|]; eapply justified_nonneg; eauto. Qed.
Lemma d0_is i : d0 i = ini i.
Proof. destruct Hok. apply (d0_ini I_dec vid WT DM PM LM next cfg H E Hnext Hnn starts known ini ini_is (fun i _ => ini_pos i)). Qed.
Lemma d0_pos i : St i -> leb zero (d0 i) = true.
Proof. intros _. rewrite d0_is. apply ini_pos. Qed.
Lemma d0_known i : leb (d0 i) (get known i) = true.
Proof.
  rewrite d0_is. unfold ini. destruct (In_dec _ _ _); [|apply w_leb_refl]. destruct (w_eqb _ _ _); [eapply justified_nonneg; eauto|apply w_leb_refl].
Qed.
Definition new_src (i : I) : Prop := Src i \/ (St i /\ get known i = inf).

Lemma d0_walk i : d0 i = inf \/ (ltb (d0 i) inf = true /\ exists s p, new_src s /\ wwalk WT E s p i /\ walk_weight WT p = d0 i).
Proof.
  rewrite d0_is. unfold ini. destruct (In_dec _ _ _) as [Hs|Hs].
  - destruct (w_eqb_r (get known i) inf) as [He|He].
    + right. split; [apply zero_inf|]. exists i, []. split; [right; auto|]. split; [constructor|reflexivity].
    + destruct (HJ i) as [H|(H1 & s & p & H2 & H3 & H4)]; [contradiction|]. right. split; auto. exists s, p. split; [now left|auto].
  - destruct (HJ i) as [H|(H1 & s & p & H2 & H3 & H4)]; [now left|]. right. split; auto. exists s, p. split; [now left|auto].
Qed.
Lemma d0_le_inf i : leb (d0 i) inf = true.
Proof. destruct (d0_walk i) as [->|[H _]]; [apply w_leb_refl|now apply w_lt_le]. Qed.
Lemma imp_walk_known i k d : imp i k d -> d = inf /\ k = 0 /\ d0 i = inf \/ (ltb d inf = true /\ exists s p, new_src s /\ wwalk WT E s p i /\ walk_weight WT p = d).
Proof.
  induction 1 as [i Hs|i k d w j Hi IH He Hl].
  - destruct (d0_walk i) as [H|H]; [left; auto|right; auto].
  - right. assert (Hlt : ltb (add w d) inf = true) by (eapply w_lt_le_trans; [exact Hl|apply d0_le_inf]). split; [exact Hlt|].
    destruct IH as [(-> & _)|(_ & s & p & Hs & Hw & Hd)].
    + exfalso. eapply w_le_lt_contra; [|exact Hlt]. apply w_add_infl. eapply Hnn; eauto.
    + exists s, (p ++ [(w, j)]). split; [exact Hs|]. split; [eapply wwalk_snoc; eauto|]. now rewrite walk_weight_snoc, Hd.
Qed.

Variables (os : list (@dij_report V I L WT DM PM LM)) (e : outcome (@dij_state V I L WT DM PM LM) exn).
Hypothesis HR : dij_run vid WT DM PM LM next cfg starts (Some known) (dr_limit r) (dr_passes r) = (os, e).
Notation after := (d_distances (outcome_state e)).

Lemma round_justified : justified new_src after.
Proof.
  destruct Hok as [Ht Hk].
  destruct (dij_any I_dec vid WT DM PM LM next cfg Ht E Hnext Hnn starts (Some known) (dr_limit r) d0_pos (dr_passes r) os e HR) as (X & pc & HB & _).
  destruct HB as [HI _ _ _]. intros i. destruct (settled_dec I_dec vid WT X i) as [(w & Hw)|Hn].
  - assert (Hg := i_dX _ _ _ _ _ _ _ _ _ _ _ _ HI i w Hw). rewrite Hk in Hg. rewrite Hg. destruct Hw as (v & k & Hin & <-).
    destruct (imp_walk_known _ _ _ (i_impX _ _ _ _ _ _ _ _ _ _ _ _ HI _ _ _ Hin)) as [(-> & _)|H]; auto.
  - destruct (i_dH _ _ _ _ _ _ _ _ _ _ _ _ HI i Hn) as (_ & _ & [->|(en & Hin & Hv & Hkey)]).
    + apply d0_walk.
    + rewrite <- Hkey, <- Hv. destruct (imp_walk_known _ _ _ (i_impH _ _ _ _ _ _ _ _ _ _ _ _ HI _ Hin)) as [(-> & _)|H]; auto.
Qed.

Section RoundEnded.
Variable s' : @dij_state V I L WT DM PM LM.
Hypothesis He : e = Ended s'.

Lemma round_values : exists X, (forall i w, settled vid WT X i w -> get after i = w /\ exists k, imp i k w) /\
  (forall i, (forall w, ~ settled vid WT X i w) -> get after i = d0 i) /\
  (forall i, St i -> exists w, settled vid WT X i w) /\
  (forall i, In i (dij_ids vid os) <-> ltb (get after i) (d0 i) = true) /\
  (forall rep, In rep os -> dr_distance rep = get after (vid (dr_vertex rep))) /\
  (forall i wu w j, settled vid WT X i wu -> E i w j -> ltb (add w wu) inf = true /\ leb (get after j) (add w wu) = true) /\
  (forall i, leb (get after i) (d0 i) = true).
Proof.
  destruct Hok as [Ht Hk].
  destruct (dij_any I_dec vid WT DM PM LM next cfg Ht E Hnext Hnn starts (Some known) (dr_limit r) d0_pos (dr_passes r) os e HR) as (X & pc & HB & HE).
  rewrite He in HB, HE |- *. cbn [outcome_state] in *. destruct HE as (HX & Hpc & Hh). destruct HB as [HI _ Ho _]. rewrite Hh in HI. exists X.
  assert (HS : forall i w, settled vid WT X i w -> get (d_distances s') i = w).
  { intros i w Hw. assert (Hg := i_dX _ _ _ _ _ _ _ _ _ _ _ _ HI i w Hw). now rewrite Hk in Hg. }
  assert (HN : forall i, (forall w, ~ settled vid WT X i w) -> get (d_distances s') i = d0 i).
  { intros i Hn. destruct (i_dH _ _ _ _ _ _ _ _ _ _ _ _ HI i Hn) as (_ & _ & [H|(en & [] & _)]). exact H. }
  assert (HB : forall j c, best vid WT X [] j c -> leb (get (d_distances s') j) c = true).
  { intros j c (w & [Hw|(en & [] & _)] & Hle). now rewrite (HS _ _ Hw). }
  assert (HL : forall i, leb (get (d_distances s') i) (d0 i) = true).
  { intros i. destruct (settled_dec I_dec vid WT X i) as [(w & Hw)|Hn]; [|rewrite HN by exact Hn; apply w_leb_refl].
    rewrite (HS _ _ Hw). destruct Hw as (v & k & Hin & <-). assert (Hi := i_impX _ _ _ _ _ _ _ _ _ _ _ _ HI _ _ _ Hin). destruct k.
    - destruct (imp_0 vid WT DM cfg E starts (Some known) _ _ _ Hi eq_refl) as [-> _]. apply w_leb_refl.
    - apply w_lt_le. exact (imp_S vid WT DM cfg E starts (Some known) _ _ _ Hi). }
  assert (HC : forall i wu w j, settled vid WT X i wu -> E i w j -> ltb (add w wu) inf = true /\ leb (get (d_distances s') j) (add w wu) = true).
  { intros i wu w j Hw Hej. destruct (i_closed _ _ _ _ _ _ _ _ _ _ _ _ HI i wu w j Hw Hej) as [(v0 & k0 & rest & H & _)|[Hlt [Hd|Hb]]].
    - rewrite Hpc in H. discriminate.
    - split; [exact Hlt|]. eapply w_leb_trans; [apply HL|exact Hd].
    - split; [exact Hlt|]. apply HB, Hb. }
  assert (HM : forall i, St i -> exists w, settled vid WT X i w).
  { intros i Hs. destruct (i_start _ _ _ _ _ _ _ _ _ _ _ _ HI i Hs) as (w & [Hw|(en & [] & _)] & _). eauto. }
  assert (HP : forall rep, In rep os -> settled vid WT X (vid (dr_vertex rep)) (dr_distance rep) /\ imp (vid (dr_vertex rep)) (dr_depth rep) (dr_distance rep) /\ 0 < dr_depth rep).
  { intros rep Hin. destruct (rep_in I_dec vid WT DM PM LM next cfg Ht E Hnext Hnn starts (Some known) d0_pos _ _ _ _ HR X Ho rep Hin) as [H1 H2].
    split; [exists (dr_vertex rep), (dr_depth rep); auto|]. split; [|exact H2]. eapply i_impX; eauto. }
  split; [|split; [exact HN|split; [exact HM|split; [|split; [|split; [exact HC|exact HL]]]]]].
  - intros i w Hw. split; [now apply HS|]. destruct Hw as (v & k & Hin & <-). exists k. eapply i_impX; eauto.
  - intros i. split.
    + unfold dij_ids. rewrite in_map_iff. intros (rep & <- & Hin). destruct (HP rep Hin) as (H1 & H2 & H3). rewrite (HS _ _ H1).
      destruct (dr_depth rep) as [|k]; [lia|]. exact (imp_S vid WT DM cfg E starts (Some known) _ _ _ H2).
    + intros Hlt. destruct (settled_dec I_dec vid WT X i) as [(w & Hw)|Hn]; [|rewrite HN, w_lt_irrefl in Hlt by exact Hn; discriminate].
      rewrite (HS _ _ Hw) in Hlt. pose proof Hw as (v & k & Hin & Hv). assert (Hi := i_impX _ _ _ _ _ _ _ _ _ _ _ _ HI _ _ _ Hin). rewrite Hv in Hi. destruct k.
      * destruct (imp_0 vid WT DM cfg E starts (Some known) _ _ _ Hi eq_refl) as [-> _]. rewrite w_lt_irrefl in Hlt. discriminate.
      * destruct (settled_reported I_dec vid WT DM PM LM next cfg Ht E Hnext Hnn starts (Some known) d0_pos _ _ _ _ HR X _ _ _ HI Ho i w k w Hw (w_leb_refl WT w) Hi) as (rep & Hr & <-).
        unfold dij_ids. apply in_map_iff. eauto.
  - intros rep Hin. destruct (HP rep Hin) as (H1 & _). symmetry. auto.
Qed.

Hypothesis HC : closed known.
Lemma round_closed : closed after.
Proof.
  destruct round_values as (X & HS & HN & HM & _ & _ & HCl & HL). intros i w j Hej Hfin.
  destruct (settled_dec I_dec vid WT X i) as [(wu & Hwu)|Hn].
  - destruct (HS _ _ Hwu) as [-> _]. destruct (HCl _ _ _ _ Hwu Hej) as [H1 H2]. split; [eapply w_le_lt_trans; eauto|exact H2].
  - rewrite (HN i Hn) in *. assert (Hi : d0 i = get known i).
    { rewrite d0_is. unfold ini. destruct (In_dec _ _ _) as [H|H]; [|reflexivity]. destruct (HM i H) as [w0 Hw0]. destruct (Hn _ Hw0). }
    rewrite Hi in *. destruct (HC i w j Hej Hfin) as [H1 H2].
    assert (H3 : leb (get after j) (get known j) = true) by (eapply w_leb_trans; [apply HL|apply d0_known]).
    split; [eapply w_le_lt_trans; eauto|eapply w_leb_trans; eauto].
Qed.
Hypothesis HZ : forall i, Src i -> get known i = zero.
Lemma round_zero i : new_src i -> get after i = zero.
Proof.
  destruct round_values as (X & _ & _ & _ & _ & _ & _ & HL). intros Hs. apply w_leb_antisym; [|eapply justified_nonneg; apply round_justified].
  eapply w_leb_trans; [apply HL|]. destruct Hs as [Hs|[Hs Hk]].
  - eapply w_leb_trans; [apply d0_known|]. rewrite HZ by exact Hs. apply w_leb_refl.
  - rewrite d0_is. unfold ini. destruct (In_dec _ _ _) as [_|H]; [|contradiction]. destruct (w_eqb_r (get known i) inf); [apply w_leb_refl|contradiction].
Qed.
End RoundEnded.
End Round.

Lemma tells_of Src m : justified Src m -> closed m -> (forall i, Src i -> get m i = zero) -> tells_distances WT E Src (fun i => get m i).
Proof.
  intros HJ HC HZ. assert (HW : forall p s i, Src s -> wwalk WT E s p i -> ltb (get m i) inf = true /\ leb (get m i) (walk_weight WT p) = true).
  { intros p. induction p as [|[w x] p IH] using rev_ind; intros s i Hs Hw.
    - inversion Hw; subst. rewrite HZ by exact Hs. split; [apply zero_inf|apply w_leb_refl].
    - destruct (wwalk_snoc_inv WT E _ _ _ _ _ Hw) as (j & Hw' & Hej & ->). destruct (IH s j Hs Hw') as [H1 H2].
      assert (Hf : get m j <> inf) by (intros H; rewrite H, w_lt_irrefl in H1; discriminate).
      destruct (HC j w x Hej Hf) as [H3 H4]. rewrite walk_weight_snoc. split; [exact H3|]. eapply w_leb_trans; [exact H4|]. now apply w_add_mono. }
  intros i. split.
  - intros (s & p & Hs & Hw). destruct (HW p s i Hs Hw) as [H1 _]. split; [|exact H1]. split; [|intros s0 p0 Hs0 Hw0; eapply HW; eauto].
    destruct (HJ i) as [H|(_ & s0 & p0 & Hs0 & Hw0 & Hd)]; [rewrite H, w_lt_irrefl in H1; discriminate|]. eauto.
  - intros Hn. destruct (HJ i) as [H|(_ & s0 & p0 & Hs0 & Hw0 & Hd)]; [contradiction|]. exists s0, p0. auto.
Qed.

Lemma eqb_r (a b : W) : a = b \/ a <> b.
Proof. destruct (leb a b) eqn:E1; [destruct (leb b a) eqn:E2|]; [left; now apply w_leb_antisym|right|right]; intros ->; rewrite w_leb_refl in *; discriminate. Qed.

Lemma tells_justified Src m : tells_distances WT E Src (fun i => get m i) -> justified Src m.
Proof.
  intros HT i. destruct (eqb_r (get m i) inf) as [H|H]; [now left|right]. destruct (HT i) as [H1 H2]. destruct (H1 (H2 H)) as [[(s & p & Hs & Hw & Hd) _] Hlt].
  split; [exact Hlt|]. exists s, p. auto.
Qed.
Lemma tells_closed Src m : tells_distances WT E Src (fun i => get m i) -> closed m.
Proof.
  intros HT i w j Hej Hf. destruct (HT i) as [H1 H2]. destruct (H1 (H2 Hf)) as [[(s & p & Hs & Hw & Hd) _] _].
  assert (Hwj := wwalk_snoc WT E _ _ _ _ _ Hw Hej). destruct (HT j) as [H3 _]. destruct H3 as [[_ Hm] Hlt]; [exists s; eauto|].
  split; [exact Hlt|]. rewrite <- Hd, <- (walk_weight_snoc WT p w j). eapply Hm; eauto.
Qed.
Lemma tells_zero Src m : tells_distances WT E Src (fun i => get m i) -> forall i, Src i -> get m i = zero.
Proof.
  intros HT i Hs. apply w_leb_antisym; [|apply (justified_nonneg _ _ _ (tells_justified _ _ HT))].
  destruct (HT i) as [[[_ Hm] _] _]; [exists i, []; split; [exact Hs|constructor]|]. apply (Hm i [] Hs). constructor.
Qed.
Lemma walks_ext (P Q : I -> Prop) m : (forall i, P i -> Q i) -> justified P m -> justified Q m.
Proof. intros HPQ HJ i. destruct (HJ i) as [H|(H & s & p & Hs & Hr)]; [now left|right]. split; [exact H|]. exists s, p. auto. Qed.

Lemma new_src_is r known Src : tells_distances WT E Src (fun i => get known i) -> forall i, new_src r known Src i <-> more_sources vid WT E Src r i.
Proof.
  intros HT i. unfold new_src, more_sources. destruct (HT i) as [H1 H2]. split; (intros [H|[Hs Hk]]; [now left|right]); split; try exact Hs.
  - intros Hr. destruct (H1 Hr) as [_ Hlt]. rewrite Hk, w_lt_irrefl in Hlt. discriminate.
  - destruct (eqb_r (get known i) inf); [assumption|]. destruct Hk. auto.
Qed.

(** One traversal that comes to its end *)
Lemma round_tells r : dround_ok r -> forall known Src, tells_distances WT E Src (fun i => get known i) -> forall os s',
  dij_run vid WT DM PM LM next (dr_cfg r) (dr_starts r) (Some known) (dr_limit r) (dr_passes r) = (os, Ended s') ->
  let after := d_distances s' in
  tells_distances WT E (more_sources vid WT E Src r) (fun i => get after i) /\
  (forall rep, In rep os -> dr_distance rep = get after (vid (dr_vertex rep))) /\
  (forall i, In i (dij_ids vid os) <-> ltb (get after i) (get known i) = true /\ (is_start vid (dr_starts r) i -> wreachable WT E Src i)).
Proof.
  intros Hok known Src HT os s' HR after.
  assert (HJ := tells_justified _ _ HT). assert (HC := tells_closed _ _ HT). assert (HZ := tells_zero _ _ HT).
  assert (HJ' := round_justified r Hok known Src HJ os _ HR). assert (HC' := round_closed r Hok known Src HJ os _ HR s' eq_refl HC).
  assert (HZ' := round_zero r Hok known Src HJ os _ HR s' eq_refl HZ). cbn [outcome_state] in *.
  assert (HN := new_src_is r known Src HT).
  split; [|split].
  - apply tells_of; [|exact HC'|].
    + eapply walks_ext; [|exact HJ']. intros i. apply HN.
    + intros i Hi. apply HZ', HN, Hi.
  - destruct (round_values r Hok known Src HJ os _ HR s' eq_refl) as (X & _ & _ & _ & _ & HD & _). exact HD.
  - destruct (round_values r Hok known Src HJ os _ HR s' eq_refl) as (X & _ & _ & _ & HI & _ & _ & HL). cbn [outcome_state] in *. intros i. rewrite HI.
    rewrite (d0_is r Hok known Src HJ). unfold ini. destruct (In_dec I_dec i (map vid (dr_starts r))) as [Hs|Hs].
    + destruct (w_eqb_r (get known i) inf) as [Hk|Hk].
      * split.
        -- intros Hlt. exfalso. eapply w_le_lt_contra; [|exact Hlt]. apply (justified_nonneg _ _ i HJ').
        -- intros [_ Hr]. destruct (HT i) as [H1 _]. destruct (H1 (Hr Hs)) as [_ Hlt]. rewrite Hk, w_lt_irrefl in Hlt. discriminate.
      * split; [|tauto]. intros H. split; [exact H|]. intros _. now apply (HT i).
    + split; [|tauto]. intros H. split; [exact H|]. intros H'. destruct (Hs H').
Qed.

Notation res_t := (list (@dij_report V I L WT DM PM LM) * bool * dm_t DM)%type.
Notation series m rs := (dist_series vid WT DM PM LM next m rs).

Lemma series_length rs : forall m, length (series m rs) = length rs.
Proof. induction rs as [|r rs IH]; intros m; [reflexivity|]. cbn [dist_series]. destruct (dij_run _ _ _ _ _ _ _ _ _ _ _) as [os e]. cbn [length]. now rewrite IH. Qed.

Lemma series_app rs1 : forall m rs2, exists m1, series m (rs1 ++ rs2) = series m rs1 ++ series m1 rs2 /\ m1 = last_mapping WT DM PM LM m (series m rs1).
Proof.
  unfold last_mapping. induction rs1 as [|r rs IH]; intros m rs2; [exists m; split; reflexivity|]. cbn [app dist_series]. destruct (dij_run _ _ _ _ _ _ _ _ _ _ _) as [os e].
  destruct (IH (d_distances (outcome_state e)) rs2) as (m1 & H1 & H2). exists m1. split; [cbn [app]; now rewrite H1|]. rewrite H2. cbn [rev].
  destruct (rev (series (d_distances (outcome_state e)) rs)) as [|[[a b] c] l]; reflexivity.
Qed.

Lemma series_tells rs : forall Src m, Forall dround_ok rs -> Forall (fun x : res_t => snd (fst x) = true) (series m rs) ->
  tells_distances WT E Src (fun i => get m i) -> tells_distances WT E (series_sources vid WT E Src rs) (fun i => get (last_mapping WT DM PM LM m (series m rs)) i).
Proof.
  unfold last_mapping. induction rs as [|r rs IH]; intros Src m HO HF HT; [exact HT|]. inversion HO as [|? ? Ho1 Ho2]; subst. cbn [dist_series series_sources fold_left] in *.
  destruct (dij_run _ _ _ _ _ _ _ _ _ _ _) as [os e] eqn:HR. inversion HF as [|? ? He HF']; subst. cbn [fst snd] in He. destruct e as [|s'|]; try discriminate.
  destruct (round_tells r Ho1 m Src HT os s' HR) as (HT' & _). specialize (IH _ _ Ho2 HF' HT'). cbn [outcome_state rev] in *.
  destruct (rev (series (d_distances s') rs)) as [|[[a b] c] l]; exact IH.
Qed.

(** The traversals of a series, one by one *)
Lemma series_reports Src m0 rs1 r rs2 : tells_distances WT E Src (fun i => get m0 i) -> Forall dround_ok (rs1 ++ r :: rs2) ->
  Forall (fun x : res_t => snd (fst x) = true) (series m0 (rs1 ++ [r])) ->
  let Before := series_sources vid WT E Src rs1 in
  let Now := more_sources vid WT E Before r in
  exists os m m', nth_error (series m0 (rs1 ++ r :: rs2)) (length rs1) = Some (os, true, m') /\
    tells_distances WT E Before (fun i => get m i) /\
    tells_distances WT E Now (fun i => get m' i) /\
    NoDup (dij_ids vid os) /\
    StronglySorted (fun a b => leb (dr_distance a) (dr_distance b) = true) os /\
    (forall rep, In rep os -> is_distance WT E Now (vid (dr_vertex rep)) (dr_distance rep)) /\
    (forall i, In i (dij_ids vid os) <-> ltb (get m' i) (get m i) = true /\ (is_start vid (dr_starts r) i -> wreachable WT E Before i)).
Proof.
  intros HT HO HF Before Now. apply Forall_app in HO. destruct HO as [HO1 HO2]. inversion HO2 as [|? ? Hr _]; subst.
  destruct (series_app rs1 m0 [r]) as (m & Hm & Hl). destruct (series_app rs1 m0 (r :: rs2)) as (m2 & Hm2 & Hl2). replace m2 with m in Hm2 by congruence. clear m2 Hl2.
  rewrite Hm in HF. apply Forall_app in HF. destruct HF as [HF1 HF2].
  assert (HB := series_tells rs1 Src m0 HO1 HF1 HT). rewrite <- Hl in HB. cbn [dist_series] in HF2, Hm2.
  destruct (dij_run vid WT DM PM LM next (dr_cfg r) (dr_starts r) (Some m) (dr_limit r) (dr_passes r)) as [os e] eqn:HR. inversion HF2 as [|? ? He _]; subst x l. cbn [fst snd] in He.
  destruct e as [|s'|]; try discriminate. destruct (round_tells r Hr m Before HB os s' HR) as (H1 & H2 & H3).
  exists os, m, (d_distances s').
  assert (HJ := tells_justified _ _ HB). destruct Hr as [Ht Hk].
  destruct (dij_known I_dec vid WT DM PM LM next (dr_cfg r) Ht E Hnext Hnn (dr_starts r) m (ini r m) (ini_is r m) (fun i _ => ini_pos r m Before HJ i) _ _ _ _ HR) as (H4 & H5 & _).
  split; [|split; [exact HB|split; [exact H1|split; [exact H4|split; [exact H5|split; [|exact H3]]]]]].
  - rewrite Hm2, nth_error_app2 by (rewrite series_length; lia). rewrite series_length, Nat.sub_diag. reflexivity.
  - intros rep Hin. rewrite (H2 rep Hin). assert (Hi : In (vid (dr_vertex rep)) (dij_ids vid os)) by (unfold dij_ids; apply in_map_iff; eauto).
    apply H3 in Hi. destruct Hi as [Hlt _]. destruct (H1 (vid (dr_vertex rep))) as [Ha Hb]. apply Ha, Hb. intros Hinf. rewrite Hinf in Hlt.
    destruct (HJ (vid (dr_vertex rep))) as [H|[H _]]; [rewrite H, w_lt_irrefl in Hlt; discriminate|]. eapply w_le_lt_contra; [|exact Hlt]. now apply w_lt_le.
Qed.

(** Traversals may be left at any time *)
Lemma series_walks rs : forall Src m, Forall dround_ok rs -> tells_walks WT E Src (fun i => get m i) ->
  forall x, In x (series m rs) -> tells_walks WT E (all_starts vid Src rs) (fun i => get (snd x) i).
Proof.
  induction rs as [|r rs IH]; intros Src m HO HJ x Hx; [destruct Hx|]. inversion HO as [|? ? Ho1 Ho2]; subst. cbn [dist_series] in Hx.
  destruct (dij_run _ _ _ _ _ _ _ _ _ _ _) as [os e] eqn:HR. assert (HJ' := round_justified r Ho1 m Src HJ os e HR). destruct Hx as [<-|Hx].
  - cbn [snd]. eapply walks_ext; [|exact HJ']. unfold new_src, all_starts. intros i [H|[H _]]; [now left|right]. exists r. split; [now left|exact H].
  - eapply walks_ext; [|exact (IH _ _ Ho2 HJ' x Hx)]. unfold new_src, all_starts. intros i [[H|[H _]]|(r' & Hin & H)]; [now left|right..].
    + exists r. split; [now left|exact H].
    + exists r'. split; [now right|exact H].
Qed.

Lemma tells_nothing m : (forall i, get m i = inf) -> tells_distances WT E (fun _ => False) (fun i => get m i).
Proof. intros H i. split; [intros (s & p & [] & _)|]. intros Hn. now rewrite H in Hn. Qed.
End DistSeriesProofs.
