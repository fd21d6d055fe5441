(** Proofs about StoreModel. *)
From Coq Require Import List ZArith Bool Arith Lia.
From Verif Require Import Machine MachineMore GearSpec Spec TraversalSpec Common CommonProofs PathsModel Weight WeightSpec HeapModel HeapProofs DijkstraModel
  DijkstraProofs DijkstraPaths DijkstraPlain FloatModel FloatSpec StoreModel.
Import ListNotations.

(** Two machines that agree on the states one of them reaches *)
Lemma run_same {S O X : Type} (step step' : S -> @step_result S O X) s0 :
  (forall n os s, run step n s0 = (os, Running s) -> step' s = step s) -> forall n, run step' n s0 = run step n s0.
Proof.
  intros H n. assert (HG : forall m k os s, run step k s0 = (os, Running s) -> run step' m s = run step m s).
  { induction m as [|m IH]; intros k os s Hr; [reflexivity|]. cbn [run]. rewrite (H k os s Hr). destruct (step s) as [o s'|o s'|o x s'] eqn:Es; auto.
    rewrite (IH (k + 1) (os ++ o) s'); [reflexivity|]. rewrite (run_add_running _ _ _ _ _ _ Hr). cbn [run]. rewrite Es. cbn. now rewrite app_nil_r. }
  exact (HG n 0 [] s0 eq_refl).
Qed.

Lemma has_ended {O S X : Type} (p : O * outcome S X) : match snd p with Ended _ => true | _ => false end = true -> p = (fst p, Ended (outcome_state (snd p))).
Proof. destruct p as [o [s|s|x s]]; try discriminate. reflexivity. Qed.

Section StoreProofs.
Context {V I L : Type}.
Variable I_dec : forall a b : I, {a = b} + {a <> b}.
Variable vid : V -> I.
Variable WT : Weights.
Notation W := (w_t WT).
Variable DM : DMap I W (w_inf WT).
Variable PM : PMap I V.
Variable LM : PMap I L.
Variable next : V -> list (V * W * L).
Variable cfg : dij_cfg.
Variable E : I -> W -> I -> Prop.
Hypothesis Hnext : presents_weighted WT vid next E.
Variable starts : list V.
Variable store : W -> W.
Hypothesis Hzero : store (w_zero WT) = w_zero WT.
Notation St := (is_start vid starts).
Notation state := (@dij_state V I L WT DM PM LM).
Notation report := (@dij_report V I L WT DM PM LM).

Section Exact.
Hypothesis Htree : dc_is_tree cfg = false.
Hypothesis Hnn : nonnegative WT E.
Hypothesis Hexact : forall i d w j, is_distance WT E St i d -> E i w j -> store (w_add WT w d) = w_add WT w d.

Lemma sto_same lim n : sto_run vid WT DM PM LM next cfg store starts lim n = dij_run vid WT DM PM LM next cfg starts None lim n.
Proof using I_dec Hnext Hzero Htree Hnn Hexact.
  unfold sto_run, dij_run.
  assert (HI : sto_init vid WT DM PM LM cfg store starts lim = dij_init vid WT DM PM LM cfg starts None lim) by (unfold sto_init, dij_init; now rewrite Hzero).
  rewrite HI. apply run_same. intros m os s HR.
  destruct (dij_any I_dec vid WT DM PM LM next cfg Htree E Hnext Hnn starts None lim (Hd0 I_dec vid WT DM PM LM next cfg Htree E Hnext Hnn starts) m os (Running s) HR) as (X & pc & HB & HX & Hpc).
  cbn [outcome_state] in HB. destruct HB as [HInv _ _ _]. subst X pc.
  unfold sto_step, dij_step. destruct (d_pc s) as [|v w k [|[[nn ew] l] rest]] eqn:Epc.
  - destruct (d_heap s) as [|[[w no] [v k]] h]; [reflexivity|]. destruct (_ && _); [reflexivity|]. unfold sto_settle, dij_settle. rewrite Hzero. reflexivity.
  - reflexivity.
  - cbv zeta. destruct (w_leb WT (w_inf WT) _); [reflexivity|]. destruct (_ && _); [reflexivity|]. unfold sto_relax, dij_relax.
    destruct (edge_in vid WT DM next cfg E Hnext starts None _ _ _ _ _ _ _ _ _ _ HInv) as (H1 & _ & H3).
    rewrite (Hexact (vid v) w ew (vid nn)); [reflexivity| |exact H1].
    refine (settled_distance I_dec vid WT DM PM LM next cfg Htree E Hnext Hnn starts _ _ _ _ _ _ HInv _). exists v, k. auto.
Qed.
End Exact.

(** Whatever is stored: reported distances are weights of walks. *)
Definition real (v : V) (w : W) (k : nat) : Prop := exists s p, St s /\ wwalk WT E s p (vid v) /\ walk_weight WT p = w /\ length p = k.

Definition RInv (os : list report) (s : state) : Prop :=
  (forall e, In e (d_heap s) -> real (ev WT e) (e_key e) (ek WT e)) /\
  (forall v w k rest, d_pc s = DEdges WT v w k rest -> real v w k /\ incl rest (next v)) /\
  (forall rep, In rep os -> real (dr_vertex rep) (dr_distance rep) (dr_depth rep)).

Lemma RInv_init lim : RInv [] (sto_init vid WT DM PM LM cfg store starts lim).
Proof using I_dec Hzero.
  split; [|split; [discriminate|intros ? []]]. cbn [d_heap sto_init]. intros e He. rewrite heapify_in in He.
  apply start_entries_in in He. destruct He as (v & Hv & <- & -> & ->). exists (vid (ev WT e)), []. split; [now apply in_map|]. split; [constructor|]. split; [|reflexivity].
  rewrite Hzero. unfold define_distances. cbn [walk_weight fold_left]. symmetry.
  assert (HG : forall l m i, In i (map vid l) -> dm_get DM i (fold_left (fun m p => dm_set DM (fst p) (snd p) m) (map (fun v => (vid v, w_zero WT)) l) m) = w_zero WT).
  { induction l as [|u l IH] using rev_ind; intros m i Hi; [destruct Hi|]. rewrite map_app, fold_left_app. cbn [map fold_left fst snd].
    destruct (I_dec i (vid u)) as [->|Hne]; [apply dm_get_set_same|]. rewrite dm_get_set_other by exact Hne. apply IH. rewrite map_app in Hi.
    apply in_app_or in Hi. destruct Hi as [Hi|[Hi|[]]]; [exact Hi|congruence]. }
  apply HG. now apply in_map.
Qed.

Lemma RInv_step pre s o s' : RInv pre s -> sto_step vid WT DM PM LM next cfg store s = Go o s' -> RInv (pre ++ o) s'.
Proof using Hnext.
  intros (H1 & H2 & H3) Hs. unfold sto_step in Hs. destruct (d_pc s) as [|v w k [|[[nn ew] l] rest]] eqn:Epc.
  - destruct (d_heap s) as [|[[w no] [v k]] h] eqn:Eh; [discriminate|].
    pose proof (H1 (w, no, (v, k)) ltac:(now left)) as Hv. cbn in Hv.
    destruct (_ && _); [injection Hs as <- <-|].
    + rewrite app_nil_r. split; [intros e He; apply H1; now right|]. split; [|exact H3]. cbn. rewrite Epc. discriminate.
    + cbv zeta in Hs. destruct (limit_check _) as [lim|]; [|discriminate]. injection Hs as <- <-. split; [intros e He; apply H1; now right|].
      split; [intros v' w' k' rest Hr; injection Hr as <- <- <- <-; split; [exact Hv|apply incl_refl]|].
      intros rep Hr. apply in_app_or in Hr. destruct Hr as [Hr|Hr]; [now apply H3|]. destruct (0 <? k); [|destruct Hr]. destruct Hr as [<-|[]]. exact Hv.
  - injection Hs as <- <-. rewrite app_nil_r. split; [exact H1|]. split; [discriminate|exact H3].
  - destruct (H2 v w k _ eq_refl) as [Hv Hinc]. cbv zeta in Hs. destruct (w_leb WT (w_inf WT) _); [discriminate|]. destruct (_ && _); injection Hs as <- <-; rewrite app_nil_r.
    + split; [exact H1|]. split; [|exact H3]. intros v' w' k' rest' Hr. injection Hr as <- <- <- <-. split; [exact Hv|]. intros x Hx. apply Hinc. now right.
    + split; [|split; [|exact H3]].
      * cbn [d_heap sto_relax]. intros e He. rewrite heappush_in in He. destruct He as [->|He]; [|now apply H1].
        cbn. destruct Hv as (a & p & P1 & P2 & P3 & P4). exists a, (p ++ [(ew, vid nn)]). split; [exact P1|].
        split. { eapply wwalk_snoc; [exact P2|]. apply Hnext. apply in_map_iff. exists (nn, ew, l). split; [reflexivity|]. apply Hinc. now left. }
        split; [rewrite walk_weight_snoc, P3; reflexivity|]. rewrite app_length, P4. cbn. lia.
      * intros v' w' k' rest' Hr. injection Hr as <- <- <- <-. split; [exact Hv|]. intros x Hx. apply Hinc. now right.
Qed.

Lemma sto_real lim n os r : sto_run vid WT DM PM LM next cfg store starts lim n = (os, r) ->
  forall rep, In rep os -> exists s p, St s /\ wwalk WT E s p (vid (dr_vertex rep)) /\ walk_weight WT p = dr_distance rep /\ length p = dr_depth rep.
Proof using I_dec Hnext Hzero.
  intros HR.
  destruct r as [s'|s'|x s'].
  - pose proof (run_inv_running _ RInv RInv_step n [] _ os s' (RInv_init lim) HR) as (_ & _ & H). exact H.
  - destruct (run_inv_ended _ RInv RInv_step n [] _ os s' (RInv_init lim) HR) as (o1 & o & s1 & -> & (_ & _ & H) & Hs).
    unfold sto_step in Hs. destruct (d_pc s1) as [|v w k [|[[nn ew] l] rest]]; [|discriminate|].
    + destruct (d_heap s1) as [|[[w no] [v k]] h]; [injection Hs as <- <-; rewrite app_nil_r; exact H|]. destruct (_ && _); [discriminate|].
      cbv zeta in Hs. destruct (limit_check _); discriminate.
    + cbv zeta in Hs. destruct (w_leb WT (w_inf WT) _); [discriminate|]. destruct (_ && _); discriminate.
  - destruct (run_inv_raised _ RInv RInv_step n [] _ os x s' (RInv_init lim) HR) as (o1 & o & s1 & -> & (H1 & _ & H) & Hs).
    unfold sto_step in Hs. destruct (d_pc s1) as [|v w k [|[[nn ew] l] rest]]; [|discriminate|].
    + destruct (d_heap s1) as [|[[w no] [v k]] h]; [discriminate|]. destruct (_ && _); [discriminate|].
      cbv zeta in Hs. destruct (limit_check _); [discriminate|]. injection Hs as <- _ _. intros rep Hr. apply in_app_or in Hr. destruct Hr as [Hr|Hr]; [now apply H|].
      pose proof (H1 (w, no, (v, k)) ltac:(now left)) as Hv. cbn in Hv. destruct (0 <? k); [|destruct Hr]. destruct Hr as [<-|[]]. exact Hv.
    + cbv zeta in Hs. destruct (w_leb WT (w_inf WT) _); [injection Hs as <- _ _; rewrite app_nil_r; exact H|]. destruct (_ && _); discriminate.
Qed.
End StoreProofs.

(** Storing C floats is exact *)
Local Open Scope Z_scope.
Definition is_single (a : w_t PyFloat) : Prop :=
  exists f m k, a = Some f /\ fin_value 53 py_largest f = m * 2 ^ k /\ 0 <= m < 2 ^ 24 /\ 925 <= k <= 104 + 1074.

Lemma round_at_divides k x : 0 <= k -> 0 <= x -> (2 ^ k | x) -> round_at k x = x.
Proof.
  intros Hk Hx (m & Hm). unfold round_at. cbv zeta. pose proof (Z.pow_pos_nonneg 2 k ltac:(lia) Hk) as Hu.
  assert (Hr : x mod 2 ^ k = 0) by (rewrite Hm; apply Z_mod_mult). pose proof (Z.div_mod x (2 ^ k) ltac:(lia)) as Hq. rewrite Hr in *.
  replace (2 ^ k <? 2 * 0) with false by (symmetry; apply Z.ltb_ge; lia).
  replace (2 * 0 =? 2 ^ k) with false by (symmetry; apply Z.eqb_neq; lia). cbn [orb andb]. lia.
Qed.

Lemma store_single_exact a : is_single a -> store_single a = a.
Proof.
  intros (f & m & k & -> & Hf & Hm & Hk). unfold store_single. cbv zeta. rewrite Hf.
  assert (HP : 0 < 2 ^ k) by (apply Z.pow_pos_nonneg; lia).
  assert (HS : single_value (m * 2 ^ k) = m * 2 ^ k).
  { unfold single_value. apply round_at_divides; [lia|nia|]. apply Z.divide_mul_r.
    assert (H2 : forall a b, 0 <= a <= b -> (2 ^ a | 2 ^ b)).
    { intros a b Hab. exists (2 ^ (b - a)). rewrite <- Z.pow_add_r by lia. f_equal. lia. }
    apply H2. split; [lia|]. unfold lost_bits. destruct (Z.eq_dec m 0) as [->|Hm0]; [rewrite Z.mul_0_l; cbn [Z.log2]; lia|].
    assert (Z.log2 (m * 2 ^ k) < 24 + k); [|lia]. apply Z.log2_lt_pow2; [nia|]. rewrite Z.pow_add_r by lia. nia. }
  rewrite HS. replace (m * 2 ^ k <=? single_largest) with true.
  2: { symmetry. apply Z.leb_le. unfold single_largest. assert (2 ^ k <= 2 ^ (104 + 1074)) by (apply Z.pow_le_mono_r; lia).
       transitivity ((2 ^ 24 - 1) * 2 ^ k); [nia|]. apply Z.mul_le_mono_nonneg_l; lia. }
  rewrite <- Hf. pose proof (fin_spec 53 py_largest f) as [HA HB]. pose proof (float_of_spec 53 py_largest ltac:(lia) (fin_value 53 py_largest f) ltac:(lia)) as HC.
  destruct (float_of 53 py_largest (fin_value 53 py_largest f)) as [g|]; [|lia]. f_equal. apply fin_eq. lia.
Qed.

Lemma is_single_intro a m k : option_map (fin_value 53 py_largest) a = Some (m * 2 ^ k) -> 0 <= m < 2 ^ 24 -> 925 <= k <= 104 + 1074 -> is_single a.
Proof. destruct a as [f|]; [|discriminate]. intros H Hm Hk. injection H as H. exists f, m, k. auto. Qed.
