(** Proofs for C102 and C103: measures and heaviest edges of minimum spanning trees. *)
From Coq Require Import List ZArith Bool Arith Lia Permutation.
From Verif Require Import Machine MachineMore GearSpec Spec TraversalSpec Common CommonProofs PathsModel PathsSpec PathsProofs PathsExact
  Weight WeightSpec AStarSpec HeapModel HeapProofs MSTModel MSTSpec MSTGraph MSTProofs MSTFinal MSTMoreSpec.
Import ListNotations.

Section Measure.
Context {I : Type} (WT : Weights).
Lemma measure_app value (a b : list (I * w_t WT * I)) : total_measure WT value (a ++ b) = (total_measure WT value a + total_measure WT value b)%Z.
Proof. unfold total_measure. induction a as [|e a IH]; cbn; [reflexivity|]. rewrite IH. lia. Qed.
Lemma measure_perm value (a b : list (I * w_t WT * I)) : Permutation a b -> total_measure WT value a = total_measure WT value b.
Proof. unfold total_measure; induction 1; cbn; lia. Qed.
Lemma measure_le value (a b : list (I * w_t WT * I)) : monotone WT value ->
  Forall2 (fun t f => w_leb WT (edge_weight WT t) (edge_weight WT f) = true) a b -> (total_measure WT value a <= total_measure WT value b)%Z.
Proof. intros Hm. unfold total_measure. induction 1 as [|t f a b H1 H2 IH]; cbn; [lia|]. apply Hm in H1. lia. Qed.
Lemma measure_nonneg value (a : list (I * w_t WT * I)) : (forall e, In e a -> (0 <= value (edge_weight WT e))%Z) -> (0 <= total_measure WT value a)%Z.
Proof. unfold total_measure. induction a as [|e a IH]; cbn; intros H; [lia|]. pose proof (H e (or_introl eq_refl)). specialize (IH (fun e' He => H e' (or_intror He))). lia. Qed.
End Measure.

Section Cut.
Context {I : Type} (I_dec : forall a b : I, {a = b} + {a <> b}) (WT : Weights) (E : I -> w_t WT -> I -> Prop).
Notation prim := (prim WT E).
Notation seen sl T := (rev (map snd T) ++ sl).

Lemma prim_ends T : forall sl, prim sl T -> forall i w j, In (i, w, j) T -> ~ In j sl.
Proof.
  induction T as [|[[a wa] b] T IH]; intros sl Hp i w j; [intros []|]. inversion Hp; subst. intros [H|H]; [congruence|].
  intros Hj. eapply IH; [eassumption|exact H|now right].
Qed.
Lemma prim_begins T : forall sl, prim sl T -> forall i w j, In (i, w, j) T -> In i (seen sl T).
Proof.
  induction T as [|[[a wa] b] T IH]; intros sl Hp i w j; [intros []|]. inversion Hp; subst. cbn. rewrite <- app_assoc. cbn. intros [H|H].
  - injection H as <- <- <-. rewrite in_app_iff. right. right. assumption.
  - eapply IH; eassumption.
Qed.
Lemma prim_split T1 : forall T2 sl, prim sl (T1 ++ T2) -> prim sl T1 /\ prim (seen sl T1) T2.
Proof.
  induction T1 as [|[[i w] j] T1 IH]; intros T2 sl Hp; [split; [constructor|auto]|]. cbn in Hp. inversion Hp; subst.
  match goal with H : MSTGraph.prim _ _ (j :: sl) _ |- _ => destruct (IH _ _ H) as [K1 K2] end. split; [constructor; auto|]. cbn. rewrite <- app_assoc. exact K2.
Qed.
Lemma outside_closed T1 T2 sl : prim sl (T1 ++ T2) -> forall p i k, wwalk WT (only WT (T1 ++ T2)) i p k -> ~ In i (seen sl T1) -> ~ In k (seen sl T1).
Proof.
  intros Hp p i k Hw. destruct (prim_split _ _ _ Hp) as [H1 H2]. induction Hw as [i|i w j p k He Hw IH]; [auto|]. intros Hi. apply IH. unfold only in He. apply in_app_iff in He. destruct He as [He|He].
  - exfalso. apply Hi. eapply prim_begins; eassumption.
  - eapply prim_ends; eassumption.
Qed.
Lemma crossing sl w : (forall i' w' j', In i' sl -> E i' w' j' -> ~ In j' sl -> w_leb WT w w' = true) ->
  forall q s k, wwalk WT E s q k -> In s sl -> ~ In k sl -> exists w', In w' (map fst q) /\ w_leb WT w w' = true.
Proof using I_dec.
  intros Hc q s k Hw. induction Hw as [i|i w0 j p k He Hw IH]; [contradiction|]. intros Hi Hk. destruct (in_dec I_dec j sl) as [Hj|Hj].
  - destruct (IH Hj Hk) as (w' & H1 & H2). exists w'. split; [now right|exact H2].
  - exists w0. split; [now left|]. eapply Hc; eassumption.
Qed.
Lemma prim_not_heavier T sl : prim sl T -> forall s p i, In s sl -> wwalk WT (only WT T) s p i -> forall s' q, In s' sl -> wwalk WT E s' q i -> not_heavier WT p q.
Proof using I_dec.
  intros Hp s p i _ Hw s' q Hs' Hq. induction Hw as [i|i w j p k He Hw IH]; [intros w []|]. intros w0 [<-|H]; [|now apply IH]. cbn.
  apply in_split in He. destruct He as (T1 & T2 & ->). destruct (prim_split _ _ _ Hp) as [_ H2]. inversion H2; subst.
  eapply crossing; [eassumption|exact Hq|apply in_app_iff; now right|]. eapply outside_closed; [exact Hp|exact Hw|assumption].
Qed.
Lemma only_more (T T' : list (I * w_t WT * I)) : incl T T' -> forall i p k, wwalk WT (only WT T) i p k -> wwalk WT (only WT T') i p k.
Proof. intros Hi i p k Hw. induction Hw; econstructor; [apply Hi; eassumption|assumption]. Qed.
Lemma prim_walk T : forall sl, prim sl T -> forall k, In k (seen sl T) -> exists s p, In s sl /\ wwalk WT (only WT T) s p k.
Proof.
  induction T as [|[[a wa] b] T IH]; intros sl Hp k Hk; [exists k, []; split; [exact Hk|constructor]|]. inversion Hp; subst. cbn in Hk. rewrite <- app_assoc in Hk. cbn in Hk.
  match goal with H : MSTGraph.prim _ _ (b :: sl) _ |- _ => destruct (IH _ H k Hk) as (s & p & Hs & Hw) end.
  apply (only_more _ ((a, wa, b) :: T)) in Hw; [|intros x Hx; now right]. destruct Hs as [<-|Hs]; [|eauto].
  exists a, ((wa, b) :: p). split; [assumption|]. econstructor; [now left|exact Hw].
Qed.
End Cut.

Section Final.
Context {V I L : Type} (V_dec : forall a b : V, {a = b} + {a <> b}) (I_dec : forall a b : I, {a = b} + {a <> b}) (vid : V -> I) (WT : Weights).
Context (VS : VSet I) (PM : PMap I V) (LM : PMap I L) (next : V -> list (V * w_t WT * L)) (cfg : mst_cfg) (E : I -> w_t WT -> I -> Prop) (starts : list V).
Hypothesis Hnext : presents_weighted WT vid next E.
Notation St := (is_start vid starts).
Notation edges := (mst_edges vid WT PM LM).

Lemma mst_measure lim n os r value : undirected WT E -> mst_run vid WT VS PM LM next cfg starts lim n = (os, r) -> monotone WT value ->
  forall F, attaches WT E St F -> length F = length (edges os) \/ (forall e, In e F -> (0 <= value (edge_weight WT e))%Z) ->
  (total_measure WT value (edges os) <= total_measure WT value F)%Z.
Proof using I_dec Hnext.
  intros HU HR Hm F HF Hor. destruct (mst_min_all I_dec vid WT VS PM LM next cfg E Hnext starts lim n os r HR HU F HF) as (F' & rest & HP & HF2 & _).
  rewrite (measure_perm WT value _ _ HP), measure_app. pose proof (measure_le WT value _ _ Hm HF2) as H1. assert (H2 : (0 <= total_measure WT value rest)%Z).
  { destruct Hor as [Hl|Hn].
    - apply Permutation_length in HP. rewrite app_length in HP. assert (Hl2 : length (edges os) = length F') by (clear -HF2; induction HF2; simpl; auto). destruct rest; [cbn; lia|cbn in HP; lia].
    - apply measure_nonneg. intros e He. apply Hn. apply (Permutation_in _ (Permutation_sym HP)), in_app_iff. now right. }
  lia.
Qed.

Lemma mst_not_heavier lim n os r : mst_run vid WT VS PM LM next cfg starts lim n = (os, r) ->
  forall s p i, St s -> wwalk WT (only WT (edges os)) s p i -> forall s' q, St s' -> wwalk WT E s' q i -> not_heavier WT p q.
Proof using I_dec Hnext.
  intros HR. destruct (mst_reports I_dec vid WT VS PM LM next cfg E Hnext starts lim n os r HR) as ((_ & Hprim & _) & _). exact (prim_not_heavier I_dec WT E _ _ Hprim).
Qed.
Lemma mst_walk lim n os r : mst_run vid WT VS PM LM next cfg starts lim n = (os, r) ->
  forall rep, In rep os -> exists s p, St s /\ wwalk WT (only WT (edges os)) s p (vid (mr_vertex rep)).
Proof using I_dec Hnext.
  intros HR rep Hin. destruct (mst_reports I_dec vid WT VS PM LM next cfg E Hnext starts lim n os r HR) as ((_ & Hprim & _) & _).
  apply (prim_walk WT E _ _ Hprim). rewrite in_app_iff, <- in_rev. left. rewrite (edges_eq I_dec vid WT VS PM LM next cfg E Hnext starts lim n os r HR os) by (exists []; now rewrite app_nil_r).
  apply in_map_iff. eauto.
Qed.

(** The delivered path consists of reported edges: with the reported weights it is a walk in the tree. *)
Lemma rebuild os (T : list (I * w_t WT * I)) :
  (forall rep u b w l, In rep os -> mr_edge (WT := WT) (PM := PM) (LM := LM) rep = Some (u, (b, w, l)) -> In (b, w, l) (next u) /\ In (vid u, w, vid b) T) ->
  forall s0 p v, chain next s0 p v -> (forall a b d, In (a, b, d) (chain_edges s0 p) -> exists rep w, In rep os /\ mr_edge rep = Some (a, (b, w, d))) ->
  exists p', chain next s0 p' v /\ chain_edges s0 p' = chain_edges s0 p /\ chain_vertices s0 p' = chain_vertices s0 p /\
    wwalk WT (only WT T) (vid s0) (map (fun e => (snd (fst e), vid (fst (fst e)))) p') (vid v).
Proof.
  intros HT s0 p v Hc. induction Hc as [s|s b w l p v He Hc IH]; intros Hr; [exists []; repeat split; constructor|].
  destruct IH as (p' & H1 & H2 & H3 & H4); [intros; apply Hr; now right|]. destruct (Hr s b l (or_introl eq_refl)) as (rep & w' & Hin & Hrep).
  destruct (HT _ _ _ _ _ Hin Hrep) as [K1 K2]. exists ((b, w', l) :: p'). split; [now constructor|]. split; [cbn; now rewrite H2|]. split; [unfold chain_vertices in *; cbn; f_equal; exact H3|].
  cbn. econstructor; [exact K2|exact H4].
Qed.
Lemma mst_path lim n os r : mst_run vid WT VS PM LM next cfg starts lim n = (os, r) -> mc_build_paths cfg = true -> starts_distinct vid starts ->
  forall rep, In rep os -> exists s0 p, In s0 starts /\ chain next s0 p (mr_vertex rep) /\
    delivers_exactly V_dec vid PM LM (mr_pred rep) (mr_labels rep) (mc_labeled cfg) (mr_vertex rep) (chain_vertices s0 p) (chain_edges s0 p) /\
    wwalk WT (only WT (edges os)) (vid s0) (map (fun e => (snd (fst e), vid (fst (fst e)))) p) (vid (mr_vertex rep)).
Proof using I_dec Hnext.
  intros HR Hb Hd rep Hin. destruct (in_split _ _ Hin) as (o1 & o2 & Heq).
  destruct (mst_tree_all V_dec I_dec vid WT VS PM LM next cfg E Hnext starts lim n os r HR) as (Ht & _). destruct (Ht o1 rep o2 Heq) as (u & w & l & _ & _ & _ & _ & _ & Hp).
  destruct (Hp Hb Hd) as (s0 & p & H1 & H2 & H3 & H4).
  destruct (mst_reports I_dec vid WT VS PM LM next cfg E Hnext starts lim n os r HR) as ((_ & _ & Hedge) & _).
  destruct (rebuild os (edges os)) with (s0 := s0) (p := p) (v := mr_vertex rep) as (p' & K1 & K2 & K3 & K4).
  - intros rep' u' b' w' l' Hin' Hr'. destruct (Hedge rep' Hin') as (u2 & w2 & l2 & He & Hn). rewrite Hr' in He. injection He as <- -> <- <-. split; [exact Hn|].
    unfold mst_edges. apply in_flat_map. exists rep'. split; [exact Hin'|]. rewrite Hr'. now left.
  - exact H2.
  - intros a b d Hi. destruct (H3 a b d Hi) as (rep' & w' & Hi' & Hr'). exists rep', w'. split; [|exact Hr']. rewrite Heq. apply in_app_iff in Hi'. apply in_app_iff. destruct Hi' as [?|[<-|[]]]; [now left|right; now left].
  - exists s0, p'. rewrite K2, K3. auto.
Qed.
End Final.

From Verif Require FloatModel.
Section Floats.
Import FloatModel.
Context (prec largest : Z) (Hp : (1 <= prec)%Z) (Hl : (0 <= largest)%Z).
Notation FW := (FloatWeights prec largest Hp Hl).
Lemma units_monotone : monotone FW (@float_units prec largest).
Proof.
  intros a b H. change (float_leb prec largest a b = true) in H. change (option (fin prec largest)) in a, b. destruct a as [a|], b as [b|]; cbn [float_leb float_units] in *; try discriminate; try (apply Z.le_refl).
  - now apply Z.leb_le.
  - apply (fin_spec prec largest a).
Qed.
Lemma units_nonneg (w : w_t FW) : (0 <= float_units (prec := prec) (largest := largest) w)%Z.
Proof using Hl. change (option (fin prec largest)) in w. destruct w as [a|]; cbn [float_units]; [apply (fin_spec prec largest a)|exact Hl]. Qed.
Context {V I L : Type} (I_dec : forall a b : I, {a = b} + {a <> b}) (vid : V -> I) (VS : VSet I) (PM : PMap I V) (LM : PMap I L).
Context (next : V -> list (V * w_t FW * L)) (cfg : mst_cfg) (E : I -> w_t FW -> I -> Prop) (starts : list V).
Hypothesis Hnext : presents_weighted FW vid next E.
Lemma mst_float_measure lim n os r : undirected FW E -> mst_run vid FW VS PM LM next cfg starts lim n = (os, r) ->
  forall F, attaches FW E (is_start vid starts) F ->
  (total_measure FW (@float_units prec largest) (mst_edges vid FW PM LM os) <= total_measure FW (@float_units prec largest) F)%Z.
Proof using I_dec Hnext.
  intros HU HR F HF. apply (mst_measure I_dec vid FW VS PM LM next cfg E starts Hnext lim n os r (@float_units prec largest) HU HR units_monotone F HF). right. intros e _. apply units_nonneg.
Qed.
End Floats.
