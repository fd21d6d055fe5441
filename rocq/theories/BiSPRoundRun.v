(** The bidirectional search of shortest paths with rounded sums: whole runs. *)
From Coq Require Import List ZArith Bool Lia Arith.
From Verif Require Import Machine MachineMore GearSpec Spec TraversalSpec Common CommonProofs PathsModel PathsSpec PathsProofs PathsExact PathModel PathSpec PathProofs Weight WeightSpec HeapModel HeapProofs DijkstraModel
  BiSPModel BiSPSpec BiSPSide BiSPProofs BiSPMore BiSPPaths BiSPRun BiSPRoundSpec BiSPRound.
Import ListNotations.

Section Run.
Context {V I L : Type}.
Variable V_dec : forall a b : V, {a = b} + {a <> b}.
Variable I_dec : forall a b : I, {a = b} + {a <> b}.
Variable vid : V -> I.
Variable WT : Weights.
Hypothesis Hra : rounded_addition WT.
Notation W := (w_t WT).
Notation leb := (w_leb WT).
Notation ltb := (w_ltb WT).
Notation add := (w_add WT).
Notation zero := (w_zero WT).
Notation inf := (w_inf WT).
Variable DM : DMap I W inf.
Variable PM : PMap I V.
Variable LM : PMap I L.
Notation "D @ i" := (dm_get DM i D) (at level 10).
Variable next_f next_b : V -> list (V * W * L).
Variables labeled build silent : bool.
Variables E B : I -> W -> I -> Prop.
Hypothesis Hf : presents_weighted WT vid next_f E.
Hypothesis Hb : presents_weighted WT vid next_b B.
Hypothesis HnnE : nonnegative WT E.
Hypothesis HnnB : nonnegative WT B.
Hypothesis Hmu : mutual WT E B.
Variables starts goals : list V.
Notation state := (@b2_state V I L WT DM PM LM).
Notation side := (@b2_side V I L WT DM PM LM).
Notation step := (b2_step V_dec vid WT DM PM LM next_f next_b labeled build silent).
Notation next_of := (next_of WT next_f next_b).
Notation E_of := (E_of WT E B).
Notation starts_of := (starts_of starts goals).
Notation SI f := (SInv vid WT DM (next_of f) (E_of f) (starts_of f)).
Notation GI := (GI vid WT DM PM LM next_f next_b E B starts goals).
Notation pres_of := (pres_of vid WT next_f next_b E B Hf Hb).
Notation nn_of := (nn_of WT E B HnnE HnnB).
Notation init first := (b2_init vid WT DM PM LM build first starts goals).
Notation moved := (moved vid WT DM PM LM next_f next_b labeled build).
Notation side_of := (side_of WT DM PM LM).
Notation counted := (counted I_dec vid WT DM PM LM starts goals).
Notation too_far := (too_far vid WT E B starts goals).
Notation way := (way vid WT E starts goals).
Notation no_way := (no_way vid WT E starts goals).
Notation rgood := (rgood vid WT DM PM LM E starts goals).
Notation GS := (rGI_step V_dec I_dec vid WT Hra DM PM LM next_f next_b labeled build silent E B Hf Hb HnnE HnnB Hmu starts goals).

Lemma rGI_go s o s' : GI s -> step s = Go o s' -> GI s' /\ o = [].
Proof using I_dec Hra Hf Hb HnnE HnnB Hmu. intros G Hs. pose proof (GS s G) as H. rewrite Hs in H. destruct H as [-> H]. auto. Qed.

Lemma rexpand_bound s w no v h p : GI s -> b2_pc_of s = SLoop -> b2_heap (b2_current s) = (w, no, v) :: h -> ltb (b2_dist (b2_current s) @ (vid v)) w = false ->
  negb (w_eqb WT inf (b2_best s)) && leb (b2_best s) (add w (b2_others s)) = false -> way p -> exists c, length_from_both_ends WT p c /\ leb w c = true.
Proof using Hra Hf Hb HnnE HnnB Hmu.
  intros G Hpc Hh Hst Hbr Hp. pose proof (g_cur _ _ _ _ _ _ _ _ _ _ _ s G) as HC. pose proof (g_oth _ _ _ _ _ _ _ _ _ _ _ s G) as HO. rewrite Hpc, Hh in HC. simpl in HC.
  pose proof (head_min WT _ _ (s_sorted _ _ _ _ _ _ _ _ _ _ HC)) as Hmin. simpl in Hmin.
  destruct (rmeet_way vid WT Hra DM next_f next_b E B Hf Hb HnnE HnnB Hmu starts goals (b2_forwards s) _ _ _ _ _ _ (b2_best s) w zero p HC HO (g_best_le _ _ _ _ _ _ _ _ _ _ _ s G)) as (c & Hc & Hle); auto.
  { intros e He. eapply (keys_zero vid WT); eauto. }
  exists c. split; [exact Hc|]. destruct Hle as [Hle|Hle]; [|rewrite (ra_zero WT Hra) in Hle; exact Hle].
  destruct (leb w c) eqn:Ec; auto. exfalso.
  assert (Hbw : ltb (b2_best s) w = true) by (eapply w_le_lt_trans; [exact Hle|now apply w_ltb_lt]).
  assert (Hwi : ltb w inf = true) by (apply (s_heap _ _ _ _ _ _ _ _ _ _ HC (w, no, v)); now left).
  destruct (eqb_inf vid WT DM PM LM next_f next_b E B starts goals s G) as [[C _]|[_ Hni]].
  - rewrite C in Hbw. eapply w_le_lt_contra; [apply w_lt_le; exact Hbw|exact Hwi].
  - rewrite Hni in Hbr. simpl in Hbr. rewrite (w_leb_trans WT _ w) in Hbr; [discriminate|now apply w_lt_le|].
    apply (radd_le_l WT Hra); auto. apply (g_others_nn _ _ _ _ _ _ _ _ _ _ _ s G).
Qed.

(** The ids in [l] contain all vertices that can be expanded in direction [f]. *)
Definition rbounded (f : bool) (l : list I) : Prop :=
  (forall s p i, is_start vid (starts_of f) s -> wwalk WT (E_of f) s p i -> In i l) \/
  (exists q, way q /\ forall c s p i, length_from_both_ends WT q c -> is_start vid (starts_of f) s -> wwalk WT (E_of f) s p i -> leb (walk_weight WT p) c = true -> In i l).

Lemma rwithin_moved f l : rbounded f l -> forall s s', GI s -> moved s s' -> (forall g, within vid WT DM PM LM f l g (side_of g s)) -> forall g, within vid WT DM PM LM f l g (side_of g s').
Proof using Hra Hf Hb HnnE HnnB Hmu.
  intros Hbd s s' G Hmv. apply (both_sides vid WT DM PM LM next_f next_b labeled build E B starts goals (within vid WT DM PM LM f l) s s' G Hmv).
  - intros g b w no v h _ _ _ HW Hg u wu Hu. exact (HW Hg u wu Hu).
  - intros g b w no v h lim HI Hh Hst -> -> _ Hpc Hbr HW Hg u wu [Heq|Hu]; [|exact (HW Hg u wu Hu)]. injection Heq as <- <-. rewrite Hg in *.
    destruct (s_heap _ _ _ _ _ _ _ _ _ _ HI (w, no, v)) as [H1 H2]; [now left|]. apply w_ltb_ge in Hst.
    assert (Hd : b2_dist (b2_current s) @ (vid v) = w) by (now apply (w_leb_antisym WT)).
    destruct (s_real _ _ _ _ _ _ _ _ _ _ HI (vid v)) as (a & p & Ha & Hp & Hpw); [rewrite Hd; now apply lt_neq|].
    destruct Hbd as [Hbd|(q & Hq & Hbd)]; [eauto|]. destruct (rexpand_bound s w no v h q G Hpc Hh) as (c & Hc & Hwc); auto; [rewrite Hd; apply w_lt_irrefl|].
    apply (Hbd c a p); auto. rewrite Hpw, Hd. exact Hwc.
  - intros g b v w n ew lb rest _ _ _ HW Hg u wu Hu. exact (HW Hg u wu Hu).
Qed.

Lemma rends f l first lim : rbounded f l -> (forall i, is_start vid starts i -> is_start vid goals i -> False) ->
  exists n os r, run step n (init first lim) = (os, r) /\ forall s', r <> Running s'.
Proof using Hra Hf Hb HnnE HnnB Hmu I_dec.
  intros Hbd Hdisj.
  apply (run_terminates_wf step (lex3 (m1 WT DM PM LM starts goals f l) (m2 WT DM PM LM f) (m3 WT DM PM LM)) (fun s => GI s /\ (forall g, counted g (side_of g s)) /\ forall g, within vid WT DM PM LM f l g (side_of g s))).
  - apply lex3_wf.
  - intros s o s' (G & HC & HW) Hs. pose proof (moves V_dec vid WT DM PM LM next_f next_b labeled build silent s o s' Hs) as Hmv. destruct (rGI_go s o s' G Hs) as [G' _].
    pose proof (counted_moved I_dec vid WT DM PM LM next_f next_b labeled build E B Hf Hb HnnE HnnB starts goals s s' G Hmv HC) as HC'. pose proof (rwithin_moved f l Hbd s s' G Hmv HW) as HW'. split; auto.
    assert (HB : length (b2_calls (side_of f s')) <= length l + length (starts_of f)).
    { pose proof (g_cur _ _ _ _ _ _ _ _ _ _ _ s' G') as Gc. pose proof (g_oth _ _ _ _ _ _ _ _ _ _ _ s' G') as Go. specialize (HC' f). specialize (HW' f eq_refl). unfold BiSPMore.side_of in *.
      destruct (Bool.eqb (b2_forwards s') f) eqn:Ef; [apply eqb_prop in Ef; rewrite Ef in Gc; eapply (calls_bound I_dec vid WT DM PM LM next_f next_b E B starts goals); eauto|].
      replace (negb (b2_forwards s')) with f in Go by (destruct f, (b2_forwards s'); auto; discriminate). eapply (calls_bound I_dec vid WT DM PM LM next_f next_b E B starts goals); eauto. }
    unfold lex3, m1, m2, m3, in_edges, BiSPMore.side_of in *. clear HW HW' HC HC' G G' Hbd Hs.
    destruct Hmv as [w no v h s' Hpc Hh Hst E1 E2 E3 E4 E5|w no v h lim' s' Hpc Hh Hst Hbr Hl E1 E2 E3 E4 E5|v w s' Hpc E1 E2 E3 E4 E5|v w n ew lb rest s' Hpc Hov Hle E1 E2 E3 E4 E5|v w n ew lb rest s' Hpc Hov Hle E1 E2 E3 E4 E5];
      rewrite E1, E2, E3, E4, Hpc in *; destruct f, (b2_forwards s); cbn [Bool.eqb negb] in *; cbn [b2_popped b2_expanded b2_improved b2_heap b2_calls length] in *; rewrite ?Hh in *; cbn [length] in *; lia.
  - split; [apply (rGI_init I_dec); auto|]. split; [apply (counted_init I_dec)|]. intros g _ v w Hin. exfalso. unfold BiSPMore.side_of in Hin. destruct g; exact Hin.
Qed.

(** ** Whole runs *)
Section Says.
Hypothesis Hdisj : forall i, is_start vid starts i -> is_start vid goals i -> False.
Lemma rrun_says (Q : state -> Prop) first lim n os r :
  Q (init first lim) -> (forall s s', GI s -> moved s s' -> Q s -> Q s') ->
  run step n (init first lim) = (os, r) ->
  match r with
  | Running s => os = []
  | Ended s => (silent = true /\ os = [{| b2_length := inf; b2_path := of_nothing labeled |}] /\ no_way) \/
               (exists s, GI s /\ Q s /\ os = [b2_found V_dec vid WT DM PM LM labeled build s] /\ rgood s)
  | Raised e s => os = [] /\ ((e = KeyErrorNotFound /\ silent = false /\ no_way) \/ (e = RuntimeErrorLimit /\ lim <> None) \/ (e = OverflowErrorDistance /\ too_far))
  end.
Proof using I_dec Hra Hf Hb HnnE HnnB Hmu Hdisj.
  intros HQ0 HQ HR.
  pose proof (run_inv_any step (fun pre s => pre = [] /\ GI s /\ Q s /\ (lim = None -> forall f, b2_limit (side_of f s) = None))) as HI.
  assert (Hstep : forall pre s o s', (pre = [] /\ GI s /\ Q s /\ (lim = None -> forall f, b2_limit (side_of f s) = None)) -> step s = Go o s' ->
    (pre ++ o = [] /\ GI s' /\ Q s' /\ (lim = None -> forall f, b2_limit (side_of f s') = None))).
  { intros pre s o s' (-> & G & HQs & HL) Hs. destruct (rGI_go s o s' G Hs) as [G' ->]. pose proof (moves V_dec vid WT DM PM LM next_f next_b labeled build silent _ _ _ Hs) as Hmv. split; auto. split; auto. split; [eauto|].
    intros Hl. apply (limits vid WT DM PM LM next_f next_b labeled build E B starts goals s s' G Hmv). auto. }
  assert (Hlim0 : lim = None -> forall f, b2_limit (side_of f (init first lim)) = None) by (intros -> []; reflexivity).
  specialize (HI Hstep n [] _ _ _ (conj eq_refl (conj (rGI_init I_dec vid WT Hra DM PM LM next_f next_b build E B starts goals Hdisj first lim) (conj HQ0
     Hlim0))) HR).
  destruct r as [s|s|x s].
  - simpl in HI. tauto.
  - destruct HI as (os1 & o & s1 & -> & (Hpre & G & HQs & HL) & Hs). simpl in Hpre. subst os1. simpl.
    pose proof (GS s1 G) as Hg. rewrite Hs in Hg.
    destruct Hg as [Hg|[Ho Hg]]; [auto|]. right. exists s1. auto.
  - destruct HI as (os1 & o & s1 & -> & (Hpre & G & HQs & HL) & Hs). simpl in Hpre. subst os1. simpl.
    pose proof (GS s1 G) as Hg. rewrite Hs in Hg.
    destruct Hg as [-> [Hg|[[-> Hg]|Hg]]]; split; auto. right; left. split; auto. intros Hl.
    specialize (HL Hl (b2_forwards s1)). unfold BiSPMore.side_of in HL. rewrite eqb_reflx in HL. rewrite HL in Hg. discriminate.
Qed.
End Says.

Variable lim : option Z.
Notation b2run := (b2_run V_dec I_dec vid WT DM PM LM next_f next_b labeled build silent starts goals lim).

Lemma rrun_cases (Q : state -> Prop) n os r :
  (forall first, (forall i, is_start vid starts i -> is_start vid goals i -> False) -> Q (b2_init vid WT DM PM LM build first starts goals lim)) ->
  (forall s s', GI s -> moved s s' -> Q s -> Q s') ->
  b2run n = (os, r) ->
  match r with
  | Running _ => os = []
  | Ended _ => exists x, os = [x] /\
      ((silent = true /\ b2_length x = inf /\ no_way) \/
       (exists v g, In v starts /\ In g goals /\ vid g = vid v /\ x = {| b2_length := zero; b2_path := from_vertex labeled v |}) \/
       (exists s, GI s /\ Q s /\ x = b2_found V_dec vid WT DM PM LM labeled build s /\ rgood s))
  | Raised e _ => os = [] /\ ((e = KeyErrorNotFound /\ silent = false /\ no_way) \/ (e = RuntimeErrorLimit /\ lim <> None) \/ (e = OverflowErrorDistance /\ too_far))
  end.
Proof using I_dec Hra Hf Hb HnnE HnnB Hmu.
  intros HQ0 HQ. unfold b2_run.
  assert (Hnone : starts = [] \/ goals = [] -> no_way).
  { intros Hn p (s & g & Hs & Hg & _). destruct Hn as [Hn|Hn]; [rewrite Hn in Hs; destruct Hs|rewrite Hn in Hg; destruct Hg]. }
  assert (Hmain : forall first,
    (match b2_common I_dec vid starts goals with
      | Some v => ([{| b2_length := zero; b2_path := from_vertex labeled v |}], Ended None)
      | None => let '(os, r) := run (b2_step V_dec vid WT DM PM LM next_f next_b labeled build silent) n (b2_init vid WT DM PM LM build first starts goals lim) in
          (os, match r with Running s => Running (Some s) | Ended s => Ended (Some s) | Raised x s => Raised x (Some s) end) end) = (os, r) ->
   match r with
  | Running _ => os = []
  | Ended _ => exists x, os = [x] /\
      ((silent = true /\ b2_length x = inf /\ no_way) \/
       (exists v g, In v starts /\ In g goals /\ vid g = vid v /\ x = {| b2_length := zero; b2_path := from_vertex labeled v |}) \/
       (exists s, GI s /\ Q s /\ x = b2_found V_dec vid WT DM PM LM labeled build s /\ rgood s))
  | Raised e _ => os = [] /\ ((e = KeyErrorNotFound /\ silent = false /\ no_way) \/ (e = RuntimeErrorLimit /\ lim <> None) \/ (e = OverflowErrorDistance /\ too_far))
  end).
  { intros first. destruct (b2_common I_dec vid starts goals) as [v|] eqn:Hc.
    - intros HR. injection HR as <- <-. destruct (common2_some I_dec vid starts goals v Hc) as (Hv & g & Hg & Hgv). eexists. split; [reflexivity|]. right; left. exists v, g; auto.
    - pose proof (common2_none I_dec vid starts goals Hc) as Hdisj.
      destruct (run _ n _) as [os1 r1] eqn:ER. intros HR. injection HR as <- <-.
      pose proof (rrun_says Hdisj Q first lim n os1 r1 (HQ0 first Hdisj) HQ ER) as H.
      destruct r1 as [s|s|e s]; auto. destruct H as [(H1 & H2 & H3)|(s1 & G & Qs & -> & H1)].
      + eexists. split; [exact H2|]. left. auto.
      + eexists. split; [reflexivity|]. right; right. exists s1. auto. }
  assert (Hfail : starts = [] \/ goals = [] ->
    match b2_failed WT labeled silent with inl r => ([r], Ended None) | inr x => ([], Raised x None) end = (os, r) ->
   match r with
  | Running _ => os = []
  | Ended _ => exists x, os = [x] /\
      ((silent = true /\ b2_length x = inf /\ no_way) \/
       (exists v g, In v starts /\ In g goals /\ vid g = vid v /\ x = {| b2_length := zero; b2_path := from_vertex labeled v |}) \/
       (exists s, GI s /\ Q s /\ x = b2_found V_dec vid WT DM PM LM labeled build s /\ rgood s))
  | Raised e _ => os = [] /\ ((e = KeyErrorNotFound /\ silent = false /\ no_way) \/ (e = RuntimeErrorLimit /\ lim <> None) \/ (e = OverflowErrorDistance /\ too_far))
  end).
  { intros Hn HR. specialize (Hnone Hn). unfold b2_failed in HR. destruct silent eqn:Es; injection HR as <- <-; [|auto]. eexists. split; [reflexivity|]. left. auto. }
  destruct starts as [|first rest]; [apply Hfail; auto|]. destruct goals as [|g rest']; [apply Hfail; auto|]. apply Hmain.
Qed.

Lemma rrun_ends : (exists f l, rbounded f l) -> exists n os r, b2run n = (os, r) /\ forall s, r <> Running s.
Proof using I_dec Hra Hf Hb HnnE HnnB Hmu.
  intros Hbd. destruct Hbd as (f & l & Hbd). unfold b2_run.
  assert (Hfail : exists (n : nat) os r, match @b2_failed V L WT labeled silent with inl r => ([r], Ended None) | inr x => ([], Raised x None) end = (os, r) /\ forall s : option state, r <> Running s).
  { exists 0. unfold b2_failed. destruct silent; eexists _, _; (split; [reflexivity|discriminate]). }
  assert (Hmain : forall first, exists n os r,
    (match b2_common I_dec vid starts goals with
      | Some v => ([{| b2_length := zero; b2_path := from_vertex labeled v |}], Ended None)
      | None => let '(os, r) := run (b2_step V_dec vid WT DM PM LM next_f next_b labeled build silent) n (b2_init vid WT DM PM LM build first starts goals lim) in
          (os, match r with Running s => Running (Some s) | Ended s => Ended (Some s) | Raised x s => Raised x (Some s) end) end) = (os, r) /\ forall s, r <> Running s).
  { intros first. destruct (b2_common I_dec vid starts goals) as [v|] eqn:Hc.
    - exists 0. eexists _, _. split; [reflexivity|discriminate].
    - pose proof (common2_none I_dec vid starts goals Hc) as Hdisj.
      destruct (rends f l first lim Hbd Hdisj) as (n & os & r & HR & Hn).
      exists n. rewrite HR. eexists _, _. split; [reflexivity|]. intros s. destruct r as [s'|s'|x s']; try discriminate. exfalso. apply (Hn s'). reflexivity. }
  destruct starts as [|first rest]; auto. destruct goals as [|g rest']; auto.
Qed.
End Run.

(** ** Paths *)
Section Path.
Context {V I L : Type}.
Variable V_dec : forall a b : V, {a = b} + {a <> b}.
Variable I_dec : forall a b : I, {a = b} + {a <> b}.
Variable vid : V -> I.
Variable WT : Weights.
Hypothesis Hra : rounded_addition WT.
Notation W := (w_t WT).
Notation leb := (w_leb WT).
Notation ltb := (w_ltb WT).
Notation add := (w_add WT).
Notation zero := (w_zero WT).
Notation inf := (w_inf WT).
Variable DM : DMap I W inf.
Variable PM : PMap I V.
Variable LM : PMap I L.
Notation "D @ i" := (dm_get DM i D) (at level 10).
Variable next_f next_b : V -> list (V * W * L).
Variables labeled silent : bool.
Hypothesis Hinj : forall u w, vid u = vid w -> u = w.
Variables E B : I -> W -> I -> Prop.
Hypothesis Hf : presents_weighted WT vid next_f E.
Hypothesis Hb : presents_weighted WT vid next_b B.
Hypothesis HnnE : nonnegative WT E.
Hypothesis HnnB : nonnegative WT B.
Hypothesis Hmu : mutual WT E B.
Variables starts goals : list V.
Notation build := true.
Notation GI := (GI vid WT DM PM LM next_f next_b E B starts goals).
Notation side_of := (side_of WT DM PM LM).
Notation stored := (stored vid WT DM PM LM next_f next_b labeled starts goals).

(** What the returned path object shows *)
Definition rgood_path (x : @b2_result V L WT) : Prop :=
  exists s p g es, In s starts /\ In g goals /\ wwalk WT (fun u w v => E (vid u) w (vid v)) s p g /\ length_from_both_ends WT p (b2_length x) /\
    shows (b2_path x) (S (length p)) (s :: map snd p) es /\ po_labeled (b2_path x) = labeled /\
    (labeled = true -> Forall2 (fun a e => snd a = snd (fst e) /\
       (In (snd a, fst a, snd e) (next_f (fst (fst e))) \/ In (fst (fst e), fst a, snd e) (next_b (snd a)))) p es).

Lemma back_bsum (p : list (V * W * L)) : forall g, fold_right (fun e x => add (fst e) x) zero (back WT g p) = chain_weight WT zero p.
Proof using.
  intros g. rewrite <- (forth_weight WT p). unfold walk_weight. symmetry. apply (fsum_back WT). revert g.
  induction p as [|[[n w] l] p IH]; intros g; [reflexivity|]. cbn [back]. rewrite map_app, rev_app_distr. cbn. f_equal. apply IH.
Qed.

Lemma rfound_path s : faithful vid WT E B goals -> GI s -> (forall f, stored f (side_of f s)) -> b2_best s <> inf -> rgood_path (b2_found V_dec vid WT DM PM LM labeled build s).
Proof using Hra Hf Hb.
  intros Hfaith G HS Hne. destruct (g_best_node _ _ _ _ _ _ _ _ _ _ _ s G) as [?|(H1 & H2 & H3 & H4)]; [contradiction|].
  set (v := b2_node s) in *.
  set (bf := if b2_forwards s then b2_current s else b2_other s). set (bb := if b2_forwards s then b2_other s else b2_current s).
  assert (Hbf : stored true bf) by (pose proof (HS true) as H; unfold BiSPMore.side_of in H; unfold bf; destruct (b2_forwards s); exact H).
  assert (Hbb : stored false bb) by (pose proof (HS false) as H; unfold BiSPMore.side_of in H; unfold bb; destruct (b2_forwards s); exact H).
  assert (Hfin : b2_dist bf @ (vid v) <> inf /\ b2_dist bb @ (vid v) <> inf) by (unfold bf, bb; destruct (b2_forwards s); split; now apply lt_neq).
  assert (Hsum : b2_best s = add (b2_dist bf @ (vid v)) (b2_dist bb @ (vid v))).
  { unfold bf, bb. destruct (b2_forwards s); auto. rewrite (ra_comm WT Hra). exact H4. }
  destruct Hfin as [Hfin1 Hfin2].
  destruct (Hbf v Hfin1) as (a & p & Ha & Hp & Hpw & Hpp & _ & Hpl). destruct (Hbb v Hfin2) as (g & q & Hg & Hq & Hqw & Hqp & _ & Hql).
  simpl in Ha, Hp, Hg, Hq. clear H1 H2 H3 H4.
  destruct (chain_last WT _ _ _ _ Hp) as (la & Hla & Hlal). destruct (chain_last WT _ _ _ _ Hq) as (lb & Hlb & Hlbl).
  rewrite Hla in Hpp. rewrite Hlb in Hqp.
  assert (Hlab1 : labeled = true -> forall u x d, In (u, x, d) (chain_edges a p) -> pm_get LM (vid x) (b2_labels bf) = Some d).
  { intros Hl u x d Hin. destruct (chain_edges_in WT _ _ _ _ _ Hin) as (w & Hw). eapply Hpl; eauto. }
  assert (Hlab2 : labeled = true -> forall u x d, In (u, x, d) (chain_edges g q) -> pm_get LM (vid x) (b2_labels bb) = Some d).
  { intros Hl u x d Hin. destruct (chain_edges_in WT _ _ _ _ _ Hin) as (w & Hw). eapply Hql; eauto. }
  assert (HDf : delivers V_dec vid PM LM (b2_pred bf) (b2_labels bf) labeled (fun u x d => pm_get LM (vid x) (b2_labels bf) = Some d) v (la ++ [v])).
  { rewrite <- (rev_involutive (la ++ [v])). apply ppath_delivers; auto. intros Hl u x Hin. rewrite edges_to_start_pairs, rev_involutive in Hin.
    apply in_rev in Hin. rewrite <- Hla, <- chain_edges_fst in Hin. apply in_map_iff in Hin. destruct Hin as ([[u' x'] d] & Heq & Hin). simpl in Heq. injection Heq as -> ->. exists d. eauto. }
  assert (HDb : delivers V_dec vid PM LM (b2_pred bb) (b2_labels bb) labeled (fun u x d => pm_get LM (vid x) (b2_labels bb) = Some d) v (lb ++ [v])).
  { rewrite <- (rev_involutive (lb ++ [v])). apply ppath_delivers; auto. intros Hl u x Hin. rewrite edges_to_start_pairs, rev_involutive in Hin.
    apply in_rev in Hin. rewrite <- Hlb, <- chain_edges_fst in Hin. apply in_map_iff in Hin. destruct Hin as ([[u' x'] d] & Heq & Hin). simpl in Heq. injection Heq as -> ->. exists d. eauto. }
  destruct (joined_shows V_dec vid PM LM labeled _ _ _ _ _ _ v la lb HDf HDb) as (es & Hsh & Hes).
  pose proof (back_vertices WT _ _ _ _ Hq) as Hbv. rewrite Hlb, rev_app_distr in Hbv. simpl in Hbv. injection Hbv as Hbv.
  exists a, (forth WT p ++ back WT g q), g, es. split; auto. split; auto. split; [|split; [|split; [|split]]].
  - eapply wwalk_app; [exact (forth_walk vid WT _ _ Hf _ _ _ Hp)|exact (back_walk_from vid WT _ _ _ _ Hb Hfaith (vid g) _ _ _ Hq [] (in_map vid _ _ Hg) (wwalk_nil _ _ _))].
  - exists (forth WT p), (back WT g q). split; [reflexivity|]. cbn [b2_found b2_length]. rewrite Hsum, <- Hpw, <- Hqw, <- (back_bsum q g), <- (forth_weight WT p). reflexivity.
  - replace (a :: map snd (forth WT p ++ back WT g q)) with (la ++ v :: rev lb).
    + replace (S (length (forth WT p ++ back WT g q))) with (S (length la + length lb)).
      * unfold b2_found. simpl. fold bf bb. exact Hsh.
      * rewrite app_length, back_length. unfold forth. rewrite map_length. lia.
    + rewrite map_app, Hbv, forth_vertices. change (a :: map (fun e => fst (fst e)) p ++ rev lb) with (chain_vertices a p ++ rev lb). rewrite Hla, <- app_assoc. reflexivity.
  - reflexivity.
  - intros Hl. destruct (Hes Hl) as (es1 & es2 & -> & Hm1 & Hm2 & Hq1 & Hq2).
    assert (es1 = chain_edges a p) as ->.
    { apply (edges_determined (fun x => pm_get LM (vid x) (b2_labels bf))); [|exact Hq1|exact (Hlab1 Hl)]. rewrite Hm1, <- Hla. symmetry. apply chain_edges_fst. }
    assert (es2 = back_edges WT g q) as ->.
    { apply (edges_determined2 (fun x => pm_get LM (vid x) (b2_labels bb))).
      - rewrite Hm2, (back_edges_pairs WT _ _ _ _ Hq), Hbv. reflexivity.
      - intros u x d Hin. exact (Hq2 u x d Hin).
      - intros u x d Hin. destruct (back_edges_in WT _ _ _ _ _ Hin) as (w & Hw). eapply Hql; eauto. }
    apply Forall2_app; [exact (forth_labels WT _ _ _ _ _ Hp)|exact (back_labels WT _ _ _ _ _ Hq)].
Qed.
Variable lim : option Z.
Lemma rrun_path n x r : b2_run V_dec I_dec vid WT DM PM LM next_f next_b labeled true silent starts goals lim n = ([x], r) ->
  b2_length x <> w_inf WT -> rgood_path x.
Proof using I_dec Hra Hf Hb HnnE HnnB Hmu Hinj.
  intros HR Hl.
  apply (rrun_cases V_dec I_dec vid WT Hra DM PM LM next_f next_b labeled true silent E B Hf Hb HnnE HnnB Hmu starts goals lim
           (fun s => forall f, stored f (side_of f s))) in HR.
  - destruct r; [discriminate| |destruct HR; discriminate].
    destruct HR as (y & Heq & [(_ & Hy & _)|[(v & g & Hv & Hg & Hgv & ->)|(s1 & G & Qs & -> & Hgl & _)]]); injection Heq as ->.
    + contradiction.
    + apply Hinj in Hgv. subst g. exists v, [], v, []. split; auto. split; auto. split; [constructor|]. split; [exists [], []; split; [reflexivity|symmetry; apply (ra_zero WT Hra)]|]. split; [|split; [reflexivity|constructor]].
      eapply shows_mono; [|apply from_vertex_shows]. simpl. lia.
    + apply rfound_path; auto. intros g p j w i _ _ HB. now apply Hmu.
  - intros first _. apply (stored_init I_dec); auto.
  - intros s s' G Hmv Hs. eapply (stored_moved V_dec I_dec); eauto.
Qed.
End Path.
