(** Proofs: the distances a traversal stores are between zero and infinity. *)
From Coq Require Import List ZArith Bool Arith Lia.
From Verif Require Import Machine GearSpec Common Weight HeapModel HeapProofs DijkstraModel AStarModel BiSPModel RangeSpec RangeModel.
Import ListNotations.

Lemma max_value_fits : forall c size x, (minimum_size c <= size)%Z -> in_range (CIntWeights c) x -> fits c size x.
Proof.
  intros c size x Hs [H1 H2]. cbn [CIntWeights ZWeights w_leb w_zero w_inf w_t] in *. apply Z.leb_le in H1, H2.
  assert (Hp : forall a b, (0 <= a <= b)%Z -> (2 ^ a <= 2 ^ b)%Z) by (intros; apply Z.pow_le_mono_r; lia).
  unfold fits. unfold max_value_for_integer_array_type_code in H2.
  destruct c; cbn [signed bytes_of_type_code minimum_size] in *;
  match type of H2 with (_ <= 2 ^ ?k - 1)%Z => match goal with |- context [(x < 2 ^ ?e)%Z] => pose proof (Hp k e ltac:(lia)); pose proof (Z.pow_nonneg 2 e ltac:(lia)) end end; lia.
Qed.

Section R.
Context {V I L : Type}.
Variable I_dec : forall a b : I, {a = b} + {a <> b}.
Variable vid : V -> I.
Variable WT : Weights.
Notation W := (w_t WT).
Variable DM : DMap I W (w_inf WT).
Variable PM : PMap I V.
Variable LM : PMap I L.
Notation zero := (w_zero WT).
Notation inf := (w_inf WT).
Notation leb := (w_leb WT).

Definition dm_in_range (m : dm_t DM) : Prop := forall i, in_range WT (dm_get DM i m).

Lemma zero_in : in_range WT zero.
Proof. split; [apply w_leb_refl|]. destruct (w_leb_total WT zero inf) as [H|H]; auto. rewrite w_zero_inf in H. discriminate. Qed.

Lemma inf_in : in_range WT inf.
Proof. split; [apply zero_in|apply w_leb_refl]. Qed.

Lemma empty_in : dm_in_range (dm_empty DM).
Proof. intros i. rewrite dm_get_empty. apply inf_in. Qed.

Lemma set_in : forall m i w, dm_in_range m -> in_range WT w -> dm_in_range (dm_set DM i w m).
Proof using I_dec. intros m i w Hm Hw j. destruct (I_dec j i) as [->|N]; [now rewrite dm_get_set_same|rewrite dm_get_set_other; auto]. Qed.

Lemma below_inf : forall x, leb zero x = true -> leb inf x = false -> in_range WT x.
Proof. intros x H1 H2. split; auto. destruct (w_leb_total WT x inf) as [H|H]; auto. congruence. Qed.

Lemma define_in : forall known l tree, (forall m, known = Some m -> dm_in_range m) -> Forall (fun p => in_range WT (snd p)) l ->
  dm_in_range (define_distances WT DM known l tree).
Proof using I_dec.
  intros known l tree Hk Hl. unfold define_distances. destruct known as [m|].
  - specialize (Hk m eq_refl). destruct tree; auto. revert m Hk. induction Hl as [|[i w] l Hw Hl IH]; intros m Hk; simpl; auto.
    apply IH. unfold dm_setdefault. destruct (w_eqb WT (dm_get DM i m) inf); auto. now apply set_in.
  - clear Hk. generalize empty_in. generalize (dm_empty DM). induction Hl as [|[i w] l Hw Hl IH]; intros m Hk; simpl; auto.
    apply IH. now apply set_in.
Qed.

Lemma zeros_in : forall l : list V, Forall (fun p => in_range WT (snd p)) (map (fun v => (vid v, zero)) l).
Proof. intros l. induction l; simpl; constructor; auto. apply zero_in. Qed.

Lemma add_nonneg : forall w a, leb zero w = true -> leb zero a = true -> leb zero (w_add WT w a) = true.
Proof. intros w a Hw Ha. eapply w_leb_trans; [exact Ha|now apply w_add_infl]. Qed.

Definition edges_nonneg (next : V -> list (V * W * L)) : Prop := forall v n w l, In (n, w, l) (next v) -> leb zero w = true.

(** * Shortest paths *)
Section Dij.
Variable next : V -> list (V * W * L).
Variable cfg : dij_cfg.
Hypothesis Hnn : edges_nonneg next.

Definition dij_heap_nonneg (h : list (@entry (V * nat) WT)) : Prop := forall e, In e h -> leb zero (fst (fst e)) = true.

Definition DijR (pre : list (@dij_report V I L WT DM PM LM)) (s : @dij_state V I L WT DM PM LM) : Prop :=
  (forall rep, In rep pre -> dm_in_range (dr_distances rep)) /\ dm_in_range (d_distances s) /\ dij_heap_nonneg (d_heap s) /\
  match d_pc s with DLoop _ => True | DEdges _ _ w _ rest => leb zero w = true /\ forall n x l, In (n, x, l) rest -> leb zero x = true end.

Lemma DijR_step pre s :
  DijR pre s ->
  match dij_step vid WT DM PM LM next cfg s with
  | Go o s' => DijR (pre ++ o) s'
  | Halt o s' => DijR (pre ++ o) s'
  | Raise o _ s' => (forall rep, In rep (pre ++ o) -> dm_in_range (dr_distances rep)) /\ dm_in_range (d_distances s')
  end.
Proof using I_dec Hnn.
  intros (Hr & Hd & Hh & Hp). unfold dij_step. destruct (d_pc s) as [|v w k rest] eqn:Epc.
  - destruct (d_heap s) as [|[[w no] [v k]] h] eqn:Eh.
    + rewrite app_nil_r. split; [|split; [|split]]; auto; [now rewrite Eh|now rewrite Epc].
    + assert (Hw : leb zero w = true) by (apply (Hh (w, no, (v, k))); left; reflexivity).
      assert (Hh' : dij_heap_nonneg h) by (intros e He; apply Hh; right; exact He).
      destruct (negb (dc_is_tree cfg) && w_ltb WT (dm_get DM (vid v) (d_distances s)) w).
      * rewrite app_nil_r. split; [|split; [|split]]; auto. simpl. now rewrite Epc.
      * assert (Hd' : dm_in_range (d_distances (dij_settle vid WT DM PM LM cfg (d_set_heap WT DM PM LM s h) v w k))).
        { simpl. destruct (dc_is_tree cfg || dc_keep_distances cfg); auto. apply set_in; auto. apply zero_in. }
        assert (Ho : forall rep, In rep (pre ++ (if 0 <? k then [dij_observe WT DM PM LM v (dij_settle vid WT DM PM LM cfg (d_set_heap WT DM PM LM s h) v w k)] else [])) -> dm_in_range (dr_distances rep)).
        { intros rep Hin. apply in_app_or in Hin. destruct Hin as [Hin|Hin]; [now apply Hr|]. destruct (0 <? k); [|destruct Hin].
          destruct Hin as [<-|[]]. exact Hd'. }
        destruct (limit_check _) as [lim|]; [|split; auto].
        split; [exact Ho|split; [exact Hd'|split; [exact Hh'|]]]. simpl. split; auto. intros n x l Hin. eapply Hnn; eauto.
  - destruct Hp as [Hw He]. destruct rest as [|[[n ew] l] rest].
    + rewrite app_nil_r. split; [|split; [|split]]; auto. exact Logic.I.
    + assert (Hn : leb zero (w_add WT ew w) = true) by (apply add_nonneg; auto; apply (He n ew l); left; reflexivity).
      destruct (leb inf (w_add WT ew w)) eqn:Ei; [rewrite app_nil_r; split; auto|].
      destruct (negb (dc_is_tree cfg) && leb (dm_get DM (vid n) (d_distances s)) (w_add WT ew w)); rewrite app_nil_r.
      * split; [|split; [|split]]; auto. simpl. split; auto. intros; eapply He; right; eauto.
      * split; [auto|split; [|split]].
        -- simpl. destruct (dc_is_tree cfg); auto. apply set_in; auto. now apply below_inf.
        -- intros e He'. simpl in He'. apply heappush_in in He'. destruct He' as [->|He']; [exact Hn|now apply Hh].
        -- simpl. split; auto. intros; eapply He; right; eauto.
Qed.

Lemma start_entries_in : forall no dist starts e, In e (start_entries vid WT DM no dist starts) -> exists v, fst (fst e) = dm_get DM (vid v) dist.
Proof. intros no dist starts. revert no. induction starts as [|v r IH]; intros no e; simpl; [tauto|]. intros [<-|H]; [exists v; reflexivity|eauto]. Qed.

Lemma dij_range : forall starts known lim n os r,
  (forall m, known = Some m -> dm_in_range m) ->
  dij_run vid WT DM PM LM next cfg starts known lim n = (os, r) ->
  (forall rep, In rep os -> dm_in_range (dr_distances rep)) /\ dm_in_range (d_distances (outcome_state r)).
Proof using I_dec Hnn.
  intros starts known lim n os r Hk Hrun.
  assert (H0 : DijR [] (dij_init vid WT DM PM LM cfg starts known lim)).
  { split; [intros ? []|]. assert (Hd : dm_in_range (define_distances WT DM known (map (fun v => (vid v, zero)) starts) (dc_is_tree cfg)))
      by (apply define_in; auto; apply zeros_in).
    split; [exact Hd|split; [|exact Logic.I]]. intros e He. simpl in He. apply heapify_in, start_entries_in in He. destruct He as [v ->]. apply Hd. }
  assert (Hs : forall pre s o s', DijR pre s -> dij_step vid WT DM PM LM next cfg s = Go o s' -> DijR (pre ++ o) s').
  { intros pre s o s' HI E. generalize (DijR_step pre s HI). now rewrite E. }
  pose proof (run_inv_any _ DijR Hs n [] _ os r H0 Hrun) as H. destruct r as [s'|s'|x s']; simpl in *.
  - split; apply H.
  - destruct H as (os1 & o & s1 & -> & HI & E). generalize (DijR_step _ _ HI). rewrite E. intros H. split; apply H.
  - destruct H as (os1 & o & s1 & -> & HI & E). generalize (DijR_step _ _ HI). now rewrite E.
Qed.
End Dij.

(** * A* *)
Section Ast.
Variable next : V -> list (V * W * L).
Variable cfg : ast_cfg.
Variable heuristic : V -> W.
Hypothesis Hnn : edges_nonneg next.
Hypothesis Hh : forall v, in_range WT (heuristic v).

Definition AstR (s : @ast_state V I L WT DM PM LM) : Prop :=
  dm_in_range (a_distances s) /\ dm_in_range (a_guesses s) /\
  match a_pc s with ALoop _ => True | AEdges _ _ w _ rest => leb zero w = true /\ forall n x l, In (n, x, l) rest -> leb zero x = true end.

Lemma AstR_step s :
  AstR s ->
  match ast_step vid WT DM PM LM next cfg heuristic s with
  | Go _ s' => AstR s'
  | Halt _ s' => AstR s'
  | Raise _ _ s' => dm_in_range (a_distances s') /\ dm_in_range (a_guesses s')
  end.
Proof using I_dec Hnn Hh.
  intros (Hd & Hg & Hp). unfold ast_step. destruct (a_pc s) as [|v w k rest] eqn:Epc.
  - destruct (a_heap s) as [|[[g no] [v k]] h] eqn:Eh.
    + split; [|split]; auto. now rewrite Epc.
    + destruct (negb (ac_is_tree cfg) && w_ltb WT (dm_get DM (vid v) (a_guesses s)) g).
      * split; [|split]; auto. simpl. now rewrite Epc.
      * destruct (limit_check _) as [lim|]; [|split; auto].
        split; [auto|split; [auto|]]. simpl. split; [apply Hd|]. intros n x l Hin. eapply Hnn; eauto.
  - destruct Hp as [Hw He]. destruct rest as [|[[n ew] l] rest]; [split; [|split]; auto; exact Logic.I|].
    assert (Hn : leb zero (w_add WT ew w) = true) by (apply add_nonneg; auto; apply (He n ew l); left; reflexivity).
    assert (He' : forall n x l, In (n, x, l) rest -> leb zero x = true) by (intros; eapply He; right; eauto).
    destruct (leb inf (w_add WT ew w)) eqn:Ei; [split; auto|].
    destruct (negb (ac_is_tree cfg) && leb (dm_get DM (vid n) (a_distances s)) (w_add WT ew w)); [split; [|split]; simpl; auto|].
    assert (Hd' : dm_in_range (dm_set DM (vid n) (w_add WT ew w) (a_distances s))) by (apply set_in; auto; now apply below_inf).
    destruct (w_eqb WT (heuristic n) inf).
    + split; [exact Hd'|split; [|simpl; auto]]. simpl. destruct (ac_is_tree cfg); auto. apply set_in; auto. apply inf_in.
    + destruct (leb inf (w_add WT (w_add WT ew w) (heuristic n))) eqn:Eg; [split; simpl; auto|].
      split; [exact Hd'|split; [|simpl; auto]]. simpl. destruct (ac_is_tree cfg); auto. apply set_in; auto.
      apply below_inf; auto. apply add_nonneg; auto. apply Hh.
Qed.

Lemma ast_range : forall starts known guesses lim n os r,
  (forall m, known = Some m -> dm_in_range m) -> (forall m, guesses = Some m -> dm_in_range m) ->
  (forall v, In v starts -> in_range WT (w_add WT (dm_get DM (vid v) (define_distances WT DM known (map (fun u => (vid u, zero)) starts) false)) (heuristic v))) ->
  run (ast_step vid WT DM PM LM next cfg heuristic) n (ast_init vid WT DM PM LM cfg heuristic starts known guesses lim) = (os, r) ->
  dm_in_range (a_distances (outcome_state r)) /\ dm_in_range (a_guesses (outcome_state r)).
Proof using I_dec Hnn Hh.
  intros starts known guesses lim n os r Hk Hg Hst Hrun.
  assert (H0 : AstR (ast_init vid WT DM PM LM cfg heuristic starts known guesses lim)).
  { split; [|split; [|exact Logic.I]]; simpl; apply define_in; auto; [apply zeros_in|].
    apply Forall_forall. intros p Hin. apply in_map_iff in Hin. destruct Hin as (v & <- & Hv). now apply Hst. }
  assert (Hs : forall (pre : list (@ast_report V I L WT DM PM LM)) s o s', AstR s -> ast_step vid WT DM PM LM next cfg heuristic s = Go o s' -> AstR s').
  { intros pre s o s' HI E. generalize (AstR_step s HI). now rewrite E. }
  pose proof (run_inv_any _ (fun _ => AstR) Hs n [] _ os r H0 Hrun) as H. destruct r as [s'|s'|x s']; simpl in *.
  - split; apply H.
  - destruct H as (os1 & o & s1 & -> & HI & E). generalize (AstR_step _ HI). rewrite E. intros H. split; apply H.
  - destruct H as (os1 & o & s1 & -> & HI & E). generalize (AstR_step _ HI). now rewrite E.
Qed.
End Ast.

(** * Bidirectional search *)
Section B2.
Variable V_dec : forall a b : V, {a = b} + {a <> b}.
Variables next_f next_b : V -> list (V * W * L).
Variables labeled build_path fail_silently : bool.
Hypothesis Hf : edges_nonneg next_f.
Hypothesis Hb : edges_nonneg next_b.

Definition SideR (b : @b2_side V I L WT DM PM LM) : Prop := dm_in_range (b2_dist b) /\ forall e, In e (b2_heap b) -> leb zero (fst (fst e)) = true.

Definition B2R (s : @b2_state V I L WT DM PM LM) : Prop :=
  SideR (b2_current s) /\ SideR (b2_other s) /\
  match b2_pc_of s with SLoop => True | SEdges _ w rest => leb zero w = true /\ forall n x l, In (n, x, l) rest -> leb zero x = true end.

Definition b2_dists_in (s : @b2_state V I L WT DM PM LM) : Prop := dm_in_range (b2_dist (b2_current s)) /\ dm_in_range (b2_dist (b2_other s)).

Lemma B2R_step s :
  B2R s ->
  match b2_step V_dec vid WT DM PM LM next_f next_b labeled build_path fail_silently s with
  | Go _ s' => B2R s'
  | Halt _ s' => b2_dists_in s'
  | Raise _ _ s' => b2_dists_in s'
  end.
Proof using I_dec Hf Hb.
  intros (Hc & Ho & Hp). unfold b2_step. destruct (b2_pc_of s) as [|v w rest] eqn:Epc.
  - destruct (b2_heap (b2_current s)) as [|[[w no] v] h] eqn:Eh.
    + destruct (b2_failed _ _ _); split; solve [apply Hc|apply Ho].
    + assert (Hw : leb zero w = true) by (apply (proj2 Hc (w, no, v)); rewrite Eh; left; reflexivity).
      assert (Hc' : SideR (b2_popped WT DM PM LM (b2_current s) h)).
      { split; [apply Hc|]. intros e He. apply (proj2 Hc). rewrite Eh. right. exact He. }
      destruct (w_ltb WT _ w); [split; [|split]; simpl; auto|].
      destruct (negb (w_eqb WT inf (b2_best s)) && _); [split; simpl; solve [apply Hc'|apply Ho]|].
      destruct (limit_check _) as [lim|]; [|split; simpl; solve [apply Hc'|apply Ho]].
      split; [exact Hc'|split; [exact Ho|]]. simpl. split; auto. intros n x l Hin. destruct (b2_forwards s); [eapply Hf|eapply Hb]; eauto.
  - destruct Hp as [Hw He]. destruct rest as [|[[n ew] l] rest]; [split; [|split]; simpl; auto|].
    assert (Hn : leb zero (w_add WT ew w) = true) by (apply add_nonneg; auto; apply (He n ew l); left; reflexivity).
    assert (He' : forall n x l, In (n, x, l) rest -> leb zero x = true) by (intros; eapply He; right; eauto).
    destruct (leb inf (w_add WT ew w)) eqn:Ei; [split; solve [apply Hc|apply Ho]|].
    destruct (leb (dm_get DM (vid n) (b2_dist (b2_current s))) (w_add WT ew w)); [split; [|split]; simpl; auto|].
    split; [|split; simpl; auto]. split; simpl.
    + apply set_in; [apply Hc|now apply below_inf].
    + intros e Hin. apply heappush_in in Hin. destruct Hin as [->|Hin]; [exact Hn|now apply Hc].
Qed.

Lemma b2_entries_in' : forall no dist starts e, In e (b2_entries vid WT DM no dist starts) -> exists v, fst (fst e) = dm_get DM (vid v) dist.
Proof. intros no dist starts. revert no. induction starts as [|v r IH]; intros no e; simpl; [tauto|]. intros [<-|H]; [exists v; reflexivity|eauto]. Qed.

Lemma b2_start_R : forall starts lim, SideR (b2_start vid WT DM PM LM build_path starts lim).
Proof using I_dec.
  intros starts lim. assert (Hd : dm_in_range (define_distances WT DM None (map (fun v => (vid v, zero)) starts) false))
    by (apply define_in; [discriminate|apply zeros_in]).
  split; [exact Hd|]. intros e He. simpl in He. apply heapify_in, b2_entries_in' in He. destruct He as [v ->]. apply Hd.
Qed.

Lemma b2_range : forall starts goals lim n os r s,
  b2_run V_dec I_dec vid WT DM PM LM next_f next_b labeled build_path fail_silently starts goals lim n = (os, r) ->
  outcome_state r = Some s -> b2_dists_in s.
Proof using I_dec Hf Hb.
  intros starts goals lim n os r s Hrun Hr. unfold b2_run in Hrun. 
  assert (Hfail : forall x : b2_result WT + exn, match x with inl res => ([res], Ended None) | inr e => ([], Raised e None) end = (os, r) -> False).
  { intros [res|e] [= <- <-]; discriminate Hr. }
  destruct starts as [|first starts]; [exfalso; eauto|]. destruct goals as [|g goals]; [exfalso; eauto|].
  destruct (b2_common I_dec vid (first :: starts) (g :: goals)); [injection Hrun as <- <-; discriminate Hr|].
  destruct (run _ n _) as [os1 r1] eqn:E.
  assert (H0 : B2R (b2_init vid WT DM PM LM build_path first (first :: starts) (g :: goals) lim)).
  { split; [apply b2_start_R|split; [apply b2_start_R|exact Logic.I]]. }
  assert (Hs : forall (pre : list (@b2_result V L WT)) s o s', B2R s -> b2_step V_dec vid WT DM PM LM next_f next_b labeled build_path fail_silently s = Go o s' -> B2R s').
  { intros pre s1 o s' HI Es. generalize (B2R_step s1 HI). now rewrite Es. }
  pose proof (run_inv_any _ (fun _ => B2R) Hs n [] _ os1 r1 H0 E) as H. destruct r1 as [s'|s'|x s']; simpl in *.
  - injection Hrun as <- <-. injection Hr as <-. split; apply H.
  - injection Hrun as <- <-. injection Hr as <-. destruct H as (o1 & o & s1 & -> & HI & Es). generalize (B2R_step _ HI). now rewrite Es.
  - injection Hrun as <- <-. injection Hr as <-. destruct H as (o1 & o & s1 & -> & HI & Es). generalize (B2R_step _ HI). now rewrite Es.
Qed.
End B2.
End R.
