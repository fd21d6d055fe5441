(** Bidirectional search of shortest paths with other gears, and with renamed vertices. *)
From Coq Require Import List ZArith Bool.
From Verif Require Import Machine MachineSim GearSpec Common PathsModel PathModel PathSim BFSSim Weight HeapModel HeapProofs DijkstraModel DijkstraSim BiSPModel.
Import ListNotations.

(** The same length; and the same path if the renaming keeps different vertices apart. *)
Record b2_same_result {V1 V2 L : Type} {WT : Weights} (f : V1 -> V2) (r1 : @b2_result V1 L WT) (r2 : @b2_result V2 L WT) : Prop := {
  b2s_length : b2_length r2 = b2_length r1;
  b2s_path : (forall a b, f a = f b -> a = b) -> same_path f (b2_path r1) (b2_path r2)
}.

Section BiSPSim.
Context {V1 V2 I L : Type}.
Variable V1_dec : forall a b : V1, {a = b} + {a <> b}.
Variable V2_dec : forall a b : V2, {a = b} + {a <> b}.
Variable I_dec : forall a b : I, {a = b} + {a <> b}.
Variable f : V1 -> V2.
Variable vid1 : V1 -> I.
Variable vid2 : V2 -> I.
Hypothesis Hvid : forall v, vid2 (f v) = vid1 v.
Variable WT : Weights.
Notation W := (w_t WT).
Variables DM1 DM2 : DMap I W (w_inf WT).
Variable PM1 : PMap I V1.
Variable PM2 : PMap I V2.
Variables LM1 LM2 : PMap I L.
Variables nf1 nb1 : V1 -> list (V1 * W * L).
Variables nf2 nb2 : V2 -> list (V2 * W * L).
Hypothesis Hnf : forall v, nf2 (f v) = map (fwe f WT) (nf1 v).
Hypothesis Hnb : forall v, nb2 (f v) = map (fwe f WT) (nb1 v).
Variables labeled build silent : bool.
Notation side1 := (@b2_side V1 I L WT DM1 PM1 LM1).
Notation side2 := (@b2_side V2 I L WT DM2 PM2 LM2).
Notation state1 := (@b2_state V1 I L WT DM1 PM1 LM1).
Notation state2 := (@b2_state V2 I L WT DM2 PM2 LM2).
Notation step1 := (b2_step V1_dec vid1 WT DM1 PM1 LM1 nf1 nb1 labeled build silent).
Notation step2 := (b2_step V2_dec vid2 WT DM2 PM2 LM2 nf2 nb2 labeled build silent).

Record b2_same_side (b1 : side1) (b2 : side2) : Prop := {
  b2ss_heap : b2_heap b2 = map (entry_map WT f) (b2_heap b1);
  b2ss_no : b2_no b2 = b2_no b1;
  b2ss_dist : same_dmap DM1 DM2 (b2_dist b1) (b2_dist b2);
  b2ss_pred : same_map f PM1 PM2 (b2_pred b1) (b2_pred b2);
  b2ss_labels : same_map (fun l => l) LM1 LM2 (b2_labels b1) (b2_labels b2);
  b2ss_limit : b2_limit b2 = b2_limit b1;
  b2ss_calls : b2_calls b2 = map (fun x => (f (fst x), snd x)) (b2_calls b1)
}.

Definition b2_pc_map (p : @b2_pc V1 L WT) : @b2_pc V2 L WT := match p with SLoop => SLoop | SEdges v w r => SEdges (f v) w (map (fwe f WT) r) end.

Record b2_same_state (s1 : state1) (s2 : state2) : Prop := {
  b2st_pc : b2_pc_of s2 = b2_pc_map (b2_pc_of s1);
  b2st_forwards : b2_forwards s2 = b2_forwards s1;
  b2st_current : b2_same_side (b2_current s1) (b2_current s2);
  b2st_other : b2_same_side (b2_other s1) (b2_other s2);
  b2st_best : b2_best s2 = b2_best s1;
  b2st_node : b2_node s2 = f (b2_node s1);
  b2st_others : b2_others s2 = b2_others s1
}.

Notation rel := (step_rel b2_same_state (b2_same_result f)).

Lemma b2_found_sim s1 s2 : b2_same_state s1 s2 ->
  b2_same_result f (b2_found V1_dec vid1 WT DM1 PM1 LM1 labeled build s1) (b2_found V2_dec vid2 WT DM2 PM2 LM2 labeled build s2).
Proof.
  intros [H1 H2 H3 H4 H5 H6 H7]. constructor; unfold b2_found; simpl; auto.
  intros Hinj. rewrite H2, H6. destruct build; [|apply of_nothing_sim].
  destruct (b2_forwards s1); apply joined_sim; auto; apply H3 || apply H4.
Qed.

Lemma b2_improved_sim b1 b2 v n nw l : b2_same_side b1 b2 ->
  b2_same_side (b2_improved vid1 WT DM1 PM1 LM1 labeled build b1 v n nw l) (b2_improved vid2 WT DM2 PM2 LM2 labeled build b2 (f v) (f n) nw l).
Proof.
  intros [H1 H2 H3 H4 H5 H6 H7]. constructor; cbn [b2_improved b2_heap b2_no b2_dist b2_pred b2_labels b2_limit b2_calls]; auto.
  - rewrite H1, H2. change (nw, b2_no b1, f n) with (entry_map WT f (nw, b2_no b1, n)). apply heappush_map.
  - congruence.
  - rewrite Hvid. now apply same_dmap_set.
  - rewrite Hvid. destruct build; auto. now apply same_map_set.
  - rewrite Hvid. destruct (build && labeled); auto. now apply (same_map_set I_dec (fun l => l)).
Qed.

Lemma b2_step_sim s1 s2 : b2_same_state s1 s2 -> rel (step1 s1) (step2 s2).
Proof.
  intros HS. destruct HS as [H1 H2 H3 H4 H5 H6 H7]. unfold b2_step. rewrite H1, (b2ss_heap _ _ H3), H2, H5, H7.
  destruct (b2_pc_of s1) as [|v w [|[[n ew] l] rest]] eqn:Hpc; cbn [b2_pc_map map].
  - destruct (b2_heap (b2_current s1)) as [|[[w no] v] h] eqn:Hh; cbn [map].
    + unfold b2_failed. assert (HS : b2_same_state s1 s2) by (constructor; auto; rewrite Hpc; exact H1). destruct silent; simpl.
      * split; auto. constructor; [|constructor]. constructor; auto. intros _. apply of_nothing_sim.
      * auto.
    + unfold entry_map at 1. cbn [fst snd]. cbv zeta. cbn [b2_dist b2_popped b2_limit]. rewrite Hvid, (b2ss_dist _ _ H3 (vid1 v)), (b2ss_limit _ _ H3).
      assert (HP : b2_same_side (b2_popped WT DM1 PM1 LM1 (b2_current s1) h) (b2_popped WT DM2 PM2 LM2 (b2_current s2) (map (entry_map WT f) h))).
      { constructor; cbn [b2_popped b2_heap b2_no b2_dist b2_pred b2_labels b2_limit b2_calls]; auto; apply H3. }
      destruct (w_ltb WT _ w); [simpl; split; auto; constructor; simpl; auto|].
      destruct (_ && _).
      * simpl. split; [constructor; [|constructor]; apply b2_found_sim|]; constructor; simpl; auto.
      * destruct (limit_check (b2_limit (b2_current s1))) as [lim|].
        -- simpl. split; auto. constructor; simpl; auto.
           ++ f_equal. destruct (b2_forwards s1); auto.
           ++ constructor; simpl; try apply HP; auto. f_equal. apply HP.
        -- simpl. split; auto. split; auto. constructor; simpl; auto.
  - simpl. split; auto. constructor; simpl; auto.
  - cbv zeta. cbn [fwe fst snd]. destruct (w_leb WT (w_inf WT) _).
    { simpl. split; auto. split; auto. constructor; auto. rewrite Hpc; exact H1. }
    rewrite Hvid, <- (b2ss_dist _ _ H3 (vid1 n)), <- (b2ss_dist _ _ H4 (vid1 n)).
    destruct (w_leb WT (dm_get DM1 (vid1 n) (b2_dist (b2_current s1))) _); simpl; split; auto; constructor; cbn [b2_pc_of b2_forwards b2_current b2_other b2_best b2_node b2_others]; auto.
    + now apply b2_improved_sim.
    + destruct (w_leb WT (b2_best s1) _); simpl; auto.
Qed.

Lemma b2_entries_sim d1 d2 : same_dmap DM1 DM2 d1 d2 -> forall l no, b2_entries vid2 WT DM2 no d2 (map f l) = map (entry_map WT f) (b2_entries vid1 WT DM1 no d1 l).
Proof. intros Hd. induction l as [|v l IH]; intros no; [reflexivity|]. cbn [map b2_entries]. rewrite IH, Hvid, <- (Hd (vid1 v)). reflexivity. Qed.

Lemma b2_start_sim l lim : b2_same_side (b2_start vid1 WT DM1 PM1 LM1 build l lim) (b2_start vid2 WT DM2 PM2 LM2 build (map f l) lim).
Proof.
  assert (HD : same_dmap DM1 DM2 (define_distances WT DM1 None (map (fun v => (vid1 v, w_zero WT)) l) false) (define_distances WT DM2 None (map (fun v => (vid2 v, w_zero WT)) (map f l)) false)).
  { replace (map (fun v => (vid2 v, w_zero WT)) (map f l)) with (map (fun v => (vid1 v, w_zero WT)) l).
    - apply same_define_distances; auto. exact Logic.I.
    - rewrite map_map. apply map_ext. intros v. now rewrite Hvid. }
  constructor; cbn [b2_start b2_heap b2_no b2_dist b2_pred b2_labels b2_limit b2_calls]; auto.
  - rewrite (b2_entries_sim _ _ HD). apply heapify_map.
  - now rewrite map_length.
  - apply same_predecessors; auto.
  - apply same_map_empty.
Qed.

Lemma b2_common_sim starts goals : b2_common I_dec vid2 (map f starts) (map f goals) = option_map f (b2_common I_dec vid1 starts goals).
Proof.
  unfold b2_common. assert (Hg : map vid2 (map f goals) = map vid1 goals) by (rewrite map_map; apply map_ext; auto). rewrite Hg.
  induction starts as [|v l IH]; [reflexivity|]. cbn [map find]. rewrite Hvid. destruct (in_dec I_dec (vid1 v) (map vid1 goals)); auto.
Qed.

Definition b2_same_option (o1 : option state1) (o2 : option state2) : Prop := same_option b2_same_state o1 o2.

Lemma b2_sim starts goals lim n :
  let p1 := b2_run V1_dec I_dec vid1 WT DM1 PM1 LM1 nf1 nb1 labeled build silent starts goals lim n in
  let p2 := b2_run V2_dec I_dec vid2 WT DM2 PM2 LM2 nf2 nb2 labeled build silent (map f starts) (map f goals) lim n in
  Forall2 (b2_same_result f) (fst p1) (fst p2) /\ outcome_rel b2_same_option (snd p1) (snd p2).
Proof.
  assert (Hfail : forall (x : unit),
    let p1 := match b2_failed WT labeled silent with inl r => ([r], Ended None) | inr x => ([], Raised x None) end : list (@b2_result V1 L WT) * outcome (option state1) exn in
    let p2 := match b2_failed WT labeled silent with inl r => ([r], Ended None) | inr x => ([], Raised x None) end : list (@b2_result V2 L WT) * outcome (option state2) exn in
    Forall2 (b2_same_result f) (fst p1) (fst p2) /\ outcome_rel b2_same_option (snd p1) (snd p2)).
  { intros _. unfold b2_failed. destruct silent; simpl; split; auto.
    constructor; [|constructor]. constructor; auto. intros _. apply of_nothing_sim. }
  intros p1 p2. unfold p1, p2, b2_run. destruct starts as [|first rest]; [exact (Hfail tt)|]. destruct goals as [|g rest']; [exact (Hfail tt)|].
  cbn [map]. change (f first :: map f rest) with (map f (first :: rest)). change (f g :: map f rest') with (map f (g :: rest')). rewrite b2_common_sim.
  destruct (b2_common I_dec vid1 (first :: rest) (g :: rest')) as [v|]; cbn [option_map].
  - split; [|exact Logic.I]. constructor; [|constructor]. constructor; auto. intros _. apply from_vertex_sim.
  - assert (H0 : b2_same_state (b2_init vid1 WT DM1 PM1 LM1 build first (first :: rest) (g :: rest') lim)
                               (b2_init vid2 WT DM2 PM2 LM2 build (f first) (map f (first :: rest)) (map f (g :: rest')) lim)).
    { constructor; try reflexivity; apply b2_start_sim. }
    pose proof (run_sim step1 step2 b2_same_state (b2_same_result f) b2_step_sim n _ _ H0) as HR.
    destruct (run step1 n _) as [o1 r1]. destruct (run step2 n _) as [o2 r2]. destruct HR as [HA HB]. split; [exact HA|].
    destruct r1, r2; simpl in HB |- *; auto.
Qed.
End BiSPSim.

Lemma b2_gear {V I L : Type} (V_dec : forall a b : V, {a = b} + {a <> b}) (I_dec : forall a b : I, {a = b} + {a <> b}) (vid : V -> I) (WT : Weights)
    (DM1 DM2 : DMap I (w_t WT) (w_inf WT)) (PM1 PM2 : PMap I V) (LM1 LM2 : PMap I L) (next_f next_b : V -> list (V * w_t WT * L)) labeled build silent starts goals lim n :
  let p1 := b2_run V_dec I_dec vid WT DM1 PM1 LM1 next_f next_b labeled build silent starts goals lim n in
  let p2 := b2_run V_dec I_dec vid WT DM2 PM2 LM2 next_f next_b labeled build silent starts goals lim n in
  Forall2 (fun r1 r2 => b2_length r2 = b2_length r1 /\ same_path (fun v => v) (b2_path r1) (b2_path r2)) (fst p1) (fst p2) /\
  outcome_rel (b2_same_option (fun v => v) WT DM1 DM2 PM1 PM2 LM1 LM2) (snd p1) (snd p2).
Proof.
  assert (Hn : forall (next : V -> list (V * w_t WT * L)) v, next v = map (fwe (fun v : V => v) WT) (next v)).
  { intros next v. rewrite <- (map_id (next v)) at 1. apply map_ext. now intros [[a b] c]. }
  pose proof (b2_sim V_dec V_dec I_dec (fun v : V => v) vid vid (fun v => eq_refl) WT DM1 DM2 PM1 PM2 LM1 LM2
                next_f next_b next_f next_b (Hn next_f) (Hn next_b) labeled build silent starts goals lim n) as H.
  rewrite !map_id in H. destruct H as [HA HB]. split; [|exact HB].
  revert HA. cbv zeta. generalize (fst (b2_run V_dec I_dec vid WT DM1 PM1 LM1 next_f next_b labeled build silent starts goals lim n)).
  generalize (fst (b2_run V_dec I_dec vid WT DM2 PM2 LM2 next_f next_b labeled build silent starts goals lim n)).
  intros l2 l1. induction 1 as [|r1 r2 l1 l2 Hr _ IH]; constructor; auto. split; [apply Hr|]. apply (b2s_path _ _ _ Hr). auto.
Qed.

Lemma b2_ids_only {V I L : Type} (V_dec : forall a b : V, {a = b} + {a <> b}) (I_dec : forall a b : I, {a = b} + {a <> b}) (vid : V -> I) (WT : Weights)
    (DM : DMap I (w_t WT) (w_inf WT)) (PM : PMap I V) (PMI : PMap I I) (LM : PMap I L) (next_f next_b : V -> list (V * w_t WT * L)) (nid_f nid_b : I -> list (I * w_t WT * L))
    labeled build silent starts goals lim n :
  (forall v, nid_f (vid v) = map (fun e => (vid (fst (fst e)), snd (fst e), snd e)) (next_f v)) ->
  (forall v, nid_b (vid v) = map (fun e => (vid (fst (fst e)), snd (fst e), snd e)) (next_b v)) ->
  let p1 := b2_run V_dec I_dec vid WT DM PM LM next_f next_b labeled build silent starts goals lim n in
  let p2 := b2_run I_dec I_dec (fun i => i) WT DM PMI LM nid_f nid_b labeled build silent (map vid starts) (map vid goals) lim n in
  Forall2 (b2_same_result vid) (fst p1) (fst p2) /\ outcome_rel (b2_same_option vid WT DM DM PM PMI LM LM) (snd p1) (snd p2).
Proof.
  intros H1 H2. exact (b2_sim V_dec I_dec I_dec vid vid (fun i => i) (fun v => eq_refl) WT DM DM PM PMI LM LM next_f next_b nid_f nid_b H1 H2 labeled build silent starts goals lim n).
Qed.
