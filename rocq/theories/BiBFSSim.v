(** Bidirectional breadth first search with other gears, and with renamed vertices. *)
From Coq Require Import List ZArith Bool.
From Verif Require Import Machine MachineSim GearSpec Common PathsModel PathModel PathSim BFSModel BFSSim BiBFSModel.
Import ListNotations.

Record bb_same_result {V1 V2 L : Type} (f : V1 -> V2) (r1 : @bb_result V1 L) (r2 : @bb_result V2 L) : Prop := {
  bbs_length : br_length r2 = br_length r1;
  bbs_path : same_path f (br_path r1) (br_path r2)
}.

Section BiBFSSim.
Context {V1 V2 I L : Type}.
Variable V1_dec : forall a b : V1, {a = b} + {a <> b}.
Variable V2_dec : forall a b : V2, {a = b} + {a <> b}.
Variable I_dec : forall a b : I, {a = b} + {a <> b}.
Variable f : V1 -> V2.
Hypothesis Hinj : forall a b, f a = f b -> a = b.
Variable vid1 : V1 -> I.
Variable vid2 : V2 -> I.
Hypothesis Hvid : forall v, vid2 (f v) = vid1 v.
Variables VS1 VS2 : VSet I.
Variable PM1 : PMap I V1.
Variable PM2 : PMap I V2.
Variables LM1 LM2 : PMap I L.
Variables nf1 nb1 : V1 -> list (V1 * L).
Variables nf2 nb2 : V2 -> list (V2 * L).
Hypothesis Hnf : forall v, nf2 (f v) = map (fe f) (nf1 v).
Hypothesis Hnb : forall v, nb2 (f v) = map (fe f) (nb1 v).
Variables labeled build silent : bool.
Notation cfg := (bb_cfg labeled build).
Notation same := (bfs_same_state f VS1 VS2 PM1 PM2 LM1 LM2).
Notation samer := (bfs_same_report f VS1 VS2 PM1 PM2 LM1 LM2).

Record bb_same_state (s1 : bb_state VS1 PM1 LM1) (s2 : bb_state VS2 PM2 LM2) : Prop := {
  bbss_forwards : bb_forwards s2 = bb_forwards s1;
  bbss_current : same (bs_state (bb_current s1)) (bs_state (bb_current s2)) /\ bs_depth (bb_current s2) = bs_depth (bb_current s1);
  bbss_other : same (bs_state (bb_other s1)) (bs_state (bb_other s2)) /\ bs_depth (bb_other s2) = bs_depth (bb_other s1);
  bbss_prev : bb_prev s2 = option_map f (bb_prev s1)
}.

Notation rel := (step_rel bb_same_state (bb_same_result f)).

Lemma found_sim s1 s2 v z : bb_same_state s1 s2 -> bb_same_result f (bb_found V1_dec vid1 VS1 PM1 LM1 labeled build s1 v z) (bb_found V2_dec vid2 VS2 PM2 LM2 labeled build s2 (f v) z).
Proof.
  intros [H1 [H2 H3] [H4 H5] H6]. constructor; unfold bb_found; simpl.
  - now rewrite H5.
  - rewrite H1. destruct build; [|apply of_nothing_sim].
    destruct (bb_forwards s1); apply joined_sim; auto; apply H2 || apply H4.
Qed.

Lemma consume_sim rs1 rs2 : Forall2 samer rs1 rs2 -> forall s1 s2, bb_same_state s1 s2 ->
  rel (bb_consume V1_dec vid1 VS1 PM1 LM1 labeled build s1 rs1) (bb_consume V2_dec vid2 VS2 PM2 LM2 labeled build s2 rs2).
Proof.
  induction 1 as [|r1 r2 rs1 rs2 Hr Hrs IH]; intros s1 s2 HS; cbn [bb_consume].
  - simpl. auto.
  - destruct HS as [H1 [H2 H3] [H4 H5] H6]. rewrite (bsr_vertex _ _ _ _ _ _ _ _ _ Hr), (bsr_depth _ _ _ _ _ _ _ _ _ Hr), H6.
    replace (match option_map f (bb_prev s1) with Some u => if V2_dec u (f (br_vertex r1)) then true else false | None => false end)
      with (match bb_prev s1 with Some u => if V1_dec u (br_vertex r1) then true else false | None => false end).
    2:{ destruct (bb_prev s1) as [u|]; [|reflexivity]. simpl. destruct (V1_dec u (br_vertex r1)) as [->|Hne]; destruct (V2_dec (f _) (f _)) as [He|Hne2]; auto; try congruence; apply Hinj in He; congruence. }
    destruct (match bb_prev s1 with Some u => if V1_dec u (br_vertex r1) then true else false | None => false end).
    + simpl. split; [constructor|]. constructor; simpl; auto. now rewrite H1.
    + rewrite Hvid, <- (bss_visited _ _ _ _ _ _ _ _ _ H4 (vid1 (br_vertex r1))).
      assert (HS1 : bb_same_state (bb_set_current VS1 PM1 LM1 s1 {| bs_state := bs_state (bb_current s1); bs_depth := br_depth r1 |} (Some (br_vertex r1)))
                      (bb_set_current VS2 PM2 LM2 s2 {| bs_state := bs_state (bb_current s2); bs_depth := br_depth r1 |} (Some (f (br_vertex r1))))) by (constructor; simpl; auto).
      destruct (vs_mem VS1 (vid1 (br_vertex r1)) (b_visited (bs_state (bb_other s1)))).
      * simpl. split; auto. constructor; [|constructor]. apply found_sim. exact HS1.
      * apply IH. exact HS1.
Qed.

Lemma bb_step_sim s1 s2 : bb_same_state s1 s2 ->
  rel (bb_step V1_dec vid1 VS1 PM1 LM1 nf1 nb1 labeled build silent s1) (bb_step V2_dec vid2 VS2 PM2 LM2 nf2 nb2 labeled build silent s2).
Proof.
  intros [H1 [H2 H3] [H4 H5] H6].
  pose proof (bfs_step_sim I_dec f vid1 vid2 Hvid VS1 VS2 PM1 PM2 LM1 LM2 (if bb_forwards s1 then nf1 else nb1) (if bb_forwards s1 then nf2 else nb2)) as Hst.
  assert (Hn : forall v, (if bb_forwards s1 then nf2 else nb2) (f v) = map (fe f) ((if bb_forwards s1 then nf1 else nb1) v)) by (destruct (bb_forwards s1); auto).
  specialize (Hst Hn cfg _ _ H2). unfold bb_step. rewrite H1.
  destruct (bfs_step vid1 VS1 PM1 LM1 (if bb_forwards s1 then nf1 else nb1) cfg (bs_state (bb_current s1))) as [o1 b1|o1 b1|o1 x1 b1];
  destruct (bfs_step vid2 VS2 PM2 LM2 (if bb_forwards s1 then nf2 else nb2) cfg (bs_state (bb_current s2))) as [o2 b2|o2 b2|o2 x2 b2]; simpl in Hst; try contradiction.
  - destruct Hst as [Ho Hb]. apply consume_sim; auto. constructor; simpl; auto.
  - destruct Hst as [_ Hb]. unfold bb_fail. destruct silent; simpl.
    + split; [|constructor; simpl; auto]. constructor; [|constructor]. constructor; auto. apply of_nothing_sim.
    + split; [constructor|]. split; auto. constructor; simpl; auto.
  - destruct Hst as (_ & -> & Hb). simpl. split; [constructor|]. split; auto. constructor; simpl; auto.
Qed.

Lemma common_sim starts goals : bb_common I_dec vid2 (map f starts) (map f goals) = option_map f (bb_common I_dec vid1 starts goals).
Proof.
  unfold bb_common. assert (Hg : map vid2 (map f goals) = map vid1 goals) by (rewrite map_map; apply map_ext; auto). rewrite Hg.
  induction starts as [|v l IH]; [reflexivity|]. simpl. rewrite Hvid. destruct (in_dec I_dec (vid1 v) (map vid1 goals)); auto.
Qed.

Lemma bb_sim starts goals lim n :
  let p1 := bb_run V1_dec I_dec vid1 VS1 PM1 LM1 nf1 nb1 labeled build silent starts goals lim n in
  let p2 := bb_run V2_dec I_dec vid2 VS2 PM2 LM2 nf2 nb2 labeled build silent (map f starts) (map f goals) lim n in
  Forall2 (bb_same_result f) (fst p1) (fst p2) /\ outcome_rel bb_same_state (snd p1) (snd p2).
Proof.
  assert (Hside : forall l, same (bfs_init vid1 VS1 PM1 LM1 cfg l None lim) (bfs_init vid2 VS2 PM2 LM2 cfg (map f l) None lim)).
  { intros l. constructor; simpl; auto.
    - replace (map vid2 (map f l)) with (map vid1 l); [exact (same_define_visited VS1 VS2 None None (map vid1 l) false Logic.I)|]. rewrite map_map. apply map_ext. auto.
    - apply same_predecessors; auto.
    - apply same_map_empty. }
  assert (H0 : bb_same_state (bb_init vid1 VS1 PM1 LM1 labeled build starts goals lim) (bb_init vid2 VS2 PM2 LM2 labeled build (map f starts) (map f goals) lim)).
  { constructor; simpl; auto. }
  intros p1 p2. unfold p1, p2, bb_run. rewrite common_sim. destruct (bb_common I_dec vid1 starts goals) as [v|]; simpl.
  - split; auto. constructor; [|constructor]. constructor; auto. apply from_vertex_sim.
  - apply run_sim with (R := bb_same_state); [exact bb_step_sim|exact H0].
Qed.
End BiBFSSim.

Lemma bb_gear {V I L : Type} (V_dec : forall a b : V, {a = b} + {a <> b}) (I_dec : forall a b : I, {a = b} + {a <> b}) (vid : V -> I)
    (VS1 VS2 : VSet I) (PM1 PM2 : PMap I V) (LM1 LM2 : PMap I L) (next_f next_b : V -> list (V * L)) labeled build silent starts goals lim n :
  let p1 := bb_run V_dec I_dec vid VS1 PM1 LM1 next_f next_b labeled build silent starts goals lim n in
  let p2 := bb_run V_dec I_dec vid VS2 PM2 LM2 next_f next_b labeled build silent starts goals lim n in
  Forall2 (bb_same_result (fun v => v)) (fst p1) (fst p2) /\ outcome_rel (bb_same_state (fun v => v) VS1 VS2 PM1 PM2 LM1 LM2) (snd p1) (snd p2).
Proof.
  assert (Hn : forall (next : V -> list (V * L)) v, next v = map (fe (fun v : V => v)) (next v)).
  { intros next v. rewrite <- (map_id (next v)) at 1. apply map_ext. now intros [a b]. }
  pose proof (bb_sim V_dec V_dec I_dec (fun v : V => v) (fun a b H => H) vid vid (fun v => eq_refl) VS1 VS2 PM1 PM2 LM1 LM2
                next_f next_b next_f next_b (Hn next_f) (Hn next_b) labeled build silent starts goals lim n) as H.
  rewrite !map_id in H. exact H.
Qed.

Lemma bb_ids_only {V I L : Type} (V_dec : forall a b : V, {a = b} + {a <> b}) (I_dec : forall a b : I, {a = b} + {a <> b}) (vid : V -> I)
    (VS : VSet I) (PM : PMap I V) (PMI : PMap I I) (LM : PMap I L) (next_f next_b : V -> list (V * L)) (nid_f nid_b : I -> list (I * L)) labeled build silent starts goals lim n :
  (forall a b, vid a = vid b -> a = b) ->
  (forall v, nid_f (vid v) = map (fun e => (vid (fst e), snd e)) (next_f v)) ->
  (forall v, nid_b (vid v) = map (fun e => (vid (fst e), snd e)) (next_b v)) ->
  let p1 := bb_run V_dec I_dec vid VS PM LM next_f next_b labeled build silent starts goals lim n in
  let p2 := bb_run I_dec I_dec (fun i => i) VS PMI LM nid_f nid_b labeled build silent (map vid starts) (map vid goals) lim n in
  Forall2 (bb_same_result vid) (fst p1) (fst p2) /\ outcome_rel (bb_same_state vid VS VS PM PMI LM LM) (snd p1) (snd p2).
Proof.
  intros Hinj H1 H2. exact (bb_sim V_dec I_dec I_dec vid Hinj vid (fun i => i) (fun v => eq_refl) VS VS PM PMI LM LM next_f next_b nid_f nid_b H1 H2 labeled build silent starts goals lim n).
Qed.
