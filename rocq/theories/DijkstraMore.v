(** Proofs about the model of Dijkstra's algorithm: ends of runs, known distances. *)
From Coq Require Import List ZArith Bool Lia Sorted Arith Permutation.
From Verif Require Import Machine MachineMore GearSpec Spec TraversalSpec Common CommonProofs PathsModel PathsSpec PathsProofs
  PathsExact Weight WeightSpec HeapModel HeapProofs DijkstraModel BFSProofs DijkstraProofs DijkstraPaths.
Import ListNotations.
Set Default Proof Using "All".

Section DijkstraMore.
Context {V I L : Type}.
Variable I_dec : forall a b : I, {a = b} + {a <> b}.
Variable vid : V -> I.
Variable WT : Weights.
Notation W := (w_t WT).
Notation leb := (w_leb WT).
Notation ltb := (w_ltb WT).
Notation add := (w_add WT).
Notation zero := (w_zero WT).
Notation inf := (w_inf WT).
Variable DM : DMap I W inf.
Variable PM : PMap I V.
Variable LM : PMap I L.
Variable next : V -> list (V * W * L).
Variable cfg : dij_cfg.
Hypothesis Htree : dc_is_tree cfg = false.
Variable E : I -> W -> I -> Prop.
Hypothesis Hnext : presents_weighted WT vid next E.
Hypothesis Hnn : nonnegative WT E.
Variable starts : list V.
Variable known : option (dm_t DM).
Notation d0 := (d0 vid WT DM cfg starts known).
Hypothesis Hd0 : forall i, is_start vid starts i -> leb zero (d0 i) = true.
Notation imp := (imp vid WT DM cfg E starts known).

Notation state := (@dij_state V I L WT DM PM LM).
Notation report := (@dij_report V I L WT DM PM LM).
Notation step := (dij_step vid WT DM PM LM next cfg).
Notation init lim := (dij_init vid WT DM PM LM cfg starts known lim).
Notation ent := (@entry (V * nat) WT).
Notation start_id := (is_start vid starts).
Notation settled := (settled vid WT).
Notation Inv := (Inv vid WT DM next cfg E starts known).
Notation BigS := (BigS vid WT DM PM LM next cfg E starts known).
Notation Big := (Big vid WT DM PM LM next cfg E starts known).
Notation rx := (rx WT DM PM LM).

(** [key_lemma] also inside of the edge loop, for weights below the current one. *)
Lemma key_below X pc H D : Inv X pc H D -> forall j k d, imp j k d ->
  (forall v w k rest, pc = DEdges WT v w k rest -> ltb d w = true) ->
  (exists w, settled X j w /\ leb w d = true) \/ (exists e, In e H /\ leb (e_key e) d = true).
Proof.
  intros HI j k d Hi. induction Hi as [i Hs|i k d w j Hi IH He Hl]; intros Hpc.
  - destruct (i_start _ _ _ _ _ _ _ _ _ _ _ _ HI i Hs) as (w & [Hw|(e & He & _ & <-)] & Hle); eauto.
  - assert (Hup : leb d (add w d) = true) by (apply w_add_infl; eapply Hnn; eauto).
    destruct IH as [(w' & Hw' & Hle)|(e & Hin & Hle)].
    + intros v w0 k0 rest Heq. eapply w_le_lt_trans; [exact Hup|]. eapply Hpc; eauto.
    + assert (Hm : leb (add w w') (add w d) = true) by (now apply w_add_mono).
      destruct (i_closed _ _ _ _ _ _ _ _ _ _ _ _ HI _ _ _ _ Hw' He) as [(v0 & k0 & r & Hq & _)|[_ Hc]].
      * exfalso. specialize (Hpc _ _ _ _ Hq). apply (w_le_lt_contra WT w' (add w d)); [|exact Hpc].
        eapply w_leb_trans; [|exact Hm]. apply w_add_infl. eapply Hnn; eauto.
      * destruct Hc as [Hc|(w2 & [Hw2|(e & Hin & _ & <-)] & Hle2)].
        -- exfalso. eapply w_le_lt_contra; [|exact Hl]. eapply w_leb_trans; eauto.
        -- left. exists w2. split; auto. eapply w_leb_trans; eauto.
        -- right. exists e. split; auto. eapply w_leb_trans; eauto.
    + right. exists e. split; auto. eapply w_leb_trans; eauto.
Qed.

Notation xw := (xw WT). Notation xv := (xv WT). Notation xk := (xk WT). Notation xpos := (xpos WT).

Lemma calls_length_split (X : list (V * W * nat)) :
  length X = length (filter xpos X) + length (filter (fun x => negb (xpos x)) X).
Proof. induction X as [|x X IH]; simpl; auto. destruct (xpos x); simpl; lia. Qed.

(** ** Ends of runs *)
Section Bounded.
Variable big : W -> bool.
Variable l : list I.
Hypothesis Hl : forall i k d, imp i k d -> big d = false -> In i l.

Definition has_big (X : list (V * W * nat)) : bool := existsb (fun x => big (xw x)) X.

Lemma calls_bound X pc H D : Inv X pc H D -> has_big X = false -> length X <= length l + length starts.
Proof.
  intros HI Hb. rewrite calls_length_split.
  pose proof (i_count _ _ _ _ _ _ _ _ _ _ _ _ HI) as Hc.
  assert (length (filter xpos X) <= length l); [|lia].
  rewrite <- (map_length (fun x => vid (xv x))). apply NoDup_incl_length.
  - exact (i_ndX _ _ _ _ _ _ _ _ _ _ _ _ HI).
  - intros i Hi. apply in_map_iff in Hi. destruct Hi as ([[v w] k] & <- & Hin). apply filter_In in Hin.
    destruct Hin as [Hin _]. eapply Hl; [eapply (i_impX _ _ _ _ _ _ _ _ _ _ _ _ HI); exact Hin|].
    destruct (big w) eqn:Hw; auto. exfalso. unfold has_big in Hb.
    assert (Hex : existsb (fun x => big (xw x)) X = true); [|congruence].
    apply existsb_exists. exists (v, w, k). auto.
Qed.

Definition pcm (pc : @dij_pc V L WT) : nat := match pc with DLoop _ => 0 | DEdges _ _ _ _ rest => S (length rest) end.
Definition m1 (s : state) : nat := length l + length starts - length (d_calls s).
Definition m2 (s : state) : nat := pcm (d_pc s).
Definition m3 (s : state) : nat := length (d_heap s).

Lemma dij_until : exists n os r, run step n (init None) = (os, r) /\
  match r with
  | Running s' => has_big (d_calls s') = true
  | Ended _ => True
  | Raised x _ => x = OverflowErrorDistance
  end.
Proof.
  destruct (run_until step (lex3 m1 m2 m3) (fun s => (exists os, BigS os s) /\ d_limit s = None)
    (fun s => has_big (d_calls s)) (lex3_wf m1 m2 m3)) with (s := init None) as (n & os & r & HR & Hr).
  - intros s o s' [[os HB] Hlim] Hstop Hst.
    assert (HB' : BigS (os ++ o) s').
    { eapply BigS_step; eauto. }
    destruct (has_big (d_calls s')) eqn:Hstop'; auto. right.
    assert (Hbound := calls_bound _ _ _ _ (b_inv _ _ _ _ _ _ _ _ _ _ _ _ _ _ _ _ _ HB') Hstop').
    unfold dij_step in Hst. unfold lex3, m1, m2, m3.
    destruct (d_pc s) as [|v w k [|[[nn ew] lb] rest]] eqn:Hpc.
    + destruct (d_heap s) as [|[[w no] [v k]] h] eqn:Hh; [discriminate|].
      destruct (_ && _).
      * injection Hst as <- <-. simpl in *. split; [split; [exists (os ++ []); exact HB'|auto]|].
        rewrite Hpc. simpl. right. split; auto.
      * cbv zeta in Hst. simpl in Hst. rewrite Hlim in Hst. simpl in Hst. injection Hst as <- <-.
        simpl in *. split; [split; [eexists; exact HB'|auto]|]. left. lia.
    + injection Hst as <- <-. simpl in *. split; [split; [eexists; exact HB'|auto]|].
      right. split; auto.
    + destruct (leb _ _); [discriminate|]. destruct (_ && _); injection Hst as <- <-; simpl in *;
        (split; [split; [eexists; exact HB'|auto]|]); right; split; auto; left; lia.
  - split; [|reflexivity]. exists []. apply BigS_init; auto.
  - exists n, os, r. split; auto. destruct r as [s'|s'|x s']; auto.
    destruct (dij_any I_dec vid WT DM PM LM next cfg Htree E Hnext Hnn starts known None Hd0 n os (Raised x s') HR)
      as (X & pc & _ & [(_ & Hne & _)|(Hx & _)]); congruence.
Qed.
End Bounded.

(** ** Results for all initial distances *)
Section Results.
Variable lim : option Z.
Variables (n : nat) (os : list report) (r : outcome state exn).
Hypothesis HR : run step n (init lim) = (os, r).

Lemma rep_in X (Ho : map rx os = rev (filter xpos X)) rep : In rep os -> In (rx rep) X /\ 0 < dr_depth rep.
Proof.
  intros Hin. assert (H : In (rx rep) (rev (filter xpos X))) by (rewrite <- Ho; now apply in_map).
  apply in_rev, filter_In in H. destruct H as [H1 H2]. split; auto.
  unfold DijkstraProofs.xpos, DijkstraProofs.xk in H2. simpl in H2. now apply Nat.ltb_lt.
Qed.

Lemma in_rep X (Ho : map rx os = rev (filter xpos X)) v w k : In (v, w, S k) X ->
  exists rep, In rep os /\ rx rep = (v, w, S k).
Proof.
  intros Hin. assert (H : In (v, w, S k) (map rx os)).
  { rewrite Ho. apply in_rev. rewrite rev_involutive. apply filter_In. auto. }
  apply in_map_iff in H. destruct H as (rep & H1 & H2). eauto.
Qed.

Lemma dij_sound : NoDup (dij_ids vid os) /\
  StronglySorted (fun a b => leb (dr_distance a) (dr_distance b) = true) os /\
  forall rep, In rep os -> 0 < dr_depth rep /\ imp (vid (dr_vertex rep)) (dr_depth rep) (dr_distance rep) /\
    (forall k d, imp (vid (dr_vertex rep)) k d -> leb (dr_distance rep) d = true).
Proof.
  destruct (dij_any I_dec vid WT DM PM LM next cfg Htree E Hnext Hnn starts known lim Hd0 n os r HR)
    as (X & pc & HB & _). destruct HB as [HI _ Ho _].
  split; [|split].
  - assert (Hd : dij_ids vid os = map (fun x => vid (xv x)) (map rx os)) by (unfold dij_ids; now rewrite map_map).
    rewrite Hd, Ho, map_rev. apply NoDup_rev. exact (i_ndX _ _ _ _ _ _ _ _ _ _ _ _ HI).
  - assert (HS : StronglySorted (fun a b => leb (xw a) (xw b) = true) (map rx os)).
    { rewrite Ho. pose proof (i_sX _ _ _ _ _ _ _ _ _ _ _ _ HI) as HX. clear -HX.
      induction HX as [|x X HX IH HF]; simpl; [constructor|]. destruct (xpos x); auto. simpl.
      apply StronglySorted_snoc; auto. intros y Hy. apply in_rev, filter_In in Hy.
      rewrite Forall_forall in HF. apply HF. tauto. }
    clear -HS. induction os as [|a o IH]; [constructor|]. simpl in HS. inversion HS as [|? ? H1 H2]; subst.
    constructor; auto. rewrite Forall_forall in *. intros y Hy. apply (H2 (rx y)). now apply in_map.
  - intros rep Hin. destruct (rep_in X Ho rep Hin) as [H1 H2]. split; auto. split.
    + apply (i_impX _ _ _ _ _ _ _ _ _ _ _ _ HI _ _ _ H1).
    + intros k d Hi. eapply (i_min _ _ _ _ _ _ _ _ _ _ _ _ HI); [|exact Hi].
      exists (dr_vertex rep), (dr_depth rep). auto.
Qed.

(** What is settled with an improved distance has been reported. *)
Lemma settled_reported X pc H D (HI : Inv X pc H D) (Ho : map rx os = rev (filter xpos X)) i w k d :
  settled X i w -> leb w d = true -> imp i (S k) d -> exists rep, In rep os /\ vid (dr_vertex rep) = i.
Proof.
  intros (v & k' & Hin & <-) Hle Hi. destruct k' as [|k'].
  - assert (H0 := i_impX _ _ _ _ _ _ _ _ _ _ _ _ HI _ _ _ Hin).
    apply (imp_0 vid WT DM cfg E starts known) in H0; auto. destruct H0 as [-> _].
    apply imp_S in Hi. destruct (w_le_lt_contra _ _ _ Hle Hi).
  - destruct (in_rep X Ho _ _ _ Hin) as (rep & Hr & Heq). exists rep. split; auto.
    injection Heq as -> _ _. auto.
Qed.

Lemma dij_complete s : r = Ended s -> forall i k d, imp i (S k) d ->
  exists rep, In rep os /\ vid (dr_vertex rep) = i.
Proof.
  intros Hr i k d Hi.
  destruct (dij_any I_dec vid WT DM PM LM next cfg Htree E Hnext Hnn starts known lim Hd0 n os r HR)
    as (X & pc & HB & He). rewrite Hr in HB, He. simpl in HB, He. destruct He as (HX & Hpc & Hh).
  destruct HB as [HI _ Ho _]. rewrite Hh in HI.
  destruct (key_below _ _ _ _ HI i (S k) d Hi) as [(w & Hw & Hle)|(e & [] & _)].
  - rewrite Hpc. discriminate.
  - eapply settled_reported; eauto.
Qed.
End Results.

(** All vertices with an improved distance up to [T] are eventually reported. *)
Lemma dij_live T l : (forall i k d, imp i k d -> leb d T = true -> In i l) ->
  exists n os r, run step n (init None) = (os, r) /\
    ((exists s, r = Raised OverflowErrorDistance s) \/
     (forall i k d, imp i (S k) d -> leb d T = true -> exists rep, In rep os /\ vid (dr_vertex rep) = i)).
Proof.
  intros Hl. destruct (dij_until (ltb T) l) as (n & os & r & HR & Hr).
  { intros i k d Hi Hb. apply (Hl i k d Hi). now apply w_ltb_ge. }
  exists n, os, r. split; auto.
  destruct r as [s|s|x s].
  - right. intros i k d Hi Hd.
    destruct (dij_any I_dec vid WT DM PM LM next cfg Htree E Hnext Hnn starts known None Hd0 n os _ HR)
      as (X & pc & HB & HX & Hpc). simpl in *. subst X pc.
    destruct HB as [HI _ Ho _]. unfold has_big in Hr. apply existsb_exists in Hr.
    destruct Hr as ([[v0 w0] k0] & Hin0 & Hb0). unfold DijkstraProofs.xw in Hb0. simpl in Hb0.
    destruct (key_below _ _ _ _ HI i (S k) d Hi) as [(w & Hw & Hle)|(e & Hin & Hle)].
    + intros v w k1 rest Hpc. rewrite Hpc in HI.
      eapply w_le_lt_trans; [exact Hd|]. eapply w_lt_le_trans; [exact Hb0|].
      eapply cur_max; [exact HI|]. exists v0, k0. eauto.
    + eapply (settled_reported None n os (Running s) HR); eauto.
    + exfalso. apply (w_le_lt_contra WT w0 T); [|exact Hb0].
      eapply w_leb_trans; [|exact Hd]. eapply w_leb_trans; [|exact Hle].
      apply (i_XH _ _ _ _ _ _ _ _ _ _ _ _ HI (v0, w0, k0) e); auto.
  - right. intros i k d Hi Hd. eapply dij_complete; eauto.
  - left. subst x. eauto.
Qed.

Lemma dij_terminates l : (forall i k d, imp i k d -> In i l) ->
  exists n os s, run step n (init None) = (os, Ended s) \/
                 run step n (init None) = (os, Raised OverflowErrorDistance s).
Proof.
  intros Hl. destruct (dij_until (fun _ => false) l) as (n & os & r & HR & Hr).
  { intros i k d Hi _. eapply Hl; eauto. }
  exists n, os. destruct r as [s|s|x s].
  - exfalso. unfold has_big in Hr. clear -Hr. induction (d_calls s); simpl in *; [discriminate|auto].
  - exists s. auto.
  - exists s. subst x. auto.
Qed.
End DijkstraMore.
