(** Proofs about the model of the neighbors-then-depth traversal. *)
From Coq Require Import List ZArith Bool Lia Arith.
From Verif Require Import Machine MachineMore GearSpec Spec TraversalSpec Common CommonProofs PathsModel PathsSpec PathsProofs
  BFSProofs Forest NTDModel.
Import ListNotations.

(** Number of vertices not yet left; depths of the vertices still to be entered, topmost first. *)
Fixpoint open_count (m : list bool) : nat :=
  match m with [] => 0 | true :: r => S (open_count r) | false :: r => open_count r end.
Fixpoint entry_depths (m : list bool) : list nat :=
  match m with [] => [] | true :: r => entry_depths r | false :: r => open_count r :: entry_depths r end.

Lemma ntd_leave_spec m : forall d k ks, entry_depths m = k :: ks ->
  exists m', ntd_leave m d = Some (m', (d - Z.of_nat (open_count m) + Z.of_nat k)%Z) /\
             entry_depths m' = ks /\ open_count m' = k.
Proof.
  induction m as [|[] m IH]; simpl; intros d k ks H; [discriminate| |].
  - destruct (IH (d - 1)%Z k ks H) as (m' & H1 & H2 & H3). exists m'. rewrite H1. split; [|auto]. f_equal. f_equal. lia.
  - injection H as <- <-. exists m. split; [|auto]. f_equal. f_equal. lia.
Qed.

Section NTDProofs.
Context {V I L : Type}.
Variable V_dec : forall a b : V, {a = b} + {a <> b}.
Variable I_dec : forall a b : I, {a = b} + {a <> b}.
Variable vid : V -> I.
Variable VS : VSet I.
Variable PM : PMap I V.
Variable LM : PMap I L.
Variable next : V -> list (V * L).
Variable cfg : ntd_cfg.
Hypothesis Htree : nc_is_tree cfg = false.
Variable E : I -> I -> Prop.
Hypothesis Hnext : presents vid next E.
Variable starts : list V.
Variable av : option (vs_t VS).

Notation state := (@ntd_state V I L VS PM LM).
Notation report := (@ntd_report V I L VS PM LM).
Notation step := (ntd_step vid VS PM LM next cfg).
Notation init := (ntd_init vid VS PM LM cfg starts av).
Notation pre_ := (in_already_visited VS av).
Notation Eo := (avoiding E pre_).
Notation St := (is_start vid starts).
Notation found := (found vid starts).
Notation known := (known starts).
Notation forest := (Forest vid VS PM LM next E (nc_build_paths cfg) (nc_labeled cfg) pre_ starts).

Record NInv (F : list (V * nat)) (s : state) : Prop := {
  ni_forest : forest F (n_visited s) (n_pred s) (n_labels s);
  ni_stack : exists ks, Forall2 (known F) (n_to_expand s) ks /\
       (nc_compute_depth cfg = true -> ks = entry_depths (n_markers s));
  ni_depth : nc_compute_depth cfg = true -> n_loop_depth s = (Z.of_nat (open_count (n_markers s)) - 1)%Z;
  ni_cur : forall v rest, n_pc s = NEdges v rest -> exists k, known F v k /\ incl rest (next v) /\
       (nc_compute_depth cfg = true -> open_count (n_markers s) = S k /\ n_depth s = Z.of_nat (S k));
  ni_closed : forall i, found F i ->
       (forall j, Eo i j -> found F j) \/ (exists v, In v (n_to_expand s) /\ vid v = i) \/
       (exists v rest, n_pc s = NEdges v rest /\ vid v = i /\
          forall j, Eo i j -> found F j \/ In j (map (fun e => vid (fst e)) rest));
  ni_dom : nc_build_paths cfg = true -> forall i, pm_get PM i (n_pred s) <> None <-> found F i;
  ni_calls : forall v d, In (v, d) (n_calls s) -> exists k, known F v k /\ (nc_compute_depth cfg = true -> d = Z.of_nat k)
}.

Lemma found_app F G i : found F i -> found (F ++ G) i.
Proof. unfold Forest.found. rewrite map_app, in_app_iff. tauto. Qed.

Lemma Forall2_known_app F G l ks : Forall2 (known F) l ks -> Forall2 (known (F ++ G)) l ks.
Proof. induction 1; constructor; auto. now apply known_app. Qed.

Lemma entry_depths_starts (l : list V) : entry_depths (map (fun _ => false) l) = map (fun _ => 0) l.
Proof.
  induction l as [|a l IH]; simpl; auto. rewrite IH. f_equal. clear. induction l; simpl; auto.
Qed.

Lemma NInv_init lim : NInv [] (init lim).
Proof.
  constructor; simpl.
  - apply Forest_init; auto. intros i. rewrite Htree, define_visited_mem. unfold root, in_already_visited. tauto.
  - exists (map (fun _ => 0) starts). split.
    + assert (H : forall l ks, (forall v, In v l -> In v starts) -> length ks = length l -> (forall k, In k ks -> k = 0) ->
                    Forall2 (known []) l ks).
      { induction l as [|a l IH]; intros [|k ks] H1 H2 H3; simpl in *; try discriminate; constructor.
        - left. split; auto.
        - apply IH; auto. }
      apply H.
      * intros v Hv. now apply in_rev.
      * rewrite map_length, rev_length. auto.
      * intros k Hk. apply in_map_iff in Hk. destruct Hk as (? & <- & _). auto.
    + intros ->. now rewrite entry_depths_starts.
  - intros ->. assert (H : open_count (map (fun _ : V => false) starts) = 0) by (clear; induction starts; simpl; auto).
    rewrite H. reflexivity.
  - discriminate.
  - intros i [Hi|[]]. right; left. unfold root in Hi. apply in_map_iff in Hi. destruct Hi as (v & <- & Hv).
    exists v. rewrite <- in_rev. auto.
  - intros Hb i. rewrite Hb. unfold Forest.found, root. split.
    + intros Hne. left. destruct (In_dec I_dec i (map vid starts)); auto. exfalso. apply Hne. now apply create_predecessors_other.
    + intros [Hs|[]]. unfold create_predecessors.
      destruct (pm_get_of_list_in I_dec PM (map (fun v => (vid v, v)) starts) (pm_empty PM) i) as (a & _ & ->); [|discriminate].
      apply in_map_iff in Hs. destruct Hs as (v & <- & Hv). exists v. apply in_map_iff. eauto.
  - contradiction.
Qed.

Lemma ntd_enter_spec F s v r : NInv F s -> n_to_expand s = v :: r ->
  exists s1 k, ntd_enter VS PM LM cfg s r = Some s1 /\ known F v k /\
    n_to_expand s1 = r /\ n_visited s1 = n_visited s /\ n_pred s1 = n_pred s /\ n_labels s1 = n_labels s /\
    n_limit s1 = n_limit s /\ n_calls s1 = n_calls s /\
    (exists ks, Forall2 (known F) r ks /\ (nc_compute_depth cfg = true -> ks = entry_depths (n_markers s1))) /\
    (nc_compute_depth cfg = true -> n_loop_depth s1 = Z.of_nat k /\ open_count (n_markers s1) = S k /\ n_depth s1 = Z.of_nat (S k)).
Proof.
  intros HI Hex. destruct (ni_stack _ _ HI) as (ks & Hf & Hks). rewrite Hex in Hf. inversion Hf as [|? k ? ks' Hk Hr]; subst.
  unfold ntd_enter. destruct (nc_compute_depth cfg) eqn:Hc.
  - specialize (Hks eq_refl). destruct (ntd_leave_spec (n_markers s) (n_loop_depth s + 1) k ks' (eq_sym Hks)) as (m' & H1 & H2 & H3).
    rewrite H1. eexists _, k. split; [reflexivity|]. simpl. split; [auto|]. do 6 (split; [reflexivity|]).
    split; [exists ks'; auto|]. intros _. rewrite (ni_depth _ _ HI Hc). split; [lia|]. split; [lia|lia].
  - eexists _, k. split; [reflexivity|]. simpl. split; [auto|]. do 6 (split; [reflexivity|]).
    split; [exists ks'; split; auto; discriminate|discriminate].
Qed.

(** What a pass may report. *)
Definition nouts (s' : state) (o : list report) (G : list (V * nat)) : Prop :=
  (o = [] /\ G = []) \/
  (exists v k, G = [(v, k)] /\ exists s1, o = [ntd_observe VS PM LM v s1] /\ n_visited s1 = n_visited s' /\
     n_pred s1 = n_pred s' /\ n_labels s1 = n_labels s' /\ (nc_compute_depth cfg = true -> n_depth s1 = Z.of_nat k)).

Lemma NInv_step F s o s' : NInv F s -> step s = Go o s' -> exists G, NInv (F ++ G) s' /\ nouts s' o G.
Proof.
  intros HI Hst. unfold ntd_step in Hst. destruct (n_pc s) as [|v [|[n l] rest]] eqn:Hpc.
  - destruct (n_to_expand s) as [|v r] eqn:Hex; [discriminate|].
    destruct (ntd_enter_spec F s v r HI Hex) as (s1 & k & He & Hk & E1 & E2 & E3 & E4 & E5 & E6 & E7 & E8).
    rewrite He in Hst. destruct (limit_check (n_limit s1)) as [lm|]; [|discriminate]. injection Hst as <- <-.
    exists []. rewrite app_nil_r. split; [|left; auto]. destruct HI as [H1 H2 H3 H4 H5 H6 H7].
    constructor; simpl; rewrite ?E1, ?E2, ?E3, ?E4; auto.
    + intros Hc. destruct (E8 Hc) as (-> & -> & _). lia.
    + intros v0 rest Heq. injection Heq as <- <-. exists k. split; [auto|]. split; [apply incl_refl|]. intros Hc.
      destruct (E8 Hc) as (_ & K1 & K2). auto.
    + intros i Hi. destruct (H5 i Hi) as [?|[(w & Hw & Hwi)|(w & rest & Heq & _)]]; auto.
      * rewrite Hex in Hw. destruct Hw as [<-|Hw]; [|right; left; eauto].
        right; right. exists v, (next v). split; [reflexivity|]. split; [auto|]. intros j [Hj _]. right.
        rewrite <- Hwi in Hj. now apply Hnext.
      * congruence.
    + rewrite E6. intros w d [Heq|Hin]; [|auto]. injection Heq as <- <-. exists k. split; auto. intros Hc. now apply E8.
  - injection Hst as <- <-. exists []. rewrite app_nil_r. split; [|left; auto]. destruct HI as [H1 H2 H3 H4 H5 H6 H7].
    constructor; simpl; auto; try discriminate.
    intros i Hi. destruct (H5 i Hi) as [?|[?|(w & rest & Heq & Hwi & Hj)]]; auto. rewrite Hpc in Heq. injection Heq as <- <-.
    left. intros j Hej. destruct (Hj j Hej) as [?|[]]; auto.
  - rewrite Htree in Hst. simpl in Hst. destruct HI as [H1 H2 H3 H4 H5 H6 H7].
    destruct (H4 v _ Hpc) as (k & Hk & Hinc & Hd).
    destruct (vs_mem VS (vid n) (n_visited s)) eqn:Hm.
    + injection Hst as <- <-. exists []. rewrite app_nil_r. split; [|left; auto].
      constructor; simpl; auto.
      * intros w rest0 Heq. injection Heq as <- <-. exists k. split; [auto|]. split; [|auto]. intros e He. apply Hinc. now right.
      * intros i Hi. destruct (H5 i Hi) as [?|[?|(w & rest0 & Heq & Hwi & Hj)]]; auto.
        rewrite Hpc in Heq. injection Heq as <- <-. right; right. exists v, rest. split; [reflexivity|]. split; [auto|].
        intros j Hej. destruct (Hj j Hej) as [?|[Hjn|?]]; auto. simpl in Hjn. subst j. left.
        apply (f_vis _ _ _ _ _ _ _ _ _ _ _ _ _ _ H1) in Hm. destruct Hm as [Hm|Hm]; auto. destruct Hej; contradiction.
    + injection Hst as <- <-. exists [(n, S k)]. split.
      2:{ right. exists n, (S k). split; [reflexivity|]. eexists. split; [reflexivity|]. simpl. rewrite Htree.
          do 3 (split; [reflexivity|]). intros Hc. apply Hd. auto. }
      assert (Hnf : ~ found F (vid n)).
      { intros Hf. assert (vs_mem VS (vid n) (n_visited s) = true) by (apply (f_vis _ _ _ _ _ _ _ _ _ _ _ _ _ _ H1); auto). congruence. }
      assert (HF : forest (F ++ [(n, S k)]) (vs_add VS (vid n) (n_visited s))
                 (if nc_build_paths cfg then pm_set PM (vid n) v (n_pred s) else n_pred s)
                 (if nc_build_paths cfg && nc_labeled cfg then pm_set LM (vid n) l (n_labels s) else n_labels s)).
      { apply Forest_add with (v := v) (l := l); auto.
        - apply Forest_ext with (n_pred s) (n_labels s); auto. intros i Hi. assert (i <> vid n) by congruence.
          destruct (nc_build_paths cfg), (nc_labeled cfg); simpl; rewrite ?pm_get_set_other by auto; auto.
        - apply Hinc. now left.
        - intros ->. apply pm_get_set_same.
        - intros -> ->. simpl. apply pm_get_set_same. }
      constructor; simpl; rewrite ?Htree; auto.
      * destruct H2 as (ks & Hf & Hks). exists (S k :: ks). split.
        -- constructor; [right; apply in_or_app; right; now left|]. now apply Forall2_known_app.
        -- intros Hc. rewrite Hc. simpl. destruct (Hd Hc) as [-> _]. now rewrite <- (Hks Hc).
      * intros Hc. rewrite Hc. simpl. auto.
      * intros w rest0 Heq. injection Heq as <- <-. exists k. split; [now apply known_app|]. split.
        -- intros e He. apply Hinc. now right.
        -- intros Hc. rewrite Hc. simpl. auto.
      * intros i Hi. unfold Forest.found in Hi. rewrite map_app, in_app_iff in Hi. simpl in Hi.
        change (fid vid (n, S k)) with (vid n) in Hi.
        assert (Hor : found F i \/ vid n = i) by (unfold Forest.found; tauto). clear Hi. destruct Hor as [Hi|<-].
        -- destruct (H5 i Hi) as [Hc|[(w & Hw & Hwi)|(w & rest0 & Heq & Hwi & Hj)]].
           ++ left. intros j Hj. now apply found_app, Hc.
           ++ right; left. exists w. auto.
           ++ rewrite Hpc in Heq. injection Heq as <- <-. right; right. exists v, rest. split; [reflexivity|]. split; [auto|].
              intros j Hej. destruct (Hj j Hej) as [?|[Hjn|?]]; auto; [left; now apply found_app|]. left. simpl in Hjn. subst j.
              right. rewrite map_app, in_app_iff. right. now left.
        -- right; left. exists n. auto.
      * intros Hb i. rewrite Hb. unfold Forest.found. rewrite map_app, in_app_iff. simpl. change (fid vid (n, S k)) with (vid n).
        destruct (I_dec i (vid n)) as [->|Hne].
        { rewrite pm_get_set_same. split; [tauto|discriminate]. }
        rewrite pm_get_set_other by auto. rewrite (H6 Hb i). unfold Forest.found. intuition congruence.
      * intros w d Hin. destruct (H7 w d Hin) as (m & Hm' & Hd'). exists m. split; auto. now apply known_app.
Qed.

Lemma ntd_frozen F s o s' : NInv F s -> step s = Go o s' -> forall i, found F i ->
  pm_get PM i (n_pred s') = pm_get PM i (n_pred s) /\ pm_get LM i (n_labels s') = pm_get LM i (n_labels s).
Proof.
  intros HI Hst i Hi. unfold ntd_step in Hst. destruct (n_pc s) as [|v [|[n l] rest]] eqn:Hpc.
  - destruct (n_to_expand s) as [|v r] eqn:Hex; [discriminate|].
    destruct (ntd_enter_spec F s v r HI Hex) as (s1 & k & He & Hk & E1 & E2 & E3 & E4 & _).
    rewrite He in Hst. destruct (limit_check (n_limit s1)) as [lm|]; [|discriminate]. injection Hst as <- <-. simpl.
    now rewrite E3, E4.
  - injection Hst as <- <-. auto.
  - rewrite Htree in Hst. simpl in Hst. destruct (vs_mem VS (vid n) (n_visited s)) eqn:Hm; injection Hst as <- <-; auto.
    simpl. assert (i <> vid n).
    { intros ->. assert (vs_mem VS (vid n) (n_visited s) = true) by (apply (f_vis _ _ _ _ _ _ _ _ _ _ _ _ _ _ (ni_forest _ _ HI)); auto).
      congruence. }
    destruct (nc_build_paths cfg), (nc_labeled cfg); simpl; rewrite ?pm_get_set_other by auto; auto.
Qed.

(** The reports so far and the found vertices. *)
Definition NRep (os : list report) (F : list (V * nat)) (s : state) : Prop :=
  map nr_vertex os = map fst F /\
  forall o1 rep o2, os = o1 ++ rep :: o2 -> exists F1 k F2,
    F = F1 ++ (nr_vertex rep, k) :: F2 /\ map nr_vertex o1 = map fst F1 /\
    (nc_compute_depth cfg = true -> nr_depth rep = Z.of_nat k) /\
    forest (F1 ++ [(nr_vertex rep, k)]) (nr_visited rep) (nr_pred rep) (nr_labels rep) /\
    (forall i, found (F1 ++ [(nr_vertex rep, k)]) i ->
       pm_get PM i (n_pred s) = pm_get PM i (nr_pred rep) /\ pm_get LM i (n_labels s) = pm_get LM i (nr_labels rep)).
Definition NInv2 (os : list report) (s : state) : Prop := exists F, NInv F s /\ NRep os F s.

Lemma NInv2_step os s o s' : NInv2 os s -> step s = Go o s' -> NInv2 (os ++ o) s'.
Proof.
  intros (F & HI & Hm & HR) Hst. destruct (NInv_step F s o s' HI Hst) as (G & HI' & Ho).
  assert (Hfr := ntd_frozen F s o s' HI Hst). exists (F ++ G). split; [auto|].
  destruct Ho as [[-> ->]|(v & k & -> & s1 & -> & V1 & V2 & V3 & V4)].
  - rewrite !app_nil_r in *. split; [auto|]. intros o1 rep o2 Heq.
    destruct (HR o1 rep o2 Heq) as (F1 & k & F2 & K1 & K2 & K3 & K4 & K5). exists F1, k, F2.
    do 4 (split; [auto|]). intros i Hi. destruct (Hfr i) as [-> ->]; [|auto]. rewrite K1.
    unfold Forest.found in *. rewrite map_app, in_app_iff in *. simpl in *. tauto.
  - split; [rewrite !map_app, Hm; reflexivity|]. intros o1 rep o2 Heq. apply snoc_split in Heq.
    destruct Heq as [(-> & -> & ->)|(o2' & -> & Heq)].
    + exists F, k, []. simpl. rewrite V1, V2, V3. split; [reflexivity|]. split; [auto|]. split; [auto|]. split; [apply HI'|auto].
    + destruct (HR o1 rep o2' Heq) as (F1 & k1 & F2 & K1 & K2 & K3 & K4 & K5). exists F1, k1, (F2 ++ [(v, k)]).
      split; [rewrite K1, <- app_assoc; reflexivity|]. do 3 (split; [auto|]).
      intros i Hi. destruct (Hfr i) as [-> ->]; [|auto]. rewrite K1.
      unfold Forest.found in *. rewrite map_app, in_app_iff in *. simpl in *. tauto.
Qed.

Lemma NInv2_init lim : NInv2 [] (init lim).
Proof. exists []. split; [apply NInv_init|]. split; [reflexivity|]. intros [|? ?] rep o2; discriminate. Qed.

Lemma ntd_any lim n os r : run step n (init lim) = (os, r) -> exists s, NInv2 os s /\
  match r with
  | Running s' => s' = s
  | Ended s' => s' = s /\ n_pc s = NWhile /\ n_to_expand s = []
  | Raised x s' => x = RuntimeErrorLimit /\ n_visited s' = n_visited s /\ n_pred s' = n_pred s /\ n_labels s' = n_labels s /\
      n_calls s' = n_calls s
  end.
Proof.
  intros HR. pose proof (run_inv_any step NInv2 NInv2_step n [] _ os r (NInv2_init lim) HR) as H.
  destruct r as [s'|s'|x s']; simpl in H.
  - exists s'. auto.
  - destruct H as (os1 & o & s1 & -> & HI & Hh). exists s1. unfold ntd_step in Hh. destruct (n_pc s1) as [|v [|[w l] rest]] eqn:Hpc.
    + destruct (n_to_expand s1) eqn:Hex.
      * injection Hh as <- <-. rewrite app_nil_r. auto.
      * destruct (ntd_enter _ _ _ _ _ _); [|discriminate]. destruct (limit_check _); discriminate.
    + discriminate.
    + destruct (_ && _); discriminate.
  - destruct H as (os1 & o & s1 & -> & HI & Hh). exists s1. unfold ntd_step in Hh. destruct (n_pc s1) as [|v [|[w l] rest]] eqn:Hpc.
    + destruct (n_to_expand s1) as [|v q] eqn:Hex; [discriminate|].
      destruct HI as (F & HI & HRp). destruct (ntd_enter_spec F s1 v q HI Hex) as (s2 & k & He & Hk & E1 & E2 & E3 & E4 & E5 & E6 & _).
      rewrite He in Hh. destruct (limit_check (n_limit s2)); [discriminate|]. injection Hh as <- <- <-.
      rewrite app_nil_r. split; [exists F; auto|]. auto.
    + discriminate.
    + destruct (_ && _); discriminate.
Qed.

Lemma rep_ids os F s : NRep os F s -> ntd_ids vid os = map (fid vid) F.
Proof.
  intros [H _]. unfold ntd_ids. rewrite <- (map_map nr_vertex vid), H, map_map. reflexivity.
Qed.

Lemma closed_end F s : NInv F s -> n_pc s = NWhile -> n_to_expand s = [] ->
  forall i, reachable Eo St i -> found F i.
Proof.
  intros HI Hpc Hex. apply (Forest_closed vid E pre_ starts F). intros i j Hi He.
  destruct (ni_closed _ _ HI i Hi) as [H|[(v & Hv & _)|(v & rest & Hp & _)]]; auto.
  - rewrite Hex in Hv. contradiction.
  - congruence.
Qed.

Lemma ntd_av_reported lim n os r : ntd_run vid VS PM LM next cfg starts av lim n = (os, r) ->
  NoDup (ntd_ids vid os) /\
  (forall rep, In rep os ->
     ~ St (vid (nr_vertex rep)) /\ ~ in_already_visited VS av (vid (nr_vertex rep)) /\
     reachable Eo St (vid (nr_vertex rep))) /\
  (forall v d, In (v, d) (n_calls (outcome_state r)) -> In v starts \/ In v (map nr_vertex os)) /\
  (forall o1 rep o2, os = o1 ++ rep :: o2 -> forall i, vs_mem VS i (nr_visited rep) = true <->
     in_already_visited VS av i \/ St i \/ In i (ntd_ids vid (o1 ++ [rep]))) /\
  (forall x s', r = Raised x s' -> x = RuntimeErrorLimit) /\
  (forall s', r = Ended s' ->
     (forall i, reachable Eo St i -> St i \/ In i (ntd_ids vid os)) /\
     (forall i, vs_mem VS i (n_visited s') = true <-> in_already_visited VS av i \/ St i \/ In i (ntd_ids vid os))).
Proof.
  intros HR. destruct (ntd_any lim n os r HR) as (s & (F & HI & HRep) & Hr).
  assert (HF := ni_forest _ _ HI). assert (Hids := rep_ids os F s HRep).
  split; [rewrite Hids; apply (f_nodup _ _ _ _ _ _ _ _ _ _ _ _ _ _ HF)|].
  assert (Hsame : n_calls (outcome_state r) = n_calls s).
  { destruct r; simpl; [now subst|now destruct Hr as [-> _]|]. now destruct Hr as (_ & _ & _ & _ & ->). }
  split; [|split; [|split; [|split]]].
  - intros rep Hin. destruct (in_split _ _ Hin) as (o1 & o2 & Heq). destruct HRep as [Hm HRp].
    destruct (HRp _ _ _ Heq) as (F1 & k & F2 & K1 & _).
    assert (Hin2 : In (nr_vertex rep, k) F) by (rewrite K1, in_app_iff; right; now left).
    destruct (f_F _ _ _ _ _ _ _ _ _ _ _ _ _ _ HF _ _ Hin2) as (G1 & G2 & G3 & s0 & p & G4 & G5 & _).
    split; [auto|]. split; [auto|]. exists s0, p. auto.
  - rewrite Hsame. intros v d Hin. destruct (ni_calls _ _ HI v d Hin) as (k & [[Hk _]|Hk] & _); auto. right.
    destruct HRep as [-> _]. apply in_map_iff. exists (v, k). auto.
  - intros o1 rep o2 Heq i. destruct HRep as [Hm HRp]. destruct (HRp _ _ _ Heq) as (F1 & k & F2 & K1 & K2 & K3 & K4 & _).
    rewrite (f_vis _ _ _ _ _ _ _ _ _ _ _ _ _ _ K4). unfold Forest.found, root.
    assert (Hx : ntd_ids vid (o1 ++ [rep]) = map (fid vid) (F1 ++ [(nr_vertex rep, k)])).
    { unfold ntd_ids. rewrite !map_app. rewrite <- (map_map nr_vertex vid), K2, map_map. reflexivity. }
    rewrite Hx. reflexivity.
  - intros x s' ->. apply Hr.
  - intros s' ->. destruct Hr as (-> & Hpc & Hex). split.
    + intros i Hi. destruct (closed_end F s HI Hpc Hex i Hi) as [H|H]; [now left|right]. now rewrite Hids.
    + intros i. rewrite (f_vis _ _ _ _ _ _ _ _ _ _ _ _ _ _ HF), Hids. reflexivity.
Qed.

(** Paths and depths. *)
Lemma ntd_av_paths lim n os r : ntd_run vid VS PM LM next cfg starts av lim n = (os, r) ->
  (forall rep, In rep os -> exists k,
     (nc_compute_depth cfg = true -> nr_depth rep = Z.of_nat k) /\
     (exists s0 p, St s0 /\ walk Eo s0 p (vid (nr_vertex rep)) /\ length p = k) /\
     (nc_build_paths cfg = true -> starts_distinct vid starts ->
      exists l, path_list (edge_open vid next pre_) (fun u => In u starts) l (nr_vertex rep) /\
        length l = S k /\
        delivers V_dec vid PM LM (nr_pred rep) (nr_labels rep) (nc_labeled cfg) (next_label next) (nr_vertex rep) l /\
        delivers V_dec vid PM LM (n_pred (outcome_state r)) (n_labels (outcome_state r)) (nc_labeled cfg)
          (next_label next) (nr_vertex rep) l)) /\
  (nc_build_paths cfg = true -> starts_distinct vid starts -> forall v, In v starts ->
     delivers V_dec vid PM LM (n_pred (outcome_state r)) (n_labels (outcome_state r)) (nc_labeled cfg) (next_label next) v [v]) /\
  (nc_build_paths cfg = true -> forall v, paths_contains vid PM (n_pred (outcome_state r)) v = true <->
     St (vid v) \/ In (vid v) (ntd_ids vid os)) /\
  (nc_compute_depth cfg = true -> forall v d, In (v, d) (n_calls (outcome_state r)) ->
     (In v starts /\ d = 0%Z) \/ exists rep, In rep os /\ nr_vertex rep = v /\ nr_depth rep = d).
Proof.
  intros HR. destruct (ntd_any lim n os r HR) as (s & (F & HI & HRep) & Hr).
  assert (HF := ni_forest _ _ HI). assert (Hids := rep_ids os F s HRep).
  assert (Hsame : n_pred (outcome_state r) = n_pred s /\ n_labels (outcome_state r) = n_labels s /\ n_calls (outcome_state r) = n_calls s).
  { destruct r; simpl; [now subst|now destruct Hr as [-> _]|]. destruct Hr as (_ & _ & -> & -> & ->). auto. }
  destruct Hsame as (-> & -> & ->). destruct HRep as [Hm HRp]. split; [|split; [|split]].
  - intros rep Hin. destruct (in_split _ _ Hin) as (o1 & o2 & Heq).
    destruct (HRp _ _ _ Heq) as (F1 & k & F2 & K1 & K2 & K3 & K4 & K5). exists k. split; [auto|].
    assert (Hk : known (F1 ++ [(nr_vertex rep, k)]) (nr_vertex rep) k) by (right; apply in_or_app; right; now left).
    split; [exact (known_walk _ _ _ _ _ _ _ _ _ _ _ _ _ _ _ _ K4 Hk)|].
    intros Hb Hd.
    destruct (Forest_delivers_both _ _ _ _ _ _ _ _ _ V_dec _ _ _ _ _ _ _ _ _ K4 K5 Hb Hd Hk) as (l & A1 & A2 & A3 & A4 & A5).
    exists l. auto.
  - intros Hb Hd v Hv. assert (Hk : known F v 0) by (left; auto).
    destruct (Forest_delivers _ _ _ _ _ _ _ _ _ V_dec _ _ _ _ _ _ _ HF Hb Hd Hk) as (l & A1 & A2 & A3 & A4).
    destruct l as [|a [|b l]]; try discriminate. destruct A1 as (s0 & p & Heq & Hs0 & Hw). injection Heq as -> <-. inversion Hw; subst. auto.
  - intros Hb v. unfold paths_contains. rewrite Hids. rewrite <- (ni_dom _ _ HI Hb (vid v)).
    destruct (pm_get PM (vid v) (n_pred s)); split; congruence.
  - intros Hc v d Hin. destruct (ni_calls _ _ HI v d Hin) as (k & [[Hk ->]|Hk] & Hd).
    + left. split; [auto|]. exact (Hd Hc).
    + right. assert (Hv : In v (map nr_vertex os)) by (rewrite Hm; apply in_map_iff; exists (v, k); auto).
      apply in_map_iff in Hv. destruct Hv as (rep & Hv & Hrep). exists rep. split; auto. split; auto.
      destruct (in_split _ _ Hrep) as (o1 & o2 & Heq). destruct (HRp _ _ _ Heq) as (F1 & m & F2 & K1 & K2 & K3 & _).
      rewrite (K3 Hc), (Hd Hc). f_equal.
      assert (Hin2 : In (nr_vertex rep, m) F) by (rewrite K1, in_app_iff; right; now left). subst v.
      set (x := nr_vertex rep) in *. clearbody x. assert (Hnd := f_nodup _ _ _ _ _ _ _ _ _ _ _ _ _ _ HF). clear -Hnd Hk Hin2.
      induction F as [|[w q] F IH]; [contradiction|]. simpl in Hnd. inversion Hnd as [|? ? Hni Hnd']; subst.
      destruct Hk as [Hk|Hk], Hin2 as [Hi|Hi]; auto.
      * congruence.
      * exfalso. apply Hni. injection Hk as -> ->. apply in_map_iff. exists (x, m). auto.
      * exfalso. apply Hni. injection Hi as -> ->. apply in_map_iff. exists (x, k). auto.
Qed.

(** ** Termination *)
Section Termination.
Variable ids : list I.
Hypothesis Hids : forall i, reachable Eo St i -> In i ids.

Definition unseen (s : state) : nat := length (filter (fun i => negb (vs_mem VS i (n_visited s))) ids).
Definition pending (s : state) : nat := match n_pc s with NWhile => 0 | NEdges _ rest => S (length rest) end.

Lemma filter_less (f g : I -> bool) j : forall l, (forall i, f i = true -> g i = true) -> In j l -> f j = false -> g j = true ->
  length (filter f l) < length (filter g l).
Proof.
  intros l Hfg. assert (Hle : forall l, length (filter f l) <= length (filter g l)).
  { induction l0 as [|a l0 IH]; simpl; auto. destruct (f a) eqn:Hf.
    - rewrite (Hfg a Hf). simpl. lia.
    - destruct (g a); simpl; lia. }
  induction l as [|a l IH]; simpl; intros Hin Hf Hg; [contradiction|]. destruct Hin as [->|Hin].
  - rewrite Hf, Hg. simpl. specialize (Hle l). lia.
  - specialize (IH Hin Hf Hg). destruct (f a) eqn:Hfa; [rewrite (Hfg a Hfa); simpl; lia|]. destruct (g a); simpl; lia.
Qed.

Lemma limit_none s o s' : n_limit s = None -> step s = Go o s' -> n_limit s' = None.
Proof.
  intros Hl Hst. unfold ntd_step in Hst. destruct (n_pc s) as [|v [|[n l] rest]].
  - destruct (n_to_expand s) as [|v r]; [discriminate|]. unfold ntd_enter in Hst.
    destruct (nc_compute_depth cfg).
    + destruct (ntd_leave _ _) as [[m d]|]; [|discriminate]. simpl in Hst. rewrite Hl in Hst. injection Hst as <- <-. auto.
    + simpl in Hst. rewrite Hl in Hst. injection Hst as <- <-. auto.
  - injection Hst as <- <-. auto.
  - destruct (_ && _); injection Hst as <- <-; auto.
Qed.

Lemma ntd_av_terminates : exists n os s, ntd_run vid VS PM LM next cfg starts av None n = (os, Ended s).
Proof.
  assert (HT : exists n os r, run step n (init None) = (os, r) /\ (forall s', r <> Running s')).
  { apply (run_terminates_wf step (lex3 unseen (fun s => length (n_to_expand s)) pending) (fun s => exists F, NInv F s)).
    - apply lex3_wf.
    - intros s o s' [F HI] Hst. split.
      { destruct (NInv_step F s o s' HI Hst) as (G & HI' & _). eauto. }
      unfold ntd_step in Hst. unfold lex3, unseen, pending. destruct (n_pc s) as [|v [|[n l] rest]] eqn:Hpc.
      + destruct (n_to_expand s) as [|v r] eqn:Hex; [discriminate|].
        destruct (ntd_enter_spec F s v r HI Hex) as (s1 & k & He & Hk & E1 & E2 & _).
        rewrite He in Hst. destruct (limit_check (n_limit s1)) as [lm|]; [|discriminate]. injection Hst as <- <-.
        simpl. rewrite E1, E2. right. split; [reflexivity|]. left. lia.
      + injection Hst as <- <-. simpl. right. split; [reflexivity|]. right. split; [reflexivity|]. lia.
      + rewrite Htree in Hst. simpl in Hst. destruct (vs_mem VS (vid n) (n_visited s)) eqn:Hm.
        * injection Hst as <- <-. simpl. right. split; [reflexivity|]. right. split; [reflexivity|]. lia.
        * assert (Hreach : reachable Eo St (vid n)).
          { assert (Hst' : step s = Go [ntd_observe VS PM LM n (ntd_mark vid VS PM LM cfg s v n l rest)]
                 (ntd_push VS PM LM cfg (ntd_mark vid VS PM LM cfg s v n l rest) n)).
            { unfold ntd_step. rewrite Hpc, Htree, Hm. reflexivity. }
            destruct (NInv_step F s _ _ HI Hst') as (G & HI' & [[Ho _]|(w & q & -> & s1 & Ho & _)]); [discriminate|].
            injection Ho as Hw. subst w.
            apply (Forest_reach _ _ _ _ _ _ _ _ _ _ _ _ _ _ _ (ni_forest _ _ HI')). right. rewrite map_app, in_app_iff. right. now left. }
          injection Hst as <- <-. simpl. rewrite Htree. left. apply filter_less with (vid n).
          -- intros i Hi. apply negb_true_iff in Hi. apply negb_true_iff. apply vs_mem_false_iff in Hi.
             apply vs_mem_false_iff. rewrite vs_mem_add in Hi. tauto.
          -- auto.
          -- apply negb_false_iff. apply vs_mem_add. auto.
          -- now apply negb_true_iff.
    - exists []. apply NInv_init. }
  destruct HT as (n & os & r & Hr & Hn). exists n, os. destruct r as [s|s|x s].
  - destruct (Hn s). reflexivity.
  - eauto.
  - exfalso. destruct (ntd_any None n os _ Hr) as (s0 & _ & -> & _).
    assert (Hx : forall n s os s', n_limit s = None -> run step n s <> (os, Raised RuntimeErrorLimit s')).
    { clear - Htree. induction n as [|n IH]; intros s os s' Hl HR; [discriminate|]. simpl in HR.
      destruct (step s) as [o t|o t|o x t] eqn:Hst; [|discriminate|].
      - destruct (run step n t) as [os1 r1] eqn:Hrn. simpl in HR. injection HR as <- ->.
        eapply IH; [|exact Hrn]. eapply limit_none; eauto.
      - injection HR as <- -> <-. unfold ntd_step in Hst. destruct (n_pc s) as [|v [|[w l] rest]].
        + destruct (n_to_expand s) as [|v r]; [discriminate|]. unfold ntd_enter in Hst.
          destruct (nc_compute_depth cfg).
          * destruct (ntd_leave _ _) as [[m d]|]; [|discriminate]. simpl in Hst. rewrite Hl in Hst. discriminate.
          * simpl in Hst. rewrite Hl in Hst. discriminate.
        + discriminate.
        + destruct (_ && _); discriminate. }
    eapply Hx; [|exact Hr]. reflexivity.
Qed.
End Termination.
End NTDProofs.
