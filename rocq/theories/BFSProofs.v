(** Proofs about the model of breadth first search. *)
From Coq Require Import List ZArith Bool Lia Sorted Arith.
From Verif Require Import Machine GearSpec Spec Common CommonProofs PathsModel PathsSpec PathsProofs BFSModel.
Import ListNotations.

Lemma StronglySorted_snoc {A} (R : A -> A -> Prop) l x :
  StronglySorted R l -> (forall y, In y l -> R y x) -> StronglySorted R (l ++ [x]).
Proof.
  induction 1 as [|a l HS IH HF]; simpl; intros Hx.
  - constructor; constructor.
  - constructor.
    + apply IH. intros; apply Hx; now right.
    + rewrite Forall_forall in *. intros y Hy. apply in_app_or in Hy.
      destruct Hy as [Hy|[<-|[]]]; auto.
Qed.

Lemma NoDup_snoc {A} (l : list A) x : NoDup l -> ~ In x l -> NoDup (l ++ [x]).
Proof.
  induction 1 as [|a l Ha HN IH]; simpl; intros Hx.
  - constructor; auto. constructor.
  - constructor.
    + intro H. apply in_app_or in H. destruct H as [H|[<-|[]]]; auto.
    + apply IH. intuition.
Qed.

Section BFSProofs.
Context {V I L : Type}.
Variable V_dec : forall a b : V, {a = b} + {a <> b}.
Variable I_dec : forall a b : I, {a = b} + {a <> b}.
Variable vid : V -> I.
Variable VS : VSet I.
Variable PM : PMap I V.
Variable LM : PMap I L.
Variable next : V -> list (V * L).
Variable cfg : bfs_cfg.
Hypothesis Htree : bc_is_tree cfg = false.
Variable E : I -> I -> Prop.
Hypothesis Hnext : forall u j, In j (map (fun e => vid (fst e)) (next u)) <-> E (vid u) j.
Variable starts : list V.
Variable av : option (vs_t VS).
Variable lim : option Z.

Notation state := (@bfs_state V I L VS PM LM).
Notation report := (@bfs_report V I L VS PM LM).
Notation step := (bfs_step vid VS PM LM next cfg).
Notation init := (bfs_init vid VS PM LM cfg starts av lim).

Definition preloaded (i : I) : Prop :=
  match av with Some s => vs_mem VS i s = true | None => False end.
Definition start_id (i : I) : Prop := In i (map vid starts).
(** The graph without edges to preloaded vertices. *)
Definition E_open (i j : I) : Prop := E i j /\ ~ preloaded j.

(** Edges between vertices, as returned by the neighbor function. *)
Definition EV_open (u w : V) : Prop := In w (map fst (next u)) /\ ~ preloaded (vid w).

Definition rid (e : V * nat) : I := vid (fst e).
Definition lv (F : list (V * nat)) (i : I) (k : nat) : Prop :=
  (start_id i /\ k = 0) \/ (exists v, In (v, k) F /\ vid v = i).
Definition closed (F : list (V * nat)) (i : I) (k : nat) : Prop :=
  forall j, E_open i j -> exists m, lv F j m /\ m <= k + 1.

Definition starts_inj : Prop :=
  forall a b, In a starts -> In b starts -> vid a = vid b -> a = b.

Definition path_ok (F : list (V * nat)) (pred : pm_t PM) (v : V) (k : nat) : Prop :=
  exists l, ppath vid PM pred v l /\ length l = S k /\
            path_list EV_open (fun u => In u starts) (rev l) v /\
            (forall u, In u l -> In u starts \/ In u (map fst F)).

Record Inv (F : list (V * nat)) (d : nat) (s : state) : Prop := {
  i_d : b_depth s = Z.of_nat d /\ 1 <= d;
  i_vis : forall i, vs_mem VS i (b_visited s) = true <->
                    (preloaded i \/ start_id i \/ In i (map rid F));
  i_nodup : NoDup (map rid F);
  i_F : forall v k, In (v, k) F ->
        ~ preloaded (vid v) /\ ~ start_id (vid v) /\ 1 <= k <= d /\
        exists s0 p, start_id s0 /\ walk E_open s0 p (vid v) /\ length p = k;
  i_te : forall v, In v (b_to_expand s) -> lv F (vid v) (d - 1) /\ (In v starts \/ In (v, d-1) F);
  i_cur : forall v rest, b_pc s = BEdges v rest ->
        lv F (vid v) (d - 1) /\ (In v starts \/ In (v, d-1) F) /\
        (In v starts -> d = 1) /\ incl rest (next v);
  i_testart : forall v, In v (b_to_expand s) -> In v starts -> d = 1;
  i_nx : forall v, In v (b_next s) <-> In (v, d) F;
  i_closed : forall i k, lv F i k ->
        closed F i k \/
        (exists v, In v (b_to_expand s ++ b_next s) /\ vid v = i) \/
        (exists v rest, b_pc s = BEdges v rest /\ vid v = i /\
           forall j, E_open i j -> (exists m, lv F j m /\ m <= k + 1) \/
                                   In j (map (fun e => vid (fst e)) rest));
  i_sorted : StronglySorted le (map snd F);
  i_while : b_pc s = BWhile -> b_next s = [] /\
        (2 <= d -> forall v, In (v, d - 1) F -> In v (b_to_expand s)) /\
        (d = 1 \/ exists i, lv F i (d - 2)) /\
        (d = 1 -> b_to_expand s = starts) /\
        d <= length F + 2 /\ (b_to_expand s <> [] -> d <= length F + 1);
  i_loop : b_pc s <> BWhile ->
        (exists i, lv F i (d - 1)) /\ d + length (b_next s) <= length F + 1;
  i_path : bc_build_paths cfg = true -> starts_inj ->
        (forall v, In v starts -> path_ok F (b_pred s) v 0) /\
        (forall v k, In (v, k) F -> path_ok F (b_pred s) v k);
  i_lab : bc_build_paths cfg = true -> bc_labeled cfg = true ->
        forall v k, In (v, k) F -> exists u l,
          pm_get PM (vid v) (b_pred s) = Some u /\ pm_get LM (vid v) (b_labels s) = Some l /\
          In (v, l) (next u);
  i_dom : bc_build_paths cfg = true -> forall i,
        pm_get PM i (b_pred s) <> None <-> (start_id i \/ In i (map rid F))
}.

Lemma lv_app F G i k : lv F i k -> lv (F ++ G) i k.
Proof.
  intros [H|(v & Hv & He)]; [left; auto|right]. exists v. split; auto. apply in_or_app; auto.
Qed.

Lemma closed_app F G i k : closed F i k -> closed (F ++ G) i k.
Proof. intros H j He. destruct (H j He) as (m & Hm & Hl). exists m. split; auto using lv_app. Qed.

Lemma lv_fun F d s : Inv F d s -> forall i k m, lv F i k -> lv F i m -> k = m.
Proof.
  intros HI i k m [[Hs ->]|(v & Hv & Hi)] [[Hs' ->]|(v' & Hv' & Hi')]; auto.
  - destruct (i_F _ _ _ HI _ _ Hv') as (_ & Hn & _). subst. contradiction.
  - destruct (i_F _ _ _ HI _ _ Hv) as (_ & Hn & _). subst. contradiction.
  - assert (Hnd := i_nodup _ _ _ HI). subst i.
    clear HI. induction F as [|[w q] F IH]; simpl in *; [contradiction|].
    inversion Hnd as [|? ? Hni Hnd']; subst. 
    destruct Hv as [Hv|Hv], Hv' as [Hv'|Hv'].
    + congruence.
    + exfalso. apply Hni. inversion Hv; subst. apply in_map_iff. exists (v', m). auto.
    + exfalso. apply Hni. inversion Hv'; subst. apply in_map_iff. exists (v, k). auto.
    + auto.
Qed.

Lemma lv_le F d s : Inv F d s -> forall i k, lv F i k -> k <= d.
Proof.
  intros HI i k [[_ ->]|(v & Hv & _)]; [lia|]. destruct (i_F _ _ _ HI _ _ Hv) as (_ & _ & ? & _). lia.
Qed.

(** Every vertex that has a walk with fewer than [d] edges has been found, and not deeper. *)
Lemma found_below F d s : Inv F d s -> forall s0 p i,
  start_id s0 -> walk E_open s0 p i -> length p <= d - 1 ->
  exists m, lv F i m /\ m <= length p.
Proof.
  intros HI s0 p. induction p as [|x p IH] using rev_ind; intros i Hs Hw Hl.
  - inversion Hw; subst. exists 0. split; auto. left; auto.
  - apply walk_snoc_inv in Hw. destruct Hw as (j & Hw & He & ->).
    rewrite app_length in *. simpl in *.
    destruct (IH j Hs Hw ltac:(lia)) as (m & Hm & Hml).
    destruct (i_closed _ _ _ HI _ _ Hm) as [Hc|[(v & Hv & Hvi)|(v & rest & Hpc & Hvi & _)]].
    + destruct (Hc _ He) as (q & Hq & Hql). exists q. split; auto. lia.
    + exfalso. subst j. apply in_app_or in Hv. destruct Hv as [Hv|Hv].
      * apply (i_te _ _ _ HI) in Hv. destruct Hv as [Hv _].
        assert (m = d - 1) by (eapply lv_fun; eauto). lia.
      * apply (i_nx _ _ _ HI) in Hv.
        assert (m = d) by (eapply lv_fun; eauto; right; eauto). lia.
    + exfalso. subst j. destruct (i_cur _ _ _ HI _ _ Hpc) as [Hv _].
      assert (m = d - 1) by (eapply lv_fun; eauto). lia.
Qed.

Lemma lv_min F d s : Inv F d s -> forall i k, lv F i k -> forall s0 p,
  start_id s0 -> walk E_open s0 p i -> k <= length p.
Proof.
  intros HI i k Hk s0 p Hs Hw.
  destruct (le_lt_dec d (length p)) as [Hd|Hd].
  - pose proof (lv_le _ _ _ HI _ _ Hk). lia.
  - destruct (found_below _ _ _ HI s0 p i Hs Hw ltac:(lia)) as (m & Hm & Hl).
    assert (k = m) by (eapply lv_fun; eauto). lia.
Qed.

Lemma Inv_init : Inv [] 1 init.
Proof.
  constructor; simpl; try tauto.
  - lia.
  - intros i. rewrite Htree, define_visited_mem. unfold preloaded, start_id. tauto.
  - constructor.
  - intros v Hv. split; [|auto]. left. split; auto. now apply in_map.
  - discriminate.
  - intros i k [[Hs ->]|(v & [] & _)]. right; left.
    unfold start_id in Hs. apply in_map_iff in Hs. destruct Hs as (v & Hv & Hin).
    exists v. rewrite app_nil_r. auto.
  - constructor.
  - intros _. repeat split; auto; try lia. 
  - intros Hb Hinj. split; [|contradiction].
    intros v Hv. exists [v]. repeat split; simpl; auto.
    + apply pp_start. rewrite Hb. now apply create_predecessors_start.
    + exists v, []. repeat split; auto. constructor.
    + intros u [<-|[]]. now left.
  - intros Hb i. rewrite Hb. split.
    + intros Hne. left. destruct (In_dec I_dec i (map vid starts)); auto.
      exfalso. apply Hne. now apply create_predecessors_other.
    + intros [Hs|[]]. unfold start_id in Hs. unfold create_predecessors.
      destruct (pm_get_of_list_in I_dec PM (map (fun v => (vid v, v)) starts) (pm_empty PM) i)
        as (a & _ & ->); [|discriminate].
      apply in_map_iff in Hs. destruct Hs as (v & <- & Hv). exists v.
      apply in_map_iff. eauto.
Qed.

(** What a pass may report. *)
Definition outs_ok (d : nat) (s' : state) (o : list report) (G : list (V * nat)) : Prop :=
  (o = [] /\ G = []) \/
  (exists v, o = [bfs_observe VS PM LM v s'] /\ G = [(v, d)] /\ b_depth s' = Z.of_nat d) \/
  (bc_report_depth_increase cfg = true /\ G = [] /\
   exists v r, o = [r] /\ br_vertex r = v /\ br_depth r = (b_depth s' - 1)%Z).

Lemma path_ok_app F G pred v k : path_ok F pred v k -> path_ok (F ++ G) pred v k.
Proof.
  intros (l & H1 & H2 & H3 & H4). exists l. repeat split; auto.
  intros u Hu. destruct (H4 u Hu); auto. right. rewrite map_app. apply in_or_app; auto.
Qed.

Lemma path_ok_set F G pred v k i u :
  path_ok F pred v k -> ~ start_id i -> ~ In i (map rid F) ->
  path_ok (F ++ G) (pm_set PM i u pred) v k.
Proof.
  intros (l & H1 & H2 & H3 & H4) Hs Hn. exists l. repeat split; auto.
  - eapply ppath_ext; eauto. intros w Hw. apply pm_get_set_other.
    intros Heq. subst i. destruct (H4 w Hw) as [Hi|Hi].
    + apply Hs. now apply in_map.
    + apply Hn. apply in_map_iff in Hi. destruct Hi as (e & <- & He).
      change (vid (fst e)) with (rid e). now apply in_map.
  - intros w Hw. destruct (H4 w Hw); auto. right. rewrite map_app. apply in_or_app; auto.
Qed.

Lemma Inv_step F d s o s' : Inv F d s -> step s = Go o s' ->
  exists G d', Inv (F ++ G) d' s' /\ outs_ok d' s' o G.
Proof.
  intros HI Hst. unfold bfs_step in Hst.
  destruct HI as [Hd Hvis Hnd HF Hte Hcur Htest Hnx Hcl Hso Hwh Hlo Hpa Hla Hdo] eqn:HIeq.
  pose proof HI as HI0. clear HIeq.
  destruct (b_pc s) as [| |v rest] eqn:Hpc.
  - (* BWhile *)
    destruct (b_to_expand s) as [|v r] eqn:Hex; [discriminate|].
    injection Hst as <- <-. exists [], d. rewrite app_nil_r. split; [|left; auto].
    destruct (Hwh eq_refl) as (Hn & Hw2 & Hw3 & Hw4 & Hw5 & Hw6).
    constructor; simpl; rewrite ?Hex; auto; try discriminate.
    + intros i k Hk. destruct (Hcl i k Hk) as [?|[?|(? & ? & ? & _)]]; auto; discriminate.
    + intros _. split.
      * destruct (Hte v) as [Hv _]; [now left|]. eauto.
      * rewrite Hn. simpl. specialize (Hw6 ltac:(discriminate)). lia.
  - (* BFor *)
    destruct (b_to_expand s) as [|v r] eqn:Hex.
    + (* end of level *)
      injection Hst as <- <-. exists [], (d + 1). rewrite app_nil_r. split.
      * destruct (Hlo ltac:(discriminate)) as [Hl1 Hl2].
        replace (d + 1 - 1) with d by lia.
        constructor; simpl; rewrite ?Nat.add_sub; auto; try discriminate; try lia.
        -- intros w k Hw. destruct (HF w k Hw) as (? & ? & ? & ?). repeat split; auto; lia.
        -- intros w Hw. apply Hnx in Hw. split; [right; eauto|now right].
        -- intros w Hw Hs. apply Hnx in Hw. destruct (HF _ _ Hw) as (_ & Hns & _).
           exfalso. apply Hns. now apply in_map.
        -- intros w. split; [contradiction|]. intros Hw. destruct (HF _ _ Hw) as (_ & _ & ? & _). lia.
        -- intros i k Hk. destruct (Hcl i k Hk) as [?|[H|(? & ? & ? & _)]]; auto; [|discriminate].
           right; left. simpl in H. now rewrite app_nil_r.
        -- intros _. repeat split.
           ++ intros _ w Hw. now apply Hnx.
           ++ right. replace (d + 1 - 2) with (d - 1) by lia. auto.
           ++ lia.
           ++ lia.
           ++ intros Hne. destruct (b_next s); [congruence|]. simpl in Hl2. lia.
        -- congruence.
      * unfold outs_ok. destruct (bc_report_depth_increase cfg) eqn:Hr; [|left; auto].
        destruct (rev (b_next s)) as [|w ?]; [left; auto|].
        right; right. repeat split. exists w, (bfs_observe VS PM LM w s).
        repeat split. simpl. lia.
    + destruct (limit_check (b_limit s)) as [lim'|]; [|discriminate].
      injection Hst as <- <-. exists [], d. rewrite app_nil_r. split; [|left; auto].
      constructor; simpl; auto; try discriminate.
      * intros w Hw. apply Hte. now right.
      * intros v0 rest Heq. injection Heq as <- <-.
        destruct (Hte v) as [H1 H2]; [now left|]. repeat split; auto.
        -- apply Htest. now left.
        -- apply incl_refl.
      * intros w Hw. apply Htest. now right.
      * intros i k Hk. destruct (Hcl i k Hk) as [?|[(w & Hw & Hwi)|(? & ? & ? & _)]]; auto; [|discriminate].
        simpl in Hw. destruct Hw as [<-|Hw].
        -- right; right. exists v, (next v). repeat split; auto. intros j [He _]. right.
           rewrite <- Hwi in He. now apply Hnext.
        -- right; left; eauto.
      * intros _. apply Hlo. discriminate.
  - (* BEdges *)
    destruct rest as [|[n l] rest].
    + injection Hst as <- <-. exists [], d. rewrite app_nil_r. split; [|left; auto].
      constructor; simpl; auto; try discriminate.
      * intros i k Hk. destruct (Hcl i k Hk) as [?|[?|(w & rest & Heq & Hwi & Hj)]]; auto.
        injection Heq as <- <-. left. intros j Hej. destruct (Hj j Hej) as [?|[]]; auto.
      * intros _. apply Hlo. discriminate.
    + rewrite Htree in Hst. simpl in Hst.
      destruct (Hcur _ _ eq_refl) as (Hc1 & Hc2 & Hc3 & Hc4).
      assert (HEn : E (vid v) (vid n)).
      { apply Hnext. apply in_map_iff. exists (n, l). split; auto. apply Hc4. now left. }
      destruct (vs_mem VS (vid n) (b_visited s)) eqn:Hmem.
      * injection Hst as <- <-. exists [], d. rewrite app_nil_r. split; [|left; auto].
        constructor; simpl; auto; try discriminate.
        -- intros w rest0 Heq. injection Heq as <- <-. repeat split; auto.
           intros e He. apply Hc4. now right.
        -- intros i k Hk. destruct (Hcl i k Hk) as [?|[?|(w & rest0 & Heq & Hwi & Hj)]]; auto.
           injection Heq as <- <-. right; right. exists v, rest. repeat split; auto.
           intros j Hej. destruct (Hj j Hej) as [?|[Hjn|?]]; auto. left. simpl in Hjn. subst j.
           apply Hvis in Hmem. destruct Hmem as [Hm|[Hm|Hm]].
           ++ destruct Hej; contradiction.
           ++ exists 0. split; [left; auto|lia].
           ++ apply in_map_iff in Hm. destruct Hm as ([w q] & Hw1 & Hw2). unfold rid in Hw1; simpl in Hw1.
              assert (Hq : lv F (vid n) q) by (right; eauto).
              exists q. split; auto. destruct (HF _ _ Hw2) as (_ & _ & ? & _).
              rewrite <- Hwi in Hk.
              assert (k = d - 1) by (eapply lv_fun; eauto). lia.
        -- intros _. apply Hlo. discriminate.
      * (* new neighbor *)
        unfold bfs_mark in Hst. simpl in Hst. injection Hst as <- <-.
        assert (Hnv : ~ (preloaded (vid n) \/ start_id (vid n) \/ In (vid n) (map rid F))).
        { rewrite <- Hvis. congruence. }
        assert (Hopen : E_open (vid v) (vid n)) by (split; auto).
        assert (Hwalk : exists s0 p, start_id s0 /\ walk E_open s0 p (vid n) /\ length p = d).
        { destruct Hc1 as [[Hs Hd0]|(w & Hw & Hwi)].
          - exists (vid v), [vid n]. repeat split; auto.
            + econstructor; eauto. constructor.
            + simpl. lia.
          - destruct (HF _ _ Hw) as (_ & _ & Hk & s0 & p & Hs & Hwk & Hl).
            rewrite Hwi in Hwk. exists s0, (p ++ [vid n]). repeat split; auto.
            + eapply walk_snoc; eauto.
            + rewrite app_length. simpl. lia. }
        exists [(n, d)], d. split.
        2:{ right; left. exists n. simpl. rewrite Htree. repeat split; auto. apply Hd. }
        constructor; simpl; rewrite ?Htree; auto; try discriminate.
        -- intros i. rewrite vs_mem_add, Hvis, map_app, in_app_iff. simpl.
           change (rid (n, d)) with (vid n). intuition congruence.
        -- rewrite map_app. apply NoDup_snoc; auto. 
        -- intros w k Hw. apply in_app_or in Hw. destruct Hw as [Hw|[Hw|[]]]; auto.
           injection Hw as <- <-. repeat split; auto; try lia; try tauto.
        -- intros w Hw. destruct (Hte w Hw) as [H1 H2]. split; [now apply lv_app|].
           destruct H2; auto. right. apply in_or_app; auto.
        -- intros w rest0 Heq. injection Heq as <- <-.
           repeat split; auto using lv_app.
           ++ destruct Hc2; auto. right. apply in_or_app; auto.
           ++ intros e He. apply Hc4. now right.
        -- intros w. rewrite !in_app_iff, Hnx. simpl. intuition congruence.
        -- intros i k [Hk|(w & Hw & Hwi)].
           ++ destruct (Hcl i k (or_introl Hk)) as [?|[(w & Hw & Hwi)|(w & rest0 & Heq & Hwi & Hj)]].
              ** left. now apply closed_app.
              ** right; left. exists w. split; auto. rewrite app_assoc. apply in_or_app; auto.
              ** injection Heq as <- <-. right; right. exists v, rest. repeat split; auto.
                 intros j Hej. destruct (Hj j Hej) as [(m & Hm & Hml)|[Hjn|?]]; auto.
                 { left. exists m. split; auto using lv_app. }
                 { left. simpl in Hjn. subst j. exists d. split.
                   - right. exists n. split; auto. apply in_or_app; right; now left.
                   - assert (lv F (vid v) k) by (rewrite Hwi; left; auto).
                     assert (k = d - 1) by (eapply lv_fun; eauto). lia. }
           ++ apply in_app_or in Hw. destruct Hw as [Hw|[Hw|[]]].
              ** assert (Hk : lv F i k) by (right; eauto).
                 destruct (Hcl i k Hk) as [?|[(w' & Hw' & Hwi')|(w' & rest0 & Heq & Hwi' & Hj)]].
                 { left. now apply closed_app. }
                 { right; left. exists w'. split; auto. rewrite app_assoc. apply in_or_app; auto. }
                 { injection Heq as <- <-. right; right. exists v, rest. repeat split; auto.
                   intros j Hej. destruct (Hj j Hej) as [(m & Hm & Hml)|[Hjn|?]]; auto.
                   - left. exists m. split; auto using lv_app.
                   - left. simpl in Hjn. subst j. exists d. split.
                     + right. exists n. split; auto. apply in_or_app; right; now left.
                     + assert (lv F (vid v) k) by (rewrite Hwi'; auto).
                       assert (k = d - 1) by (eapply lv_fun; eauto). lia. }
              ** injection Hw as <- <-. right; left. exists n. split; auto.
                 rewrite app_assoc. apply in_or_app. right; now left.
        -- rewrite map_app. simpl. apply StronglySorted_snoc; auto.
           intros y Hy. apply in_map_iff in Hy. destruct Hy as ([w q] & <- & Hw).
           destruct (HF _ _ Hw) as (_ & _ & ? & _). simpl. lia.
        -- intros _. destruct (Hlo ltac:(discriminate)) as [(i & Hi) H2]. split.
           ++ exists i. now apply lv_app.
           ++ rewrite !app_length. simpl. lia.
        -- intros Hb Hinj. rewrite Hb. destruct (Hpa Hb Hinj) as [Hp1 Hp2].
           split; [intros w Hw; apply path_ok_set; auto; tauto|].
           intros w k Hw. apply in_app_or in Hw. destruct Hw as [Hw|[Hw|[]]].
           { apply path_ok_set; auto; tauto. }
           injection Hw as <- <-.
           assert (Hpv : path_ok F (b_pred s) v (d - 1)).
           { destruct Hc2 as [Hc2|Hc2]; auto. rewrite (Hc3 Hc2). auto. }
           apply path_ok_set with (G := [(n, d)]) (i := vid n) (u := v) in Hpv; try tauto.
           destruct Hpv as (lp & P1 & P2 & P3 & P4).
           exists (n :: lp). repeat split.
           ++ eapply pp_step; eauto; [apply pm_get_set_same|].
              intros <-. destruct Hc2 as [Hc2|Hc2].
              ** apply Hnv. right; left. now apply in_map.
              ** apply Hnv. right; right. apply in_map_iff. exists (n, d-1); auto.
           ++ simpl. lia.
           ++ simpl. destruct P3 as (s0 & p & Hrev & Hs0 & Hwk). rewrite Hrev.
              exists s0, (p ++ [n]). repeat split; auto. eapply walk_snoc; eauto.
              split; [|tauto]. apply in_map_iff. exists (n, l). split; auto. apply Hc4. now left.
           ++ intros u [<-|Hu]; auto. right. rewrite map_app. apply in_or_app. right; now left.
        -- intros Hb Hl. rewrite Hb, Hl. simpl. intros w k Hw.
           apply in_app_or in Hw. destruct Hw as [Hw|[Hw|[]]].
           { assert (vid w <> vid n).
             { intros Heq. apply Hnv. right; right. rewrite <- Heq.
               change (vid w) with (rid (w, k)). now apply in_map. }
             rewrite !pm_get_set_other by auto. eauto. }
           injection Hw as <- <-.
           exists v, l. rewrite !pm_get_set_same. repeat split; auto. apply Hc4. now left.
        -- intros Hb. rewrite Hb. intros i. rewrite map_app, in_app_iff. simpl.
           change (rid (n, d)) with (vid n).
           destruct (I_dec i (vid n)) as [->|Hne].
           { rewrite pm_get_set_same. split; [tauto|discriminate]. }
           rewrite pm_get_set_other by auto. rewrite (Hdo Hb i). intuition congruence.
Qed.

Lemma frozen_step F d s o s' : Inv F d s -> step s = Go o s' ->
  forall i, start_id i \/ In i (map rid F) ->
  pm_get PM i (b_pred s') = pm_get PM i (b_pred s) /\
  pm_get LM i (b_labels s') = pm_get LM i (b_labels s).
Proof.
  intros HI Hst i Hi. unfold bfs_step in Hst.
  destruct (b_pc s) as [| |v rest].
  - destruct (b_to_expand s); [discriminate|]. injection Hst as <- <-. auto.
  - destruct (b_to_expand s).
    + injection Hst as <- <-. auto.
    + destruct (limit_check (b_limit s)); [|discriminate]. injection Hst as <- <-. auto.
  - destruct rest as [|[n l] rest].
    + injection Hst as <- <-. auto.
    + rewrite Htree in Hst. simpl in Hst.
      destruct (vs_mem VS (vid n) (b_visited s)) eqn:Hm; injection Hst as <- <-; auto.
      simpl. assert (i <> vid n).
      { intros ->. assert (vs_mem VS (vid n) (b_visited s) = true) by (apply (i_vis _ _ _ HI); tauto).
        congruence. }
      destruct (bc_build_paths cfg), (bc_labeled cfg); simpl;
        rewrite ?pm_get_set_other by auto; auto.
Qed.

Definition rv (r : report) : V * nat := (br_vertex r, Z.to_nat (br_depth r)).
Definition ids (os : list report) : list I := map (fun r => vid (br_vertex r)) os.

Lemma ids_rid os : map rid (map rv os) = ids os.
Proof. unfold ids. rewrite map_map. reflexivity. Qed.

Hypothesis Hrdi : bc_report_depth_increase cfg = false.

Definition Inv2 (os : list report) (s : state) : Prop :=
  (exists d, Inv (map rv os) d s) /\
  forall o1 r o2, os = o1 ++ r :: o2 ->
    exists s1 d1, Inv (map rv (o1 ++ [r])) d1 s1 /\ r = bfs_observe VS PM LM (br_vertex r) s1 /\
      br_depth r = Z.of_nat d1 /\
      forall i, start_id i \/ In i (ids (o1 ++ [r])) ->
        pm_get PM i (b_pred s) = pm_get PM i (b_pred s1) /\
        pm_get LM i (b_labels s) = pm_get LM i (b_labels s1).

Lemma snoc_split {A} (l : list A) x o1 r o2 : l ++ [x] = o1 ++ r :: o2 ->
  (o2 = [] /\ r = x /\ o1 = l) \/ (exists o2', o2 = o2' ++ [x] /\ l = o1 ++ r :: o2').
Proof.
  intros H. destruct (exists_last (l := r :: o2)) as (q & y & Hq); [discriminate|].
  rewrite Hq, app_assoc in H. apply app_inj_tail in H. destruct H as [H ->].
  destruct q as [|z q].
  - left. rewrite app_nil_r in H. injection Hq as <- ->. auto.
  - right. injection Hq as <- ->. exists q. auto.
Qed.

Lemma Inv2_init : Inv2 [] init.
Proof.
  split; [exists 1; apply Inv_init|]. intros o1 r o2 H. destruct o1; discriminate.
Qed.

Lemma Inv2_step pre s o s' : Inv2 pre s -> step s = Go o s' -> Inv2 (pre ++ o) s'.
Proof.
  intros [(d & HI) HS] Hst.
  pose proof (frozen_step _ _ _ _ _ HI Hst) as Hfr.
  destruct (Inv_step _ _ _ _ _ HI Hst) as (G & d' & HI' & [(-> & ->)|[(v & -> & -> & Hd)|(Hr & _)]]).
  - rewrite app_nil_r in *. split; [eauto|]. intros o1 r o2 Heq.
    destruct (HS o1 r o2 Heq) as (s1 & d1 & H1 & H2 & H3 & H4). exists s1, d1. split; [auto|split; [auto|split; [auto|]]].
    intros i Hi. destruct (Hfr i) as [-> ->]; [|now apply H4].
    destruct Hi as [Hi|Hi]; auto. right. subst pre. rewrite ids_rid.
    unfold ids in *. rewrite !map_app in *. simpl in *. rewrite in_app_iff in *. simpl in *. intuition.
  - assert (Hmap : map rv (pre ++ [bfs_observe VS PM LM v s']) = map rv pre ++ [(v, d')]).
    { rewrite map_app. simpl. unfold rv at 2. simpl. rewrite Hd, Nat2Z.id. auto. }
    split.
    + exists d'. rewrite Hmap. auto.
    + intros o1 r o2 Heq. apply snoc_split in Heq.
      destruct Heq as [(-> & -> & ->)|(o2' & -> & Heq)].
      * exists s', d'. rewrite Hmap. simpl. auto.
      * destruct (HS o1 r o2' Heq) as (s1 & d1 & H1 & H2 & H3 & H4). exists s1, d1. split; [auto|split; [auto|split; [auto|]]].
        intros i Hi. destruct (Hfr i) as [-> ->]; [|now apply H4].
        destruct Hi as [Hi|Hi]; auto. right. subst pre. rewrite ids_rid.
        unfold ids in *. rewrite !map_app in *. simpl in *. rewrite in_app_iff in *. simpl in *. intuition.
  - congruence.
Qed.

(** What holds at any moment of the run: reports so far and the reached state. The state
    shown in an end state or at an exception differs only in [b_depth]. *)
Lemma bfs_any n os r : run step n init = (os, r) ->
  exists s, Inv2 os s /\
    match r with
    | Running s' => s' = s
    | Ended s' => b_pc s = BWhile /\ b_to_expand s = [] /\ b_visited s' = b_visited s /\
                  b_pred s' = b_pred s /\ b_labels s' = b_labels s /\
                  b_depth s' = (b_depth s - 2)%Z
    | Raised x s' => x = RuntimeErrorLimit /\ s' = s
    end.
Proof.
  intros HR. pose proof (run_inv_any step Inv2 Inv2_step n [] init os r Inv2_init HR) as H.
  destruct r as [s'|s'|x s'].
  - exists s'. auto.
  - destruct H as (os1 & o & s1 & -> & HI & Hh). simpl in HI.
    unfold bfs_step in Hh. destruct (b_pc s1) as [| |v rest] eqn:Hpc.
    + destruct (b_to_expand s1) eqn:Hex; [|discriminate]. injection Hh as <- <-.
      exists s1. rewrite app_nil_r. repeat split; auto; apply HI.
    + destruct (b_to_expand s1); [discriminate|]. destruct (limit_check (b_limit s1)); discriminate.
    + destruct rest as [|[? ?] ?]; [discriminate|].
      destruct (negb (bc_is_tree cfg) && vs_mem VS (vid v0) (b_visited s1)); discriminate.
  - destruct H as (os1 & o & s1 & -> & HI & Hh). simpl in HI.
    unfold bfs_step in Hh. destruct (b_pc s1) as [| |v rest] eqn:Hpc.
    + destruct (b_to_expand s1) eqn:Hex; discriminate.
    + destruct (b_to_expand s1); [discriminate|]. destruct (limit_check (b_limit s1)); [discriminate|].
      injection Hh as <- <- <-. exists s1. rewrite app_nil_r. auto.
    + destruct rest as [|[? ?] ?]; [discriminate|].
      destruct (negb (bc_is_tree cfg) && vs_mem VS (vid v0) (b_visited s1)); discriminate.
Qed.

(** ** Reported vertices *)
Lemma bfs_reported n os r : run step n init = (os, r) ->
  NoDup (ids os) /\
  forall rep, In rep os ->
    ~ start_id (vid (br_vertex rep)) /\ ~ preloaded (vid (br_vertex rep)) /\
    exists k, br_depth rep = Z.of_nat k /\ 1 <= k /\
              min_depth E_open start_id (vid (br_vertex rep)) k.
Proof.
  intros HR. destruct (bfs_any n os r HR) as (s & [(d & HI) HS] & _). split.
  { rewrite <- ids_rid. apply (i_nodup _ _ _ HI). }
  intros rep Hin. pose proof (in_map rv _ _ Hin) as Hin'. unfold rv at 1 in Hin'.
  destruct (i_F _ _ _ HI _ _ Hin') as (H1 & H2 & H3 & H4).
  repeat split; auto. exists (Z.to_nat (br_depth rep)). repeat split; auto; try lia.
  intros s0 p Hs Hw. eapply lv_min; eauto. right. eauto.
Qed.

Lemma bfs_sorted n os r : run step n init = (os, r) ->
  StronglySorted (fun a b => (br_depth a <= br_depth b)%Z) os.
Proof.
  intros HR. destruct (bfs_any n os r HR) as (s & [(d & HI) HS] & _).
  pose proof (i_sorted _ _ _ HI) as Hso.
  assert (Hpos : forall rep, In rep os -> (0 <= br_depth rep)%Z).
  { intros rep Hin. destruct (bfs_reported n os r HR) as [_ Hrep].
    destruct (Hrep rep Hin) as (_ & _ & k & -> & _). lia. }
  clear -Hso Hpos. induction os as [|a os IH]; [constructor|].
  simpl in Hso. inversion Hso as [|? ? Hs Hf]; subst. constructor.
  - apply IH; auto. intros; apply Hpos; now right.
  - rewrite Forall_forall in *. intros b Hb.
    assert (Hi : In (snd (rv b)) (map snd (map rv os))) by (apply in_map; now apply in_map).
    specialize (Hf _ Hi). simpl in Hf.
    assert (0 <= br_depth a)%Z by (apply Hpos; now left).
    assert (0 <= br_depth b)%Z by (apply Hpos; now right). lia.
Qed.

Lemma closed_at_end F d s : Inv F d s -> b_pc s = BWhile -> b_to_expand s = [] ->
  forall i k, lv F i k -> closed F i k.
Proof.
  intros HI Hpc Hex i k Hk.
  destruct (i_closed _ _ _ HI _ _ Hk) as [?|[(v & Hv & _)|(v & rest & Hp & _)]]; auto.
  - destruct (i_while _ _ _ HI Hpc) as (Hn & _). rewrite Hex, Hn in Hv. contradiction.
  - congruence.
Qed.

Lemma all_found_at_end F d s : Inv F d s -> b_pc s = BWhile -> b_to_expand s = [] ->
  forall i, reachable E_open start_id i -> exists k, lv F i k.
Proof.
  intros HI Hpc Hex. apply reachable_ind'.
  - intros i Hs. exists 0. left; auto.
  - intros i j _ (k & Hk) He. destruct (closed_at_end _ _ _ HI Hpc Hex i k Hk j He) as (m & Hm & _). eauto.
Qed.

Lemma bfs_complete n os s' : run step n init = (os, Ended s') ->
  (forall i, reachable E_open start_id i -> start_id i \/ In i (ids os)) /\
  (forall i, vs_mem VS i (b_visited s') = true <-> preloaded i \/ reachable E_open start_id i).
Proof.
  intros HR. destruct (bfs_any _ _ _ HR) as (s & [(d & HI) HS] & Hpc & Hex & Hvis & _).
  assert (Hall : forall i, reachable E_open start_id i -> start_id i \/ In i (ids os)).
  { intros i Hi. destruct (all_found_at_end _ _ _ HI Hpc Hex i Hi) as (k & [[? _]|(v & Hv & <-)]); auto.
    right. rewrite <- ids_rid. change (vid v) with (rid (v, k)). now apply in_map. }
  split; auto. intros i. rewrite Hvis, (i_vis _ _ _ HI), ids_rid. split.
  - intros [?|[?|Hi]]; auto; right.
    + now apply reachable_start.
    + unfold ids in Hi. apply in_map_iff in Hi. destruct Hi as (rep & <- & Hrep).
      destruct (bfs_reported _ _ _ HR) as [_ Hr].
      destruct (Hr rep Hrep) as (_ & _ & k & _ & _ & (s0 & p & ? & ? & _) & _).
      exists s0, p. auto.
  - intros [?|Hi]; auto.
Qed.

(** The set [visited] at each report. *)
Lemma bfs_visited_at_report n os r o1 rep o2 : run step n init = (os, r) ->
  os = o1 ++ rep :: o2 ->
  forall i, vs_mem VS i (br_visited rep) = true <->
            preloaded i \/ start_id i \/ In i (ids (o1 ++ [rep])).
Proof.
  intros HR Heq i. destruct (bfs_any n os r HR) as (s & [_ HS] & _).
  destruct (HS _ _ _ Heq) as (s1 & d1 & HI1 & Hrep & _).
  replace (br_visited rep) with (b_visited s1) by (rewrite Hrep; reflexivity).
  rewrite (i_vis _ _ _ HI1), ids_rid. tauto.
Qed.

(** The value of [depth] after the end. *)
Lemma bfs_final_depth n os s' : run step n init = (os, Ended s') ->
  b_depth s' = match rev os with
               | rep :: _ => br_depth rep
               | [] => match starts with [] => -1 | _ => 0 end
               end%Z.
Proof.
  intros HR. destruct (bfs_any _ _ _ HR) as (s & [(d & HI) HS] & Hpc & Hex & _ & _ & _ & Hd').
  rewrite Hd'. destruct (i_d _ _ _ HI) as [Hd Hd1]. rewrite Hd.
  destruct (i_while _ _ _ HI Hpc) as (Hn & Hw2 & Hw3 & Hw4 & _).
  rewrite Hex in *.
  destruct Hw3 as [Hw3|(i & Hi)].
  - subst d. pose proof (Hw4 eq_refl) as Hst. rewrite <- Hst.
    destruct os as [|a os]; [reflexivity|].
    exfalso. destruct (i_F _ _ _ HI (br_vertex a) (Z.to_nat (br_depth a))) as (_ & _ & Hk & _); [now left|].
    assert (Hk1 : Z.to_nat (br_depth a) = 1) by lia.
    assert (Hin : In (br_vertex a) (b_next s)).
    { apply (i_nx _ _ _ HI). left. unfold rv. now rewrite Hk1. }
    rewrite Hn in Hin. contradiction.
  - destruct (Nat.eq_dec d 1) as [->|Hne].
    + simpl in *. pose proof (Hw4 eq_refl) as Hst. rewrite <- Hst.
      destruct os as [|a os]; [reflexivity|].
      exfalso. destruct (i_F _ _ _ HI (br_vertex a) (Z.to_nat (br_depth a))) as (_ & _ & Hk & _); [now left|].
      assert (Hk1 : Z.to_nat (br_depth a) = 1) by lia.
      assert (Hin : In (br_vertex a) (b_next s)).
      { apply (i_nx _ _ _ HI). left. unfold rv. now rewrite Hk1. }
      rewrite Hn in Hin. contradiction.
    + assert (Hmax : forall v k, In (v, k) (map rv os) -> k <= d - 2).
      { intros v k Hv. destruct (i_F _ _ _ HI _ _ Hv) as (_ & _ & Hk & _).
        destruct (Nat.eq_dec k d) as [->|]; [apply (i_nx _ _ _ HI) in Hv; rewrite Hn in Hv; contradiction|].
        destruct (Nat.eq_dec k (d - 1)) as [->|]; [|lia].
        exfalso. apply (Hw2 ltac:(lia) v Hv). }
      destruct (rev os) as [|rep q] eqn:Hrev.
      * assert (os = []) by (rewrite <- (rev_involutive os), Hrev; reflexivity). subst os.
        destruct Hi as [[Hs H0]|(v & [] & _)].
        unfold start_id in Hs. destruct starts; [contradiction|]. lia.
      * assert (Hos : os = rev q ++ [rep]) by (rewrite <- (rev_involutive os), Hrev; reflexivity).
        assert (Hrep : In (rv rep) (map rv os)) by (apply in_map; rewrite Hos; apply in_or_app; right; now left).
        assert (Hlast : forall v k, In (v, k) (map rv os) -> k <= Z.to_nat (br_depth rep)).
        { intros v k Hv. pose proof (i_sorted _ _ _ HI) as Hso.
          rewrite Hos in Hv, Hso. rewrite map_app in Hv. apply in_app_or in Hv.
          destruct Hv as [Hv|[Hv|[]]]; [|injection Hv as _ <-; auto].
          rewrite !map_app in Hso. simpl in Hso.
          clear -Hv Hso. induction (map rv (rev q)) as [|e l IH]; [contradiction|].
          simpl in *. inversion Hso as [|? ? Hs Hf]; subst. destruct Hv as [->|Hv]; auto.
          rewrite Forall_forall in Hf. simpl in *. apply Hf. apply in_or_app; right; now left. }
        unfold rv in Hrep. pose proof (Hmax _ _ Hrep).
        destruct (i_F _ _ _ HI _ _ Hrep) as (_ & _ & ? & _).
        destruct Hi as [[Hs Hz]|(v & Hv & _)].
        -- lia.
        -- apply Hlast in Hv. lia.
Qed.

(** ** Paths *)
Definition label_ok (u w : V) (l : L) : Prop := In (w, l) (next u).

Lemma start_pred F d s v : Inv F d s -> bc_build_paths cfg = true -> starts_inj ->
  In v starts -> pm_get PM (vid v) (b_pred s) = Some v.
Proof.
  intros HI Hb Hinj Hv. destruct (i_path _ _ _ HI Hb Hinj) as [H1 _].
  destruct (H1 v Hv) as (l & Hp & Hl & _).
  inversion Hp as [? Hg|? u l' Hg Hne Hp']; subst; auto.
  destruct (ppath_head _ _ _ _ _ Hp') as [l2 ->]. discriminate.
Qed.

Lemma path_ok_delivers F d s pred labels v k : Inv F d s -> bc_build_paths cfg = true -> starts_inj ->
  path_ok F (b_pred s) v k ->
  (forall i, start_id i \/ In i (map rid F) -> pm_get PM i pred = pm_get PM i (b_pred s) /\
                                  pm_get LM i labels = pm_get LM i (b_labels s)) ->
  exists l, path_list EV_open (fun u => In u starts) l v /\ length l = S k /\
    delivers V_dec vid PM LM (b_pred s) (b_labels s) (bc_labeled cfg) label_ok v l /\
    delivers V_dec vid PM LM pred labels (bc_labeled cfg) label_ok v l.
Proof.
  intros HI Hb Hinj (l & Hp & Hl & Hpl & Hu) Hsame. exists (rev l). rewrite rev_length.
  split; [auto|split; [auto|]].
  assert (Hid : forall u, In u l -> start_id (vid u) \/ In (vid u) (map rid F)).
  { intros u Hin. destruct (Hu u Hin) as [Hs|HF].
    - left. now apply in_map.
    - right. apply in_map_iff in HF. destruct HF as (e & <- & He).
      change (vid (fst e)) with (rid e). now apply in_map. }
  assert (Hp' : ppath vid PM pred v l).
  { eapply ppath_ext; eauto. intros u Hin. now apply Hsame, Hid. }
  assert (HQ : bc_labeled cfg = true -> forall u w, In (u, w) (edges_to_start l) ->
     exists d, pm_get LM (vid w) (b_labels s) = Some d /\ label_ok u w d).
  { intros Hlab u w Hin. destruct (edges_to_start_in _ _ _ _ _ Hp _ _ Hin) as (Hg & Hul & Hwl & Hne).
    destruct (Hu w Hwl) as [Hs|HF].
    { rewrite (start_pred _ _ _ _ HI Hb Hinj Hs) in Hg. congruence. }
    apply in_map_iff in HF. destruct HF as ([w' k'] & Heq & HF). simpl in Heq. subst w'.
    destruct (i_lab _ _ _ HI Hb Hlab _ _ HF) as (u' & d' & H1 & H2 & H3).
    exists d'. split; auto. rewrite Hg in H1. injection H1 as ->. auto. }
  split; apply (ppath_delivers V_dec vid PM LM); auto.
  intros Hlab u w Hin. destruct (edges_to_start_in _ _ _ _ _ Hp _ _ Hin) as (Hg & Hul & Hwl & Hne).
  destruct (Hsame (vid w) (Hid w Hwl)) as [_ ->]. auto.
Qed.


Lemma bfs_any_pred n os r s : run step n init = (os, r) ->
  Inv2 os s -> match r with
    | Running s' => s' = s
    | Ended s' => b_pc s = BWhile /\ b_to_expand s = [] /\ b_visited s' = b_visited s /\
                  b_pred s' = b_pred s /\ b_labels s' = b_labels s /\
                  b_depth s' = (b_depth s - 2)%Z
    | Raised x s' => x = RuntimeErrorLimit /\ s' = s
    end -> b_pred (outcome_state r) = b_pred s /\ b_labels (outcome_state r) = b_labels s.
Proof. destruct r; simpl; intuition congruence. Qed.

(** At a report, and at any later moment, the container delivers one and the same path:
    with as many edges as the reported depth. *)
Lemma bfs_paths n os r : run step n init = (os, r) ->
  bc_build_paths cfg = true -> starts_inj ->
  forall rep, In rep os ->
  exists l, path_list EV_open (fun u => In u starts) l (br_vertex rep) /\
    Z.of_nat (length l) = (br_depth rep + 1)%Z /\
    delivers V_dec vid PM LM (br_pred rep) (br_labels rep) (bc_labeled cfg) label_ok (br_vertex rep) l /\
    delivers V_dec vid PM LM (b_pred (outcome_state r)) (b_labels (outcome_state r)) (bc_labeled cfg)
             label_ok (br_vertex rep) l.
Proof.
  intros HR Hb Hinj rep Hin. destruct (bfs_any n os r HR) as (s & HI2 & Hr).
  destruct (bfs_any_pred _ _ _ _ HR HI2 Hr) as [-> ->].
  destruct HI2 as [(d & HI) HS].
  destruct (in_split _ _ Hin) as (o1 & o2 & Heq).
  destruct (HS _ _ _ Heq) as (s1 & d1 & HI1 & Hrep & Hd & Hsame).
  assert (Hin1 : In (br_vertex rep, d1) (map rv (o1 ++ [rep]))).
  { rewrite map_app. apply in_or_app. right. left. unfold rv. now rewrite Hd, Nat2Z.id. }
  destruct (i_path _ _ _ HI1 Hb Hinj) as [_ Hp]. specialize (Hp _ _ Hin1).
  destruct (path_ok_delivers _ _ _ (b_pred s) (b_labels s) _ _ HI1 Hb Hinj Hp) as (l & H1 & H2 & H3 & H4).
  { intros i Hi. rewrite ids_rid in Hi. now apply Hsame. }
  replace (br_pred rep) with (b_pred s1) by (rewrite Hrep; reflexivity).
  replace (br_labels rep) with (b_labels s1) by (rewrite Hrep; reflexivity).
  exists l. split; [auto|split; [lia|auto]].
Qed.

(** A start vertex has the empty path, from the beginning on. *)
Lemma bfs_paths_start n os r : run step n init = (os, r) ->
  bc_build_paths cfg = true -> starts_inj ->
  forall v, In v starts ->
  delivers V_dec vid PM LM (b_pred (outcome_state r)) (b_labels (outcome_state r)) (bc_labeled cfg)
           label_ok v [v].
Proof.
  intros HR Hb Hinj v Hv. destruct (bfs_any n os r HR) as (s & HI2 & Hr).
  destruct (bfs_any_pred _ _ _ _ HR HI2 Hr) as [-> ->].
  destruct HI2 as [(d & HI) HS]. change [v] with (rev [v]).
  apply (ppath_delivers V_dec vid PM LM).
  - apply pp_start. eapply start_pred; eauto.
  - intros _ u w [].
Qed.

(** There are paths for start vertices and reported vertices, and for no others. *)
Lemma bfs_paths_contains n os r : run step n init = (os, r) ->
  bc_build_paths cfg = true ->
  forall v, paths_contains vid PM (b_pred (outcome_state r)) v = true <->
            start_id (vid v) \/ In (vid v) (ids os).
Proof.
  intros HR Hb v. destruct (bfs_any n os r HR) as (s & HI2 & Hr).
  destruct (bfs_any_pred _ _ _ _ HR HI2 Hr) as [-> _].
  destruct HI2 as [(d & HI) HS]. rewrite <- ids_rid, <- (i_dom _ _ _ HI Hb).
  unfold paths_contains. destruct (pm_get PM (vid v) (b_pred s)); intuition congruence.
Qed.

(** ** Progress *)
Section Progress.
Hypothesis Hlim : lim = None.

Lemma edges_run v rest : forall s, b_pc s = BEdges v rest -> b_limit s = None ->
  exists n os s', run step n s = (os, Running s') /\ b_pc s' = BFor /\
    b_to_expand s' = b_to_expand s /\ b_limit s' = None /\ b_depth s' = b_depth s.
Proof.
  induction rest as [|[n l] rest IH]; intros s Hpc Hl.
  - exists 1, [], (b_set_pc VS PM LM s BFor). simpl. unfold bfs_step. rewrite Hpc. auto.
  - destruct (negb (bc_is_tree cfg) && vs_mem VS (vid n) (b_visited s)) eqn:Hm.
    + destruct (IH (b_set_pc VS PM LM s (BEdges v rest)) eq_refl Hl) as (k & os & s' & Hr & H1 & H2 & H3 & H4).
      exists (S k), os, s'. simpl. unfold bfs_step at 1. rewrite Hpc, Hm. simpl. rewrite Hr. auto.
    + destruct (step s) as [o s1| |] eqn:Es.
      2,3: unfold bfs_step in Es; rewrite Hpc, Hm in Es; discriminate.
      assert (Hs1 : b_pc s1 = BEdges v rest /\ b_limit s1 = None /\ b_to_expand s1 = b_to_expand s /\
                    b_depth s1 = b_depth s).
      { unfold bfs_step in Es. rewrite Hpc, Hm in Es. injection Es as <- <-. simpl. auto. }
      destruct Hs1 as (Q1 & Q2 & Q3 & Q4).
      destruct (IH s1 Q1 Q2) as (k & os & s' & Hr & H1 & H2 & H3 & H4).
      exists (S k), (o ++ os), s'. simpl. rewrite Es, Hr. repeat split; auto; congruence.
Qed.

Lemma for_run l : forall s, b_pc s = BFor -> b_to_expand s = l -> b_limit s = None ->
  exists n os s', run step n s = (os, Running s') /\ b_pc s' = BWhile /\
    b_limit s' = None /\ b_depth s' = (b_depth s + 1)%Z.
Proof.
  induction l as [|v l IH]; intros s Hpc Hex Hl.
  - destruct (step s) as [o s1| |] eqn:Es; [|unfold bfs_step in Es; rewrite Hpc, Hex in Es; discriminate..].
    exists 1, (o ++ []), s1. simpl. rewrite Es. split; auto.
    unfold bfs_step in Es. rewrite Hpc, Hex in Es. injection Es as <- <-. simpl. auto.
  - destruct (step s) as [o s1| |] eqn:Es;
      [|unfold bfs_step in Es; rewrite Hpc, Hex, Hl in Es; simpl in Es; discriminate..].
    assert (Hs1 : b_pc s1 = BEdges v (next v) /\ b_limit s1 = None /\ b_to_expand s1 = l /\
                  b_depth s1 = b_depth s).
    { unfold bfs_step in Es. rewrite Hpc, Hex, Hl in Es. simpl in Es. injection Es as <- <-. simpl. auto. }
    destruct Hs1 as (Q1 & Q2 & Q3 & Q4).
    destruct (edges_run v (next v) s1 Q1 Q2) as (k & os & s2 & Hr & R1 & R2 & R3 & R4).
    destruct (IH s2) as (k' & os' & s3 & Hr' & T1 & T2 & T3); auto; try congruence.
    exists (S (k + k')), (o ++ os ++ os'), s3. simpl. rewrite Es.
    erewrite run_add_running by eauto. rewrite Hr'. repeat split; auto. rewrite T3, R4, Q4. auto.
Qed.

Lemma level_run s : b_pc s = BWhile -> b_limit s = None ->
  (exists os s', run step 1 s = (os, Ended s')) \/
  exists n os s', run step n s = (os, Running s') /\ b_pc s' = BWhile /\
    b_limit s' = None /\ b_depth s' = (b_depth s + 1)%Z.
Proof.
  intros Hpc Hl. destruct (b_to_expand s) as [|v l] eqn:Hex.
  - left. simpl. unfold bfs_step. rewrite Hpc, Hex. eauto.
  - right. destruct (for_run (v :: l) (b_set_pc VS PM LM s BFor)) as (k & os & s' & Hr & H1 & H2 & H3); auto.
    exists (S k), os, s'. simpl. unfold bfs_step at 1. rewrite Hpc, Hex. simpl. rewrite Hr. auto.
Qed.

(** For each [m], the run ends, or reaches the begin of level [m + 1]. *)
Lemma levels_run m :
  (exists n os s', run step n init = (os, Ended s')) \/
  exists n os s', run step n init = (os, Running s') /\ b_pc s' = BWhile /\
    b_limit s' = None /\ b_depth s' = (Z.of_nat m + 1)%Z.
Proof.
  induction m as [|m [IH|(n & os & s' & Hr & H1 & H2 & H3)]]; auto.
  - right. exists 0, [], init. simpl. rewrite Hlim. auto.
  - destruct (level_run s' H1 H2) as [(os' & s2 & Hr2)|(k & os' & s2 & Hr2 & Q1 & Q2 & Q3)].
    + left. exists (n + 1), (os ++ os'), s2. erewrite run_add_running by eauto. now rewrite Hr2.
    + right. exists (n + k), (os ++ os'), s2. erewrite run_add_running by eauto. rewrite Hr2.
      repeat split; auto. lia.
Qed.

Lemma bfs_live i : reachable E_open start_id i -> ~ start_id i ->
  exists n, In i (ids (fst (run step n init))).
Proof.
  intros Hi Hns. pose proof Hi as (s0 & p & Hs & Hw).
  destruct (levels_run (length p)) as [(n & os & s' & Hr)|(n & os & s' & Hr & H1 & H2 & H3)].
  - exists n. rewrite Hr. destruct (bfs_complete _ _ _ Hr) as [Hc _]. destruct (Hc i Hi); tauto.
  - exists n. rewrite Hr. simpl. destruct (bfs_any _ _ _ Hr) as (s & [(d & HI) _] & <-).
    destruct (i_d _ _ _ HI) as [Hd _].
    destruct (found_below _ _ _ HI s0 p i Hs Hw) as (m & [[? _]|(v & Hv & <-)] & _); [lia|tauto|].
    rewrite <- ids_rid. change (vid v) with (rid (v, m)). now apply in_map.
Qed.

Lemma bfs_terminates l : (forall i, reachable E_open start_id i -> In i l) ->
  exists n os s', run step n init = (os, Ended s').
Proof.
  intros Hfin. destruct (levels_run (length l + 2)) as [?|(n & os & s' & Hr & H1 & H2 & H3)]; auto.
  exfalso. destruct (bfs_any _ _ _ Hr) as (s & [(d & HI) _] & <-).
  destruct (i_d _ _ _ HI) as [Hd _].
  destruct (i_while _ _ _ HI H1) as (_ & _ & _ & _ & Hlen & _).
  assert (Hle : length (ids os) <= length l).
  { apply NoDup_incl_length.
    - apply (bfs_reported _ _ _ Hr).
    - intros i Hi. apply Hfin. unfold ids in Hi. apply in_map_iff in Hi.
      destruct Hi as (rep & <- & Hrep). destruct (bfs_reported _ _ _ Hr) as [_ Hx].
      destruct (Hx rep Hrep) as (_ & _ & k & _ & _ & (a & b & ? & ? & _) & _). exists a, b; auto. }
  unfold ids in Hle. rewrite map_length in *. lia.
Qed.
End Progress.
End BFSProofs.
