(** Further facts about breadth first search: order of expansion; no option
    [already_visited]. *)
From Coq Require Import List ZArith Bool Lia Sorted.
From Verif Require Import Machine GearSpec Spec TraversalSpec Common CommonProofs BFSModel.
Import ListNotations.

Lemma avoiding_none {I} (VS : VSet I) (E : I -> I -> Prop) :
  forall i j, avoiding E (in_already_visited VS None) i j <-> E i j.
Proof. unfold avoiding. simpl. tauto. Qed.

Section BFSMore.
Context {V I L : Type}.
Variable vid : V -> I.
Variable VS : VSet I.
Variable PM : PMap I V.
Variable LM : PMap I L.
Variable next : V -> list (V * L).
Variable cfg : bfs_cfg.
Hypothesis Hrdi : bc_report_depth_increase cfg = false.
Variable starts : list V.
Variable av : option (vs_t VS).
Variable lim : option Z.
Notation state := (@bfs_state V I L VS PM LM).
Notation report := (@bfs_report V I L VS PM LM).
Notation step := (bfs_step vid VS PM LM next cfg).
Notation init := (bfs_init vid VS PM LM cfg starts av lim).

(** Expanded vertices, vertices to be expanded: start vertices and reported ones, in order. *)
Definition fifo (os : list report) (s : state) : Prop :=
  rev (b_calls s) ++ b_to_expand s ++ b_next s = starts ++ map br_vertex os /\
  (b_pc s = BWhile -> b_next s = []).

Lemma fifo_step pre s o s' : fifo pre s -> step s = Go o s' -> fifo (pre ++ o) s'.
Proof using Hrdi.
  unfold fifo, bfs_step. intros [HF HW] Hs.
  destruct (b_pc s) as [| |v [|[w l] rest]] eqn:Hpc.
  - destruct (b_to_expand s) as [|u q] eqn:Hte; inversion Hs; subst; clear Hs. simpl.
    rewrite app_nil_r, Hte. (split; [auto|try discriminate; auto]).
  - destruct (b_to_expand s) as [|u q] eqn:Hte.
    + rewrite Hrdi in Hs. inversion Hs; subst; clear Hs. simpl. rewrite !app_nil_r. simpl in HF. auto.
    + destruct (limit_check (b_limit s)); inversion Hs; subst; clear Hs. simpl.
      rewrite app_nil_r, <- !app_assoc. simpl. (split; [auto|try discriminate; auto]).
  - inversion Hs; subst; clear Hs. simpl. rewrite app_nil_r. (split; [auto|try discriminate; auto]).
  - destruct (_ && _); inversion Hs; subst; clear Hs; simpl.
    + rewrite app_nil_r. (split; [auto|try discriminate; auto]).
    + rewrite map_app, !app_assoc. simpl. rewrite <- !app_assoc in *. 
      rewrite (app_assoc starts), <- HF, <- !app_assoc. (split; [auto|try discriminate; auto]).
Qed.

Lemma bfs_fifo n os r : run step n init = (os, r) ->
  exists s, fifo os s /\ match r with
    | Running s' => s' = s
    | Ended s' => b_calls s' = b_calls s /\ b_to_expand s = [] /\ b_next s = []
    | Raised _ s' => s' = s
    end.
Proof using Hrdi.
  intros HR.
  assert (H0 : fifo [] init) by (split; simpl; auto).
  pose proof (run_inv_any step fifo fifo_step n [] init os r H0 HR) as H. simpl in H.
  destruct r as [s'|s'|x s'].
  - exists s'. auto.
  - destruct H as (os1 & o & s1 & -> & HF & Hs). exists s1.
    unfold bfs_step in Hs. destruct (b_pc s1) as [| |v [|[w l] rest]] eqn:Hpc.
    + destruct (b_to_expand s1) eqn:Hte; inversion Hs; subst. rewrite app_nil_r. split; auto.
      simpl. repeat split. now apply HF.
    + destruct (b_to_expand s1); [discriminate|]. destruct (limit_check (b_limit s1)); discriminate.
    + discriminate.
    + destruct (_ && _); discriminate.
  - destruct H as (os1 & o & s1 & -> & HF & Hs). exists s1.
    unfold bfs_step in Hs. destruct (b_pc s1) as [| |v [|[w l] rest]] eqn:Hpc.
    + destruct (b_to_expand s1) eqn:Hte; inversion Hs; subst.
    + destruct (b_to_expand s1); [discriminate|].
      destruct (limit_check (b_limit s1)); inversion Hs; subst. rewrite app_nil_r. auto.
    + discriminate.
    + destruct (_ && _); discriminate.
Qed.

(** The neighbor function is called for start vertices and reported vertices, in this order,
    each at most once. *)
Lemma bfs_expansions n os r : run step n init = (os, r) ->
  exists pending, rev (b_calls (outcome_state r)) ++ pending = starts ++ map br_vertex os /\
    (forall s', r = Ended s' -> pending = []).
Proof using Hrdi.
  intros HR. destruct (bfs_fifo n os r HR) as (s & [HF _] & Hr).
  destruct r as [s'|s'|x s']; simpl.
  - subst. eexists. split; [exact HF|]. discriminate.
  - destruct Hr as (-> & H1 & H2). rewrite H1, H2 in HF. exists []. auto.
  - subst. eexists. split; [exact HF|]. discriminate.
Qed.
End BFSMore.

From Verif Require Import PathsModel PathsSpec BFSProofs BFSLimit LimitSim.

Section Repackaged.
Context {V I L : Type}.
Variable V_dec : forall a b : V, {a = b} + {a <> b}.
Variable I_dec : forall a b : I, {a = b} + {a <> b}.
Variable vid : V -> I.
Variable VS : VSet I.
Variable PM : PMap I V.
Variable LM : PMap I L.
Variable next : V -> list (V * L).
Variable cfg : bfs_cfg.
Hypothesis Htree : bc_is_tree cfg = false.
Hypothesis Hrdi : bc_report_depth_increase cfg = false.
Variable E : I -> I -> Prop.
Hypothesis Hnext : presents vid next E.
Variable starts : list V.
Notation run_ := (bfs_run vid VS PM LM next cfg starts).
Notation St := (is_start vid starts).

Lemma bfs_av_reported av lim n os r : run_ av lim n = (os, r) ->
  NoDup (bfs_ids vid os) /\
  (forall rep, In rep os ->
     ~ St (vid (br_vertex rep)) /\ ~ in_already_visited VS av (vid (br_vertex rep)) /\
     reachable (avoiding E (in_already_visited VS av)) St (vid (br_vertex rep))) /\
  (forall v, In v (b_calls (outcome_state r)) ->
     St (vid v) \/ ~ in_already_visited VS av (vid v)) /\
  (forall s', r = Ended s' ->
     (forall i, reachable (avoiding E (in_already_visited VS av)) St i -> St i \/ In i (bfs_ids vid os)) /\
     (forall i, vs_mem VS i (b_visited s') = true <->
                in_already_visited VS av i \/ St i \/ In i (bfs_ids vid os))).
Proof.
  intros HR.
  destruct (bfs_reported I_dec vid VS PM LM next cfg Htree E Hnext starts av lim Hrdi n os r HR) as [H1 H2].
  split; [exact H1|]. split; [|split].
  - intros rep Hrep. destruct (H2 rep Hrep) as (Ha & Hb & k & _ & _ & ((s & p & Hs & Hw & _) & _)).
    split; [auto|split; [auto|]]. exists s, p. auto.
  - intros v Hv. destruct (bfs_expansions vid VS PM LM next cfg Hrdi starts av lim n os r HR) as (pend & Heq & _).
    apply in_rev in Hv. assert (Hin : In v (starts ++ map br_vertex os)).
    { rewrite <- Heq. apply in_or_app. now left. }
    apply in_app_or in Hin. destruct Hin as [Hin|Hin]; [left; now apply in_map|right].
    apply in_map_iff in Hin. destruct Hin as (rep & <- & Hrep). now apply H2.
  - intros s' ->. destruct (bfs_complete I_dec vid VS PM LM next cfg Htree E Hnext starts av lim Hrdi n os s' HR) as [H3 H4].
    split; [exact H3|]. intros i. rewrite H4. split.
    + intros [?|Hr]; auto.
    + intros [?|[Hs|Hi]]; auto; right.
      * now apply reachable_start.
      * apply in_map_iff in Hi. destruct Hi as (rep & <- & Hrep).
        destruct (H2 rep Hrep) as (Ha & Hb & k & _ & _ & ((s & p & Hs & Hw & _) & _)). exists s, p. auto.
Qed.

Lemma bfs_av_live av i : reachable (avoiding E (in_already_visited VS av)) St i -> ~ St i ->
  exists n, In i (bfs_ids vid (fst (run_ av None n))).
Proof.
  intros H1 H2.
  exact (bfs_live I_dec vid VS PM LM next cfg Htree E Hnext starts av None Hrdi eq_refl i H1 H2).
Qed.

Lemma bfs_av_terminates av l :
  (forall i, reachable (avoiding E (in_already_visited VS av)) St i -> In i l) ->
  exists n os s', run_ av None n = (os, Ended s').
Proof.
  exact (bfs_terminates I_dec vid VS PM LM next cfg Htree E Hnext starts av None Hrdi eq_refl l).
Qed.

Lemma bfs_none_reported lim n os r : run_ None lim n = (os, r) ->
  NoDup (bfs_ids vid os) /\
  (forall rep, In rep os -> ~ St (vid (br_vertex rep)) /\ reachable E St (vid (br_vertex rep))) /\
  (forall s', r = Ended s' ->
     (forall i, reachable E St i -> St i \/ In i (bfs_ids vid os)) /\
     (forall i, vs_mem VS i (b_visited s') = true <-> St i \/ In i (bfs_ids vid os))).
Proof.
  intros HR. destruct (bfs_av_reported None lim n os r HR) as (H1 & H2 & _ & H4).
  split; [exact H1|split].
  - intros rep Hrep. destruct (H2 rep Hrep) as (Ha & _ & Hb). split; auto.
    now apply (reachable_iff _ _ St (avoiding_none VS E)).
  - intros s' Hs'. destruct (H4 s' Hs') as [H5 H6]. split.
    + intros i Hi. apply H5. now apply (reachable_iff _ _ St (avoiding_none VS E)).
    + intros i. rewrite H6. simpl. tauto.
Qed.

Lemma bfs_none_live i : reachable E St i -> ~ St i ->
  exists n, In i (bfs_ids vid (fst (run_ None None n))).
Proof.
  intros H1 H2. apply bfs_av_live; auto. now apply (reachable_iff _ _ St (avoiding_none VS E)).
Qed.

Lemma bfs_none_terminates l : (forall i, reachable E St i -> In i l) ->
  exists n os s', run_ None None n = (os, Ended s').
Proof.
  intros Hl. apply (bfs_av_terminates None l). intros i Hi. apply Hl.
  now apply (reachable_iff _ _ St (avoiding_none VS E)).
Qed.

Lemma bfs_none_depth lim n os r : run_ None lim n = (os, r) ->
  (forall rep, In rep os -> exists k, br_depth rep = Z.of_nat k /\
     min_depth E St (vid (br_vertex rep)) k) /\
  StronglySorted (fun a b => br_depth a <= br_depth b)%Z os /\
  (forall s', r = Ended s' ->
     match rev os with
     | last :: _ => b_depth s' = br_depth last
     | [] => starts <> [] -> b_depth s' = 0%Z
     end).
Proof.
  intros HR. split; [|split].
  - intros rep Hrep.
    destruct (bfs_reported I_dec vid VS PM LM next cfg Htree E Hnext starts None lim Hrdi n os r HR) as [_ H2].
    destruct (H2 rep Hrep) as (_ & _ & k & Hk & _ & Hm). exists k. split; auto.
    now apply (min_depth_iff _ _ St (avoiding_none VS E)).
  - exact (bfs_sorted I_dec vid VS PM LM next cfg Htree E Hnext starts None lim Hrdi n os r HR).
  - intros s' ->.
    pose proof (bfs_final_depth I_dec vid VS PM LM next cfg Htree E Hnext starts None lim Hrdi n os s' HR) as Hd.
    rewrite Hd. destruct (rev os); auto. intros Hs. destruct starts; congruence.
Qed.

Lemma bfs_none_paths lim n os r : run_ None lim n = (os, r) ->
  bc_build_paths cfg = true -> starts_distinct vid starts ->
  (forall rep, In rep os ->
   exists l, path_list (next_edge next) (fun u => In u starts) l (br_vertex rep) /\
     Z.of_nat (length l) = (br_depth rep + 1)%Z /\
     delivers V_dec vid PM LM (br_pred rep) (br_labels rep) (bc_labeled cfg) (next_label next) (br_vertex rep) l /\
     delivers V_dec vid PM LM (b_pred (outcome_state r)) (b_labels (outcome_state r)) (bc_labeled cfg)
              (next_label next) (br_vertex rep) l) /\
  (forall v, In v starts ->
     delivers V_dec vid PM LM (b_pred (outcome_state r)) (b_labels (outcome_state r)) (bc_labeled cfg)
              (next_label next) v [v]) /\
  (forall v, paths_contains vid PM (b_pred (outcome_state r)) v = true <->
             St (vid v) \/ In (vid v) (bfs_ids vid os)).
Proof.
  intros HR Hb Hd. split; [|split].
  - intros rep Hrep.
    destruct (bfs_paths V_dec I_dec vid VS PM LM next cfg Htree E Hnext starts None lim Hrdi n os r HR Hb Hd rep Hrep)
      as (l & H1 & H2 & H3 & H4).
    exists l. split; [|split; [exact H2|split; [exact H3|exact H4]]].
    apply (path_list_iff (EV_open vid VS next None)); auto.
    intros a b. unfold EV_open, next_edge. simpl. tauto.
  - exact (bfs_paths_start V_dec I_dec vid VS PM LM next cfg Htree E Hnext starts None lim Hrdi n os r HR Hb Hd).
  - exact (bfs_paths_contains I_dec vid VS PM LM next cfg Htree E Hnext starts None lim Hrdi n os r HR Hb).
Qed.
End Repackaged.

Section LimitRepackaged.
Context {V I L : Type}.
Variable vid : V -> I.
Variable VS : VSet I.
Variable PM : PMap I V.
Variable LM : PMap I L.
Variable next : V -> list (V * L).
Variable cfg : bfs_cfg.
Variable starts : list V.
Notation run_ := (bfs_run vid VS PM LM next cfg starts).

Lemma bfs_limit_all av c n os r os' r' : (0 <= c)%Z ->
  run_ av None n = (os, r) -> run_ av (Some c) n = (os', r') ->
  (Z.of_nat (length (b_calls (outcome_state r'))) <= c)%Z /\
  ((Z.of_nat (length (b_calls (outcome_state r))) <= c)%Z ->
     os' = os /\ outcome_map (bfs_forget_limit VS PM LM) r' = r) /\
  ((c < Z.of_nat (length (b_calls (outcome_state r))))%Z ->
     (exists s', r' = Raised RuntimeErrorLimit s') /\
     Z.of_nat (length (b_calls (outcome_state r'))) = c /\ exists ext, os = os' ++ ext).
Proof.
  intros Hc HR HR'. destruct (bfs_limit vid VS PM LM next cfg starts av c n os r Hc HR) as [H1 H2].
  unfold bfs_run in HR'. split; [|split].
  - destruct (Z_le_gt_dec (Z.of_nat (length (b_calls (outcome_state r)))) c) as [Hle|Hgt].
    + destruct (H1 Hle) as (r2 & Hr2 & Hm). rewrite HR' in Hr2. injection Hr2 as -> ->.
      replace (b_calls (outcome_state r2)) with (b_calls (outcome_state r)); auto.
      rewrite <- Hm. now destruct r2.
    + destruct (H2 ltac:(lia)) as (os1 & ext & s' & -> & Hr2 & Hm). rewrite HR' in Hr2.
      injection Hr2 as -> ->. simpl. lia.
  - intros Hle. destruct (H1 Hle) as (r2 & Hr2 & Hm). rewrite HR' in Hr2. injection Hr2 as -> ->. auto.
  - intros Hgt. destruct (H2 Hgt) as (os1 & ext & s' & -> & Hr2 & Hm). rewrite HR' in Hr2.
    injection Hr2 as -> ->. simpl. eauto.
Qed.
End LimitRepackaged.

From Verif Require Import GoModel GoProofs.

Section RangeRepackaged.
Context {V I L : Type}.
Variable I_dec : forall a b : I, {a = b} + {a <> b}.
Variable vid : V -> I.
Variable VS : VSet I.
Variable PM : PMap I V.
Variable LM : PMap I L.
Variable next : V -> list (V * L).
Variable cfg : bfs_cfg.
Hypothesis Htree : bc_is_tree cfg = false.
Hypothesis Hrdi : bc_report_depth_increase cfg = false.
Variable E : I -> I -> Prop.
Hypothesis Hnext : presents vid next E.
Variable starts : list V.

Lemma sorted_skipn {A} (R : A -> A -> Prop) k : forall l, StronglySorted R l -> StronglySorted R (skipn k l).
Proof.
  induction k as [|k IH]; simpl; auto. intros [|a l] H; auto. inversion H; subst. auto.
Qed.

Lemma sorted_map {A K} (f : A -> K) (R : K -> K -> Prop) l :
  StronglySorted (fun a b => R (f a) (f b)) l -> StronglySorted R (map f l).
Proof.
  induction 1; simpl; constructor; auto. apply Forall_forall. intros y Hy.
  apply in_map_iff in Hy. destruct Hy as (x & <- & Hx). rewrite Forall_forall in H0. auto.
Qed.

Lemma bfs_depth_range lim n os r : bfs_run vid VS PM LM next cfg starts None lim n = (os, r) ->
  forall (k : nat) (start stop : Z) e,
  let l := skipn k os in
  let in_range := filter (fun rep => (start <=? br_depth rep)%Z && (br_depth rep <? stop)%Z) l in
  let res := go_for_range (fun rep => (start <=? br_depth rep)%Z)
                          (fun rep => (br_depth rep <? stop)%Z) l e in
  fst res = in_range /\
  (forall rest, snd res = Stopped rest -> exists below lost,
      l = below ++ in_range ++ lost ++ rest /\
      (forall rep, In rep below -> (br_depth rep < start)%Z) /\
      (forall rep, In rep (lost ++ rest) -> (stop <= br_depth rep)%Z) /\
      1 <= length lost <= 2 /\ (in_range <> [] -> length lost = 1)).
Proof.
  intros HR k start stop e l ir res.
  destruct (bfs_none_depth I_dec vid VS PM LM next cfg Htree Hrdi E Hnext starts lim n os r HR) as (_ & HS & _).
  destruct (go_for_range_spec br_depth Z.le Z.le_trans start stop
    (fun rep => (start <=? br_depth rep)%Z) (fun rep => (br_depth rep <? stop)%Z)
    (fun o => Z.leb_le start (br_depth o)) (fun o => Z.ltb_ge (br_depth o) stop) e l) as [H1 H2].
  { apply sorted_map. now apply sorted_skipn. }
  split; [exact H1|]. intros rest Hrest. fold res in H2. rewrite Hrest in H2.
  destruct H2 as (below & lost & Ha & Hb & Hc & Hd & He). exists below, lost.
  split; [exact Ha|]. split; [|split; [|split; [exact Hd|exact He]]].
  - intros rep Hin. specialize (Hb rep Hin). cbv beta in Hb. lia.
  - intros rep Hin. specialize (Hc rep Hin). cbv beta in Hc. lia.
Qed.
End RangeRepackaged.
