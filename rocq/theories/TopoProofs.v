(** Proofs about the model of topological sort (without is_tree). *)
From Coq Require Import List ZArith Bool Lia Arith Permutation.
From Verif Require Import Machine MachineMore GearSpec Spec TraversalSpec Common CommonProofs PathsModel PathsSpec PathsProofs
  BFSProofs Forest TopoModel TopoSpec.
Import ListNotations.

Section TopoProofs.
Context {V I L : Type}.
Variable V_dec : forall a b : V, {a = b} + {a <> b}.
Variable I_dec : forall a b : I, {a = b} + {a <> b}.
Variable vid : V -> I.
Variable VS : VSet I.
Variable PM : PMap I V.
Variable LM : PMap I L.
Variable next : V -> list (V * L).
Variable cfg : topo_cfg.
Hypothesis Htree : tc_is_tree cfg = false.
Variable E : I -> I -> Prop.
Hypothesis Hnext : presents vid next E.
Variable starts : list V.
Hypothesis Hstarts : NoDup (map vid starts).
Variable av : option (vs_t VS).

Notation state := (@topo_state V I L VS PM LM).
Notation report := (@topo_report V I L VS PM LM).
Notation step := (topo_step vid VS PM LM next cfg).
Notation init := (topo_init vid VS PM LM cfg starts av).
Notation pre_ := (in_already_visited VS av).
Notation Eo := (avoiding E pre_).
Notation St := (is_start vid starts).
Notation found := (found vid starts).
Notation known := (known starts).
Notation forest := (Forest vid VS PM LM next E (tc_build_paths cfg) (tc_labeled cfg) pre_ starts).

(** A vertex of the trace, with the edges to its neighbors on the stack, topmost first. Innermost frame first. *)
Notation frame := (list (V * L) * V)%type.
Fixpoint stk (fr : list frame) (base : list V) : list V :=
  match fr with [] => base | (pend, u) :: r => map fst pend ++ u :: stk r base end.
Definition trace (fr : list frame) : list V := map snd fr.
Fixpoint flat (fr : list frame) : list (V * (V * L)) :=
  match fr with [] => [] | (pend, u) :: r => map (pair u) pend ++ flat r end.
Fixpoint root_of (fr : list frame) : option V :=
  match fr with [] => None | [(_, u)] => Some u | _ :: r => root_of r end.

Fixpoint frames_ok (F : list (V * nat)) (fr : list frame) : Prop :=
  match fr with
  | [] => True
  | (pend, u) :: r =>
      frames_ok F r /\ known F u (length r) /\ (r = [] -> In u starts) /\ (r <> [] -> ~ St (vid u)) /\
      (forall p' u' r', r = (p', u') :: r' -> next_edge next u' u) /\
      (forall e, In e pend -> In e (next u) /\ ~ pre_ (vid (fst e)) /\ ~ St (vid (fst e)) /\ ~ In (vid (fst e)) (map vid (u :: trace r)))
  end.

Definition covered (rt : V) (acc : list V) (pend : list (V * L)) (i : I) : Prop :=
  pre_ i \/ (St i /\ i <> vid rt) \/ In i (map vid acc) \/ In i (map (fun e => vid (fst e)) pend).

Fixpoint frames_closed (rt : V) (acc : list V) (rest : list (V * L)) (fr : list frame) : Prop :=
  match fr with
  | [] => True
  | (pend, u) :: r => (forall e, In e (next u) -> covered rt acc pend (vid (fst e)) \/ In e rest) /\ frames_closed rt (u :: acc) [] r
  end.

Record TInv (done : list V) (fr : list frame) (base : list V) (rest : list (V * L)) (F : list (V * nat)) (s : state) : Prop := {
  ti_stack : t_stack s = stk fr base;
  ti_used : exists used, rev starts = used ++ base /\ (forall v, In v used -> In v (done ++ trace fr)) /\
            (forall v, In v (done ++ trace fr) -> In v used \/ ~ St (vid v));
  ti_forest : forest F (t_visited s) (t_pred s) (t_labels s);
  ti_set : forall i, vs_mem VS i (t_trace_set s) = true <-> In i (map vid (trace fr));
  ti_nodup : NoDup (map vid (done ++ trace fr));
  ti_F : forall i, In i (map (fid vid) F) -> In i (map vid (done ++ trace fr));
  ti_known : forall v, In v (done ++ trace fr) -> exists k, known F v k;
  ti_frames : frames_ok F fr;
  ti_closed : forall rt, root_of fr = Some rt -> frames_closed rt done rest fr;
  ti_walk : forall rt u, root_of fr = Some rt -> In u (trace fr) -> exists p, walk Eo (vid rt) p (vid u);
  ti_order : forall d1 u d2, done = d1 ++ u :: d2 -> exists rt p, In rt starts /\ walk Eo (vid rt) p (vid u) /\
             forall e, In e (next u) -> covered rt d1 [] (vid (fst e));
  ti_pend : tc_build_paths cfg = true -> forall f1 u v l f2, flat fr = f1 ++ (u, (v, l)) :: f2 -> vs_mem VS (vid v) (t_visited s) = false ->
            ~ In (vid v) (map (fun x => vid (fst (snd x))) f1) ->
            pm_get PM (vid v) (t_pred s) = Some u /\ (tc_labeled cfg = true -> pm_get LM (vid v) (t_labels s) = Some l);
  ti_dom : tc_build_paths cfg = true -> forall i, pm_get PM i (t_pred s) <> None -> found F i \/ In i (map (fun x => vid (fst (snd x))) (flat fr));
  ti_pc : match t_pc s with
          | TWhile => rest = [] /\ t_depth s = Z.of_nat (length fr)
          | TEdges v r => r = rest /\ incl rest (next v) /\ exists pend fr', fr = (pend, v) :: fr' /\ t_depth s = Z.of_nat (length fr')
          end;
  ti_calls : Permutation (map fst (t_calls s)) (done ++ trace fr) /\
             forall v d, In (v, d) (t_calls s) -> exists k, known F v k /\ d = Z.of_nat k
}.

Lemma starts_inj : starts_distinct vid starts.
Proof.
  intros a b Ha Hb Hab. revert Ha Hb. clear - Hstarts Hab. induction starts as [|x l IH]; simpl; [tauto|]. inversion Hstarts; subst.
  intros [->|Ha] [->|Hb]; auto.
  - exfalso. apply H1. rewrite Hab. now apply in_map.
  - exfalso. apply H1. rewrite <- Hab. now apply in_map.
Qed.

Lemma rev_starts_nodup : NoDup (map vid (rev starts)).
Proof. rewrite map_rev. apply NoDup_rev. auto. Qed.

Lemma root_of_cons e e' r : root_of (e :: e' :: r) = root_of (e' :: r).
Proof. destruct e. reflexivity. Qed.
Lemma root_of_some e r : exists rt, root_of (e :: r) = Some rt.
Proof. revert e. induction r as [|e' r IH]; intros [p u]; [simpl; eauto|]. rewrite root_of_cons. apply IH. Qed.
Lemma root_of_in fr rt : root_of fr = Some rt -> In rt (trace fr).
Proof.
  induction fr as [|[p u] [|e r] IH]; simpl; intros H; [discriminate| |].
  - injection H as ->. auto.
  - right. apply IH. exact H.
Qed.
Lemma root_start F fr rt : frames_ok F fr -> root_of fr = Some rt -> In rt starts.
Proof.
  induction fr as [|[p u] r IH]; [discriminate|]. intros (H1 & _ & H3 & _) H. destruct r as [|e r].
  - injection H as ->. auto.
  - rewrite root_of_cons in H. auto.
Qed.

Lemma frames_ok_app F G fr : frames_ok F fr -> frames_ok (F ++ G) fr.
Proof.
  induction fr as [|[p u] r IH]; simpl; auto. intros (H1 & H2 & H3). split; auto. split; [now apply known_app|auto].
Qed.

Lemma covered_mono rt acc acc' pend i : (forall j, In j (map vid acc) -> In j (map vid acc')) -> covered rt acc pend i -> covered rt acc' pend i.
Proof. unfold covered. firstorder. Qed.

Lemma frames_closed_mono rt rest fr : forall acc acc', (forall j, In j (map vid acc) -> In j (map vid acc')) ->
  frames_closed rt acc rest fr -> frames_closed rt acc' rest fr.
Proof.
  revert rest. induction fr as [|[p u] r IH]; simpl; auto. intros rest acc acc' Hm (H1 & H2). split.
  - intros e He. destruct (H1 e He); auto. left. eapply covered_mono; eauto.
  - eapply IH; [|exact H2]. simpl. intros j [->|Hj]; auto.
Qed.

Lemma start_in v : In v starts -> St (vid v).
Proof. apply in_map. Qed.

Lemma TInv_init lim : TInv [] [] (rev starts) [] [] (init lim).
Proof.
  constructor; simpl; auto; try discriminate; try contradiction.
  - exists []. simpl. auto.
  - apply Forest_init; auto. intros i. rewrite Htree, define_visited_mem. unfold root, in_already_visited. tauto.
  - intros i. split; [|contradiction]. intros H. rewrite vs_mem_empty in H. discriminate.
  - constructor.
  - intros d1 u d2 H. destruct d1; discriminate.
  - intros _ f1 u v l f2 H. destruct f1; discriminate.
  - intros Hb i Hi. left. left. unfold root. destruct (in_dec I_dec i (map vid starts)); auto. exfalso. apply Hi.
    apply create_predecessors_other. auto.
  - split; [constructor|contradiction].
Qed.

Lemma visited_iff done fr base rest F s i : TInv done fr base rest F s ->
  (vs_mem VS i (t_visited s) = true <-> pre_ i \/ St i \/ In i (map vid (done ++ trace fr))).
Proof.
  intros HI. rewrite (f_vis _ _ _ _ _ _ _ _ _ _ _ _ _ _ (ti_forest _ _ _ _ _ _ HI)). unfold Forest.found, root. split.
  - intros [H|[H|H]]; auto. right. right. now apply (ti_F _ _ _ _ _ _ HI).
  - intros [H|[H|H]]; auto. right. apply in_map_iff in H. destruct H as (v & <- & Hv). destruct (ti_known _ _ _ _ _ _ HI v Hv) as (k & Hk).
    apply known_found with (vid := vid) in Hk. exact Hk.
Qed.

(** Leaving the top vertex of the trace. *)
Lemma leave_inv done u fr base F s : TInv done (([], u) :: fr) base [] F s -> t_pc s = TWhile ->
  TInv (done ++ [u]) fr base [] F (topo_left VS PM LM s (stk fr base) (t_markers s) (vs_discard VS (vid u) (t_trace_set s))).
Proof.
  intros HI Hpc. pose proof HI as [H1 H2 H3 H4 H5 H6 H7 H8 H9 H10 H11 H12 H13 H14 H15].
  assert (Hperm : Permutation (done ++ trace (([], u) :: fr)) ((done ++ [u]) ++ trace fr)) by (rewrite <- app_assoc; reflexivity).
  assert (Hin : forall v, In v ((done ++ [u]) ++ trace fr) <-> In v (done ++ trace (([], u) :: fr))).
  { intros v. split; apply Permutation_in; [symmetry|]; exact Hperm. }
  assert (Hin' : forall i, In i (map vid ((done ++ [u]) ++ trace fr)) <-> In i (map vid (done ++ trace (([], u) :: fr)))).
  { intros i. rewrite !in_map_iff. setoid_rewrite Hin. tauto. }
  destruct (root_of_some ([], u) fr) as (rt & Hrt). pose proof (H9 rt Hrt) as Hc.
  constructor; simpl; auto.
  - destruct H2 as (used & U1 & U2 & U3). exists used. split; auto. split; intros v Hv.
    + apply Hin. auto.
    + apply U3. now apply Hin.
  - intros i. rewrite vs_mem_discard, H4. simpl. rewrite map_app in H5. simpl in H5. apply NoDup_remove_2 in H5.
    split; [intuition congruence|]. intros Hi. split; auto. intros ->. apply H5. apply in_or_app. auto.
  - now rewrite <- app_assoc.
  - intros i Hi. apply Hin'. auto.
  - intros v Hv. apply H7. now apply Hin.
  - apply H8.
  - intros rt' Hrt'. assert (rt' = rt). { destruct fr as [|e r]; [discriminate|]. rewrite root_of_cons in Hrt. congruence. } subst rt'.
    eapply frames_closed_mono; [|apply Hc]. intros j Hj. rewrite map_app, in_app_iff. simpl in *. tauto.
  - intros rt' w Hrt' Hw. apply (H10 rt' w); [|now right]. destruct fr as [|e r]; [discriminate|]. now rewrite root_of_cons.
  - intros d1 w d2 Hd. destruct d2 as [|x d2 _] using rev_ind.
    + apply app_inj_tail in Hd. destruct Hd as (<- & <-). destruct (H10 rt u Hrt (or_introl eq_refl)) as (p & Hp).
      exists rt, p. split; [now apply (root_start F (([], u) :: fr))|]. split; auto.
      intros e He. destruct (proj1 Hc e He) as [H|[]]. exact H.
    + change (w :: d2 ++ [x]) with ((w :: d2) ++ [x]) in Hd. rewrite app_assoc in Hd. apply app_inj_tail in Hd. destruct Hd as (-> & _).
      eapply H11. reflexivity.
  - rewrite Hpc in H14. destruct H14 as (_ & H14). simpl in H14. split; auto. lia.
  - rewrite <- app_assoc. exact H15.
Qed.

(** Dropping a visited vertex. *)
Lemma drop_inv done v l pend u fr base F s : TInv done (((v, l) :: pend, u) :: fr) base [] F s -> t_pc s = TWhile -> vs_mem VS (vid v) (t_visited s) = true ->
  TInv done ((pend, u) :: fr) base [] F (topo_drop VS PM LM s (map fst pend ++ u :: stk fr base)).
Proof.
  intros HI Hpc Hv. pose proof HI as [H1 H2 H3 H4 H5 H6 H7 H8 H9 H10 H11 H12 H13 H14 H15].
  assert (Hd : In (vid v) (map vid done)).
  { apply (visited_iff _ _ _ _ _ _ _ HI) in Hv. destruct H8 as (_ & _ & _ & _ & _ & K). destruct (K (v, l) (or_introl eq_refl)) as (_ & K2 & K3 & K4).
    simpl in *. destruct Hv as [Hv|[Hv|Hv]]; try tauto. rewrite map_app, in_app_iff in Hv. simpl in Hv. tauto. }
  assert (Hroot : root_of ((pend, u) :: fr) = root_of (((v, l) :: pend, u) :: fr)) by (destruct fr; reflexivity).
  constructor; simpl; auto.
  - destruct H8 as (K1 & K2 & K3 & K3' & K4 & K5). repeat (split; auto).
    all: intros; apply K5; now right.
  - intros rt Hrt. pose proof (H9 rt) as Hc. rewrite <- Hroot in Hc. specialize (Hc Hrt). destruct Hc as (C1 & C2). split; auto.
    intros e He. left. destruct (C1 e He) as [[C|[C|[C|C]]]|[]]; unfold covered; auto. simpl in C. destruct C as [C|C]; auto.
    right. right. left. now rewrite <- C.
  - intros Hb f1 u0 v0 l0 f2 Hf Hv0 Hn. apply (H12 Hb ((u, (v, l)) :: f1) u0 v0 l0 f2); auto.
    + simpl. now rewrite Hf.
    + simpl. intros [K|K]; auto. congruence.
  - intros Hb i Hi. destruct (H13 Hb i Hi) as [K|K]; auto. simpl in K. destruct K as [K|K]; auto. left.
    rewrite <- K. apply (f_vis _ _ _ _ _ _ _ _ _ _ _ _ _ _ H3) in Hv. destruct Hv as [Hv|Hv]; auto. exfalso.
    destruct H8 as (_ & _ & _ & _ & _ & K'). destruct (K' (v, l) (or_introl eq_refl)) as (_ & K2 & _). auto.
  - rewrite Hpc in H14. exact H14.
Qed.

(** Entering a neighbor of the top vertex of the trace. *)
Lemma enter_inv done v l pend u fr base F s lim : TInv done (((v, l) :: pend, u) :: fr) base [] F s -> t_pc s = TWhile -> vs_mem VS (vid v) (t_visited s) = false ->
  TInv done (([], v) :: (pend, u) :: fr) base (next v) (F ++ [(v, S (length fr))]) (topo_expand VS PM LM next (topo_enter vid VS PM LM s v) v lim).
Proof.
  intros HI Hpc Hv. pose proof HI as [H1 H2 H3 H4 H5 H6 H7 H8 H9 H10 H11 H12 H13 H14 H15].
  assert (Hnv : ~ (pre_ (vid v) \/ St (vid v) \/ In (vid v) (map vid (done ++ trace (((v, l) :: pend, u) :: fr))))).
  { rewrite <- (visited_iff _ _ _ _ _ _ _ HI). congruence. }
  rewrite Hpc in H14. destruct H14 as (_ & H14). simpl in H14.
  assert (Hd : (0 <? t_depth s)%Z = true) by (apply Z.ltb_lt; lia).
  assert (Hp : Permutation (done ++ v :: u :: trace fr) (v :: done ++ u :: trace fr)) by (symmetry; apply Permutation_middle).
  assert (Hin : forall w, In w (done ++ v :: u :: trace fr) <-> w = v \/ In w (done ++ u :: trace fr)).
  { intros w. rewrite !in_app_iff. simpl. intuition. }
  assert (Hin' : forall i, In i (map vid (done ++ v :: u :: trace fr)) <-> i = vid v \/ In i (map vid (done ++ u :: trace fr))).
  { intros i. rewrite !map_app, !in_app_iff. simpl. intuition. }
  destruct H8 as (K1 & K2 & K3 & K3' & K4 & K5). destruct (K5 (v, l) (or_introl eq_refl)) as (Q1 & Q2 & Q3 & Q4). simpl in Q1, Q2, Q3, Q4.
  assert (Hroot : root_of (([], v) :: (pend, u) :: fr) = root_of (((v, l) :: pend, u) :: fr)) by (destruct fr; reflexivity).
  constructor; simpl; auto.
  - destruct H2 as (used & U1 & U2 & U3). exists used. split; auto. split; intros w Hw.
    + apply Hin. auto.
    + apply Hin in Hw. destruct Hw as [->|Hw]; auto.
  - rewrite Hd. apply Forest_add with (v := u) (l := l); auto.
    + intros Hb. apply (H12 Hb [] u v l (map (pair u) pend ++ flat fr)); auto.
    + intros Hb Hl. apply (H12 Hb [] u v l (map (pair u) pend ++ flat fr)); auto.
  - intros i. rewrite vs_mem_add, H4. simpl. intuition.
  - change (NoDup (map vid (done ++ v :: u :: trace fr))). eapply Permutation_NoDup; [symmetry; apply Permutation_map, Hp|].
    simpl. constructor; auto.
  - intros i. rewrite map_app, in_app_iff. intros [Hi|[<-|[]]]; apply Hin'; auto.
  - intros w Hw. apply Hin in Hw. destruct Hw as [->|Hw].
    + exists (S (length fr)). right. apply in_or_app. right. now left.
    + destruct (H7 w Hw) as (k & Hk). exists k. now apply known_app.
  - split; [|split; [|split; [|split; [|split]]]].
    + split; [now apply frames_ok_app|]. split; [now apply known_app|]. do 3 (split; auto). intros e He. apply K5. now right.
    + right. apply in_or_app. right. now left.
    + discriminate.
    + auto.
    + intros p' u' r' Hr. injection Hr as <- <- <-. apply in_map_iff. exists (v, l). auto.
    + contradiction.
  - intros rt Hrt. pose proof (H9 rt) as Hc. rewrite <- Hroot in Hc. specialize (Hc Hrt). destruct Hc as (C1 & C2). split; [auto|]. split.
    + intros e He. left. destruct (C1 e He) as [[C|[C|[C|C]]]|[]]; unfold covered; simpl; auto. simpl in C. destruct C as [C|C]; auto.
    + eapply frames_closed_mono; [|exact C2]. simpl. tauto.
  - intros rt w Hrt [<-|Hw]; [|apply (H10 rt w); auto; now rewrite <- Hroot].
    destruct (H10 rt u) as (p & Hpw); [now rewrite <- Hroot|now left|]. exists (p ++ [vid v]). apply walk_snoc with (vid u); auto.
    split; auto. apply Hnext. apply in_map_iff. exists (v, l). auto.
  - intros Hb f1 u0 v0 l0 f2 Hf Hv0 Hn. rewrite Hd in Hv0. apply (H12 Hb ((u, (v, l)) :: f1) u0 v0 l0 f2); auto.
    + simpl. now rewrite Hf.
    + apply vs_mem_false_iff. apply vs_mem_false_iff in Hv0. rewrite vs_mem_add in Hv0. tauto.
    + simpl. intros [C|C]; auto. apply vs_mem_false_iff in Hv0. apply Hv0. apply vs_mem_add. auto.
  - intros Hb i Hi. destruct (H13 Hb i Hi) as [C|C].
    + left. unfold Forest.found in *. rewrite map_app, in_app_iff. tauto.
    + simpl in C. destruct C as [C|C]; auto. left. right. rewrite map_app, in_app_iff. right. left. exact C.
  - split; auto. split; [apply incl_refl|]. exists [], ((pend, u) :: fr). split; auto.
  - destruct H15 as (P1 & P2). split.
    + simpl. rewrite Hp. constructor. exact P1.
    + intros w d [C|C].
      * injection C as <- <-. exists (S (length fr)). split; [right; apply in_or_app; right; now left|]. rewrite H14. simpl. lia.
      * destruct (P2 w d C) as (k & Hk & ->). exists k. split; auto. now apply known_app.
Qed.

(** Entering a start vertex. *)
Lemma enter_start_inv done v base F s lim : TInv done [] (v :: base) [] F s -> t_pc s = TWhile ->
  TInv done [([], v)] base (next v) F (topo_expand VS PM LM next (topo_enter vid VS PM LM s v) v lim).
Proof.
  intros HI Hpc. pose proof HI as [H1 H2 H3 H4 H5 H6 H7 H8 H9 H10 H11 H12 H13 H14 H15].
  rewrite Hpc in H14. destruct H14 as (_ & H14). simpl in H14.
  assert (Hd : (0 <? t_depth s)%Z = false) by (apply Z.ltb_ge; lia).
  simpl in *. rewrite app_nil_r in *.
  destruct H2 as (used & U1 & U2 & U3).
  assert (Hvs : In v starts). { apply in_rev. rewrite U1. apply in_or_app. right. now left. }
  assert (Hnd : ~ In (vid v) (map vid done)).
  { intros C. apply in_map_iff in C. destruct C as (w & C1 & C2). destruct (U3 w C2) as [Hw|Hw].
    - pose proof rev_starts_nodup as N. rewrite U1, map_app in N. simpl in N. apply NoDup_remove_2 in N. apply N. apply in_or_app. left.
      rewrite <- C1. now apply in_map.
    - apply Hw. rewrite C1. now apply start_in. }
  assert (Hin : forall w, In w (done ++ [v]) <-> In w done \/ w = v).
  { intros w. rewrite in_app_iff. simpl. intuition. }
  constructor; simpl; auto.
  - exists (used ++ [v]). rewrite <- app_assoc. split; auto. split; intros w Hw.
    + apply Hin. apply in_app_or in Hw. destruct Hw as [Hw|[<-|[]]]; auto.
    + apply Hin in Hw. destruct Hw as [Hw| ->]; [|left; apply in_or_app; right; now left]. destruct (U3 w Hw); auto. left. apply in_or_app. auto.
  - rewrite Hd. exact H3.
  - intros i. rewrite vs_mem_add, H4. simpl. intuition.
  - rewrite map_app. simpl. apply NoDup_snoc; auto.
  - intros i Hi. rewrite map_app, in_app_iff. left. auto.
  - intros w Hw. apply Hin in Hw. destruct Hw as [Hw| ->]; auto. exists 0. left. auto.
  - repeat split; auto; try contradiction; try discriminate. left. auto.
  - intros rt w Hrt [<-|[]]. injection Hrt as <-. exists []. constructor.
  - intros _ f1 u v0 l0 f2 Hf. destruct f1; discriminate.
  - split; auto. split; [apply incl_refl|]. exists [], []. auto.
  - destruct H15 as (P1 & P2). split.
    + rewrite <- Permutation_cons_append. constructor. auto.
    + intros w d [C|C]; auto. injection C as <- <-. exists 0. split; [left; auto|]. lia.
Qed.

(** Ignoring an edge. *)
Lemma skip_inv done v n l rest pend fr base F s : TInv done ((pend, v) :: fr) base ((n, l) :: rest) F s -> t_pc s = TEdges v ((n, l) :: rest) ->
  vs_mem VS (vid n) (t_visited s) = true -> vs_mem VS (vid n) (t_trace_set s) = false ->
  TInv done ((pend, v) :: fr) base rest F (topo_skip VS PM LM s v rest).
Proof.
  intros HI Hpc Hv Ht. pose proof HI as [H1 H2 H3 H4 H5 H6 H7 H8 H9 H10 H11 H12 H13 H14 H15].
  rewrite Hpc in H14. destruct H14 as (_ & H14 & pend' & fr' & Hfr & Hdep). injection Hfr as <- <-.
  constructor; auto.
  - intros rt Hrt. pose proof (H9 rt Hrt) as (C1 & C2). split; auto. intros e He. destruct (C1 e He) as [C|[<-|C]]; auto. left.
    simpl. apply (visited_iff _ _ _ _ _ _ _ HI) in Hv. apply vs_mem_false_iff in Ht. rewrite H4 in Ht. destruct Hv as [Hv|[Hv|Hv]].
    + now left.
    + right. left. split; auto. intros C. apply Ht. rewrite C. apply in_map. now apply root_of_in.
    + rewrite map_app, in_app_iff in Hv. right. right. left. tauto.
  - simpl. split; auto. split; [intros e He; apply H14; now right|]. exists pend, fr. auto.
Qed.

(** Putting a neighbor on the stack. *)
Lemma push_inv done v n l rest pend fr base F s : TInv done ((pend, v) :: fr) base ((n, l) :: rest) F s -> t_pc s = TEdges v ((n, l) :: rest) ->
  vs_mem VS (vid n) (t_visited s) = false ->
  TInv done (((n, l) :: pend, v) :: fr) base rest F (topo_push vid VS PM LM cfg s v n l rest).
Proof.
  intros HI Hpc Hv. pose proof HI as [H1 H2 H3 H4 H5 H6 H7 H8 H9 H10 H11 H12 H13 H14 H15].
  assert (Hnv : ~ (pre_ (vid n) \/ St (vid n) \/ In (vid n) (map vid (done ++ trace ((pend, v) :: fr))))).
  { rewrite <- (visited_iff _ _ _ _ _ _ _ HI). congruence. }
  rewrite Hpc in H14. destruct H14 as (_ & H14 & pend' & fr' & Hfr & Hdep). injection Hfr as <- <-.
  assert (Hroot : root_of (((n, l) :: pend, v) :: fr) = root_of ((pend, v) :: fr)) by (destruct fr; reflexivity).
  assert (Hnf : ~ found F (vid n)).
  { intros C. apply Hnv. destruct C as [C|C]; [auto|]. right. right. auto. }
  constructor; auto.
  - simpl. rewrite H1. reflexivity.
  - simpl. apply Forest_ext with (t_pred s) (t_labels s); auto. intros i Hi. assert (i <> vid n) by congruence. split.
    + destruct (tc_build_paths cfg); auto. now rewrite pm_get_set_other.
    + destruct (tc_build_paths cfg && tc_labeled cfg); auto. now rewrite pm_get_set_other.
  - simpl in H8 |- *. destruct H8 as (K1 & K2 & K3 & K3' & K4 & K5). repeat (split; auto); destruct H as [<-|He]; try (apply K5; auto; fail); simpl; auto.
    + apply H14. now left.
    + intros C. apply Hnv. right. right. rewrite map_app, in_app_iff. right. exact C.
  - rewrite Hroot. intros rt Hrt. pose proof (H9 rt Hrt) as (C1 & C2). split; auto. intros e He. destruct (C1 e He) as [C|[<-|C]]; auto.
    + left. destruct C as [C|[C|[C|C]]]; unfold covered; simpl; auto.
    + left. right. right. right. now left.
  - simpl. intros Hb f1 u0 v0 l0 f2 Hf Hv0 Hn. rewrite Hb. simpl. destruct f1 as [|x f1].
    + injection Hf as <- <- <- <-. rewrite pm_get_set_same. split; auto. intros Hl. rewrite Hl. apply pm_get_set_same.
    + injection Hf as <- Hf. simpl in Hn. assert (vid v0 <> vid n) by intuition. rewrite pm_get_set_other by auto.
      destruct (H12 Hb f1 u0 v0 l0 f2 Hf Hv0) as (Q1 & Q2); [tauto|]. split; auto. intros Hl. rewrite Hl. rewrite pm_get_set_other by auto. auto.
  - simpl. intros Hb i Hi. rewrite Hb in Hi. destruct (I_dec i (vid n)) as [->|Hne]; [right; now left|]. rewrite pm_get_set_other in Hi by auto.
    destruct (H13 Hb i Hi) as [C|C]; auto. 
  - simpl. split; auto. split; [intros e He; apply H14; now right|]. exists ((n, l) :: pend), fr. auto.
Qed.

Lemma deeper_inv done v pend fr base F s : TInv done ((pend, v) :: fr) base [] F s -> t_pc s = TEdges v [] ->
  TInv done ((pend, v) :: fr) base [] F (topo_deeper VS PM LM s).
Proof.
  intros HI Hpc. pose proof HI as [H1 H2 H3 H4 H5 H6 H7 H8 H9 H10 H11 H12 H13 H14 H15].
  rewrite Hpc in H14. destruct H14 as (_ & H14 & pend' & fr' & Hfr & Hdep). injection Hfr as <- <-.
  constructor; auto. simpl. split; auto. lia.
Qed.

Lemma while_cases done fr base rest F s v q : TInv done fr base rest F s -> t_pc s = TWhile -> t_stack s = v :: q ->
  (exists fr', fr = ([], v) :: fr' /\ q = stk fr' base /\ vs_mem VS (vid v) (t_trace_set s) = true) \/
  (exists l pend u fr', fr = ((v, l) :: pend, u) :: fr' /\ q = map fst pend ++ u :: stk fr' base /\ vs_mem VS (vid v) (t_trace_set s) = false /\
     (0 <? t_depth s)%Z = true) \/
  (exists base', fr = [] /\ base = v :: base' /\ q = base' /\ vs_mem VS (vid v) (t_trace_set s) = false /\ (0 <? t_depth s)%Z = false).
Proof.
  intros HI Hpc Hst. rewrite (ti_stack _ _ _ _ _ _ HI) in Hst. pose proof (ti_pc _ _ _ _ _ _ HI) as Hp. rewrite Hpc in Hp. destruct Hp as (_ & Hd).
  destruct fr as [|[[|[w l] pend] u] fr']; simpl in Hst.
  - right. right. exists q. subst base. repeat split; auto.
    + apply vs_mem_false_iff. rewrite (ti_set _ _ _ _ _ _ HI). simpl. tauto.
    + apply Z.ltb_ge. simpl in Hd. lia.
  - left. injection Hst as -> <-. exists fr'. repeat split; auto. apply (ti_set _ _ _ _ _ _ HI). now left.
  - right. left. injection Hst as -> <-. exists l, pend, u, fr'. repeat split; auto.
    + apply vs_mem_false_iff. rewrite (ti_set _ _ _ _ _ _ HI). destruct (ti_frames _ _ _ _ _ _ HI) as (_ & _ & _ & _ & _ & K).
      apply (K (v, l)). now left.
    + apply Z.ltb_lt. simpl in Hd. lia.
Qed.

Definition keeps (F : list (V * nat)) (s s' : state) : Prop :=
  forall i, found F i -> pm_get PM i (t_pred s') = pm_get PM i (t_pred s) /\ pm_get LM i (t_labels s') = pm_get LM i (t_labels s).

Lemma TInv_step done fr base rest F s o s' : TInv done fr base rest F s -> step s = Go o s' ->
  exists done' fr' base' rest' G, TInv done' fr' base' rest' (F ++ G) s' /\ keeps F s s' /\
    ((o = [] /\ done' = done) \/
     (exists v k, o = [topo_observe VS PM LM v s'] /\ done' = done ++ [v] /\ known F v k /\ t_depth s' = Z.of_nat k)).
Proof.
  intros HI Hst. unfold topo_step in Hst. rewrite Htree in Hst. unfold topo_step_graph in Hst.
  destruct (t_pc s) as [|v [|[n l] rst]] eqn:Hpc.
  - assert (rest = []). { pose proof (ti_pc _ _ _ _ _ _ HI) as Hp. rewrite Hpc in Hp. apply Hp. } subst rest.
    destruct (t_stack s) as [|v q] eqn:Hs; [discriminate|].
    destruct (while_cases _ _ _ _ _ _ _ _ HI Hpc Hs) as [(fr' & -> & -> & Hm)|[(l & pend & u & fr' & -> & -> & Hm & Hd)|(base' & -> & -> & -> & Hm & Hd)]];
      rewrite Hm in Hst.
    + injection Hst as <- <-. exists (done ++ [v]), fr', base, [], []. rewrite app_nil_r. split; [now apply leave_inv|]. split; [intros i _; auto|].
      right. exists v, (length fr'). split; [reflexivity|]. split; [reflexivity|]. split; [apply (ti_frames _ _ _ _ _ _ HI)|].
      pose proof (ti_pc _ _ _ _ _ _ HI) as Hp. rewrite Hpc in Hp. destruct Hp as (_ & Hp). simpl in *. lia.
    + rewrite Hd in Hst. simpl in Hst. destruct (vs_mem VS (vid v) (t_visited s)) eqn:Hv.
      * injection Hst as <- <-. exists done, ((pend, u) :: fr'), base, [], []. rewrite app_nil_r. split; [eapply drop_inv; eauto|].
        split; [intros i _; auto|]. left. auto.
      * unfold topo_go_expand in Hst. simpl in Hst. destruct (limit_check (t_limit s)) as [lim|]; [|discriminate]. injection Hst as <- <-.
        exists done, (([], v) :: (pend, u) :: fr'), base, (next v), [(v, S (length fr'))]. split; [eapply enter_inv; eauto|].
        split; [intros i _; auto|]. left. auto.
    + rewrite Hd in Hst. simpl in Hst. unfold topo_go_expand in Hst. simpl in Hst. destruct (limit_check (t_limit s)) as [lim|]; [|discriminate]. injection Hst as <- <-.
      exists done, [([], v)], base', (next v), []. rewrite app_nil_r. split; [apply enter_start_inv; auto|].
      split; [intros i _; auto|]. left. auto.
  - injection Hst as <- <-. pose proof (ti_pc _ _ _ _ _ _ HI) as Hp. rewrite Hpc in Hp. destruct Hp as (<- & _ & pend & fr' & -> & Hd).
    exists done, ((pend, v) :: fr'), base, [], []. rewrite app_nil_r. split; [apply deeper_inv; auto|]. split; [intros i _; auto|]. left. auto.
  - pose proof (ti_pc _ _ _ _ _ _ HI) as Hp. rewrite Hpc in Hp. destruct Hp as (<- & Hinc & pend & fr' & -> & Hd).
    destruct (vs_mem VS (vid n) (t_visited s)) eqn:Hv.
    + destruct (vs_mem VS (vid n) (t_trace_set s)) eqn:Ht; [discriminate|]. injection Hst as <- <-.
      exists done, ((pend, v) :: fr'), base, rst, []. rewrite app_nil_r. split; [eapply skip_inv; eauto|]. split; [intros i _; auto|]. left. auto.
    + injection Hst as <- <-. exists done, (((n, l) :: pend, v) :: fr'), base, rst, []. rewrite app_nil_r. split; [eapply push_inv; eauto|].
      split; [|left; auto]. intros i Hi. simpl.
      assert (i <> vid n).
      { intros ->. assert (vs_mem VS (vid n) (t_visited s) = true); [|congruence]. apply (f_vis _ _ _ _ _ _ _ _ _ _ _ _ _ _ (ti_forest _ _ _ _ _ _ HI)). auto. }
      split.
      * destruct (tc_build_paths cfg); auto. now rewrite pm_get_set_other.
      * destruct (tc_build_paths cfg && tc_labeled cfg); auto. now rewrite pm_get_set_other.
Qed.

(** What has been reported. *)
Definition reported (F : list (V * nat)) (s : state) (rep : report) (v : V) : Prop :=
  tr_vertex rep = v /\ exists F1 F2 k, F = F1 ++ F2 /\ known F1 v k /\ tr_depth rep = Z.of_nat k /\
    forest F1 (tr_visited rep) (tr_pred rep) (tr_labels rep) /\
    forall i, found F1 i -> pm_get PM i (t_pred s) = pm_get PM i (tr_pred rep) /\ pm_get LM i (t_labels s) = pm_get LM i (tr_labels rep).

Definition Q (os : list report) (s : state) : Prop :=
  exists done fr base rest F, TInv done fr base rest F s /\ Forall2 (reported F s) os done.

Lemma found_app F G i : found F i -> found (F ++ G) i.
Proof. unfold Forest.found. rewrite map_app, in_app_iff. tauto. Qed.

Lemma reported_later F G s s' rep v : reported F s rep v -> keeps F s s' -> reported (F ++ G) s' rep v.
Proof.
  intros (H1 & F1 & F2 & k & -> & H3 & H4 & H5 & H6) Hk. split; auto. exists F1, (F2 ++ G), k. rewrite app_assoc. repeat (split; auto).
  all: destruct (H6 i H) as [E1 E2]; destruct (Hk i (found_app _ _ _ H)) as [E3 E4]; congruence.
Qed.

Lemma Q_step os s o s' : Q os s -> step s = Go o s' -> Q (os ++ o) s'.
Proof.
  intros (done & fr & base & rest & F & HI & HR) Hst.
  destruct (TInv_step _ _ _ _ _ _ _ _ HI Hst) as (done' & fr' & base' & rest' & G & HI' & Hk & Hcase).
  exists done', fr', base', rest', (F ++ G). split; auto.
  assert (HR' : Forall2 (reported (F ++ G) s') os done).
  { clear - HR Hk. induction HR; constructor; auto. eapply reported_later; eauto. }
  destruct Hcase as [(-> & ->)|(v & k & -> & -> & Hkn & Hd)].
  - now rewrite app_nil_r.
  - apply Forall2_app; auto. constructor; auto. split; [reflexivity|]. exists (F ++ G), [], k. rewrite app_nil_r. split; auto.
    split; [now apply known_app|]. split; [exact Hd|]. split; [apply (ti_forest _ _ _ _ _ _ HI')|]. auto.
Qed.

(** The real path to the end of the trace and on to [n], found when a cycle is detected. *)
Lemma subseq_app {A} (a b c d : list A) : subseq a b -> subseq c d -> subseq (a ++ c) (b ++ d).
Proof. induction 1; simpl; auto; constructor; auto. Qed.
Lemma subseq_refl {A} (a : list A) : subseq a a.
Proof. induction a; constructor; auto. Qed.
Lemma subseq_nil {A} (a : list A) : subseq [] a.
Proof. induction a; constructor; auto. Qed.
Lemma subseq_filter {A} (f : A -> bool) a b : subseq a b -> (forall x, In x a -> f x = true) -> subseq a (filter f b).
Proof.
  induction 1; simpl; intros Hf; [constructor| |].
  - rewrite (Hf x (or_introl eq_refl)). constructor. auto.
  - destruct (f x); [constructor|]; auto.
Qed.

Definition cycle_found (s' : state) : Prop :=
  exists p n, path_list (next_edge next) (fun u => In u starts) (p ++ [n]) n /\ In (vid n) (map vid p) /\ NoDup (map vid p) /\
    (exists s0 rest, p = s0 :: rest /\ exists rest', t_cycle s' = s0 :: rest') /\
    subseq (p ++ [n]) (t_cycle s') /\ (exists c, t_cycle s' = c ++ [n] /\ forall w, In w c -> In (vid w) (map vid p)) /\
    reachable Eo St (vid n) /\ exists q, q <> [] /\ walk E (vid n) q (vid n).

Lemma trace_path F fr u pend : frames_ok F ((pend, u) :: fr) ->
  path_list (next_edge next) (fun w => In w starts) (rev (trace ((pend, u) :: fr))) u.
Proof.
  revert u pend. induction fr as [|[p' u'] r IH]; intros u pend (H1 & H2 & H3 & H4 & H5 & H6).
  - exists u, []. split; [reflexivity|]. split; [auto|]. constructor.
  - simpl. destruct (IH u' p' H1) as (s0 & q & Hq & Hs & Hw). simpl in Hq. rewrite Hq. exists s0, (q ++ [u]). split; [reflexivity|].
    split; auto. apply walk_snoc with u'; auto. eapply H5. reflexivity.
Qed.

Lemma trace_walk F fr : frames_ok F fr -> forall a x b u pend r, fr = (pend, u) :: r -> trace fr = a ++ x :: b ->
  exists q, walk E (vid x) q (vid u) /\ (a <> [] -> q <> []).
Proof.
  induction fr as [|[p0 u0] r0 IH]; intros Hf a x b u pend r Hfr Ht; [discriminate|]. injection Hfr as <- <- <-.
  destruct Hf as (H1 & H2 & H3 & H4 & H5 & H6). destruct a as [|y a].
  - injection Ht as <- _. exists []. split; [constructor|]. tauto.
  - injection Ht as <- Ht. destruct r0 as [|[p1 u1] r1]; [destruct a; discriminate|].
    destruct (IH H1 a x b u1 p1 r1 eq_refl Ht) as (q & Hq & _). exists (q ++ [vid u0]). split.
    + apply walk_snoc with (vid u1); auto. apply Hnext. pose proof (H5 _ _ _ eq_refl) as He. unfold next_edge in He.
      apply in_map_iff in He. destruct He as (e & <- & He). apply in_map_iff. exists e. auto.
    + destruct q; discriminate.
Qed.

Lemma stk_subseq fr base : subseq (rev (trace fr)) (rev (stk fr base)).
Proof.
  induction fr as [|[p u] r IH]; simpl; [apply subseq_nil|]. rewrite rev_app_distr. simpl. rewrite <- app_assoc. apply subseq_app; auto.
  simpl. constructor. apply subseq_nil.
Qed.

Lemma rev_stk fr base : exists x, rev (stk fr base) = rev base ++ x /\ (forall rt, root_of fr = Some rt -> exists y, x = rt :: y).
Proof.
  induction fr as [|[p u] r IH]; simpl; [exists []; rewrite app_nil_r; split; [auto|discriminate]|]. destruct IH as (x & IH1 & IH2).
  exists (x ++ u :: rev (map fst p)). rewrite rev_app_distr. simpl. rewrite IH1. rewrite <- !app_assoc. split; auto. intros rt Hrt.
  destruct r as [|[p1 u1] r].
  - injection Hrt as <-. simpl in IH1. apply (f_equal (@length V)) in IH1. rewrite app_length in IH1. destruct x; [simpl; eauto|simpl in IH1; lia].
  - destruct (IH2 rt Hrt) as (y & ->). simpl. eauto.
Qed.

Lemma base_not_on_trace done fr base rest F s v : TInv done fr base rest F s -> In v base -> ~ In (vid v) (map vid (trace fr)).
Proof.
  intros HI Hv C. destruct (ti_used _ _ _ _ _ _ HI) as (used & U1 & U2 & U3). apply in_map_iff in C. destruct C as (w & C1 & C2).
  assert (Hvs : In v starts) by (apply in_rev; rewrite U1; apply in_or_app; auto).
  destruct (U3 w) as [Hw|Hw].
  - apply in_or_app. auto.
  - pose proof rev_starts_nodup as N. rewrite U1, map_app in N. clear - N Hv Hw C1. induction used as [|a used IH]; simpl in *; [tauto|].
    inversion N; subst. destruct Hw as [->|Hw]; auto. apply H1. rewrite C1. apply in_or_app. right. now apply in_map.
  - apply Hw. rewrite C1. now apply start_in.
Qed.

Lemma raise_cases os s o x s' : Q os s -> step s = Raise o x s' ->
  o = [] /\ t_pred s' = t_pred s /\ t_labels s' = t_labels s /\ t_calls s' = t_calls s /\
  ((x = RuntimeErrorLimit /\ t_limit s <> None) \/ (x = RuntimeErrorCycle /\ cycle_found s')).
Proof.
  intros (done & fr & base & rest & F & HI & _) Hst. unfold topo_step in Hst. rewrite Htree in Hst. unfold topo_step_graph in Hst.
  destruct (t_pc s) as [|v [|[n l] rst]] eqn:Hpc; [|discriminate|].
  - destruct (t_stack s) as [|v q] eqn:Hs; [discriminate|]. destruct (vs_mem _ _ _); [discriminate|]. destruct (_ && _); [discriminate|].
    unfold topo_go_expand in Hst. simpl in Hst. destruct (limit_check (t_limit s)) eqn:Hl; [discriminate|]. injection Hst as <- <- <-.
    split; auto. split; auto. split; auto. split; auto. left. split; auto. intros C. rewrite C in Hl. discriminate.
  - destruct (vs_mem VS (vid n) (t_visited s)); [|discriminate]. destruct (vs_mem VS (vid n) (t_trace_set s)) eqn:Ht; [|discriminate].
    injection Hst as <- <- <-. do 4 (split; auto). right. split; auto.
    pose proof (ti_pc _ _ _ _ _ _ HI) as Hp. rewrite Hpc in Hp. destruct Hp as (<- & Hinc & pend & fr' & -> & Hd).
    set (fr := (pend, v) :: fr') in *. apply (ti_set _ _ _ _ _ _ HI) in Ht.
    assert (Hf := ti_frames _ _ _ _ _ _ HI). destruct (trace_path F fr' v pend Hf) as (s0 & q & Hq & Hs0 & Hw). fold fr in Hq.
    assert (Hvn : next_edge next v n). { apply in_map_iff. exists (n, l). split; auto. apply Hinc. now left. }
    assert (Hin : forall w, In w (rev (trace fr)) -> vs_mem VS (vid w) (t_trace_set s) = true).
    { intros w Hw'. apply (ti_set _ _ _ _ _ _ HI). apply in_map. now apply in_rev. }
    exists (rev (trace fr)), n. split; [|split; [|split; [|split; [|split; [|split; [|split]]]]]].
    + rewrite Hq. exists s0, (q ++ [n]). split; auto. split; auto. apply walk_snoc with v; auto.
    + rewrite map_rev, <- in_rev. exact Ht.
    + rewrite map_rev. apply NoDup_rev. assert (N := ti_nodup _ _ _ _ _ _ HI). rewrite map_app in N.
      clear - N. induction (map vid done); simpl in *; auto. inversion N; auto.
    + exists s0, q. split; auto. simpl. rewrite (ti_stack _ _ _ _ _ _ HI). destruct (rev_stk fr base) as (x & Hx & Hroot). rewrite Hx, filter_app.
      destruct (root_of_some (pend, v) fr') as (rt & Hrt). destruct (Hroot rt Hrt) as (y & ->).
      replace (filter _ (rev base)) with (@nil V).
      * simpl. rewrite Hin by (apply in_rev; rewrite rev_involutive; now apply root_of_in).
        assert (rt = s0); [|subst; simpl; eauto].
        clear - Hrt Hq. subst fr. revert v pend Hrt Hq. revert q. induction fr' as [|[p1 u1] r IH]; intros q v pend Hrt Hq.
        -- simpl in Hq. injection Hq as <-. injection Hrt as <-. reflexivity.
        -- rewrite root_of_cons in Hrt. simpl in Hq. destruct q as [|q1 q] using rev_ind.
           ++ apply (f_equal (@length V)) in Hq. rewrite !app_length in Hq. simpl in Hq. lia.
           ++ change (s0 :: q ++ [q1]) with ((s0 :: q) ++ [q1]) in Hq. apply app_inj_tail in Hq. destruct Hq as (Hq & _). eapply IH; eauto.
      * symmetry. assert (H : forall w, In w (rev base) -> vs_mem VS (vid w) (t_trace_set s) = false).
        { intros w Hw0. apply in_rev in Hw0. apply vs_mem_false_iff. rewrite (ti_set _ _ _ _ _ _ HI). eapply base_not_on_trace; eauto. }
        clear - H. induction (rev base) as [|a b IH]; simpl; auto. rewrite H by now left. apply IH. intros w Hw. apply H. now right.
    + simpl. apply subseq_app; [|apply subseq_refl]. apply subseq_filter; auto. rewrite (ti_stack _ _ _ _ _ _ HI). exact (stk_subseq fr base).
    + simpl. eexists. split; [reflexivity|]. intros w Hw'. apply filter_In in Hw'. destruct Hw' as (_ & Hw'). apply (ti_set _ _ _ _ _ _ HI) in Hw'.
      change (In (vid w) (map vid (rev (trace fr)))). rewrite map_rev, <- in_rev. exact Hw'.
    + apply in_map_iff in Ht. destruct Ht as (w & Hw1 & Hw2). rewrite <- Hw1.
      destruct (root_of_some (pend, v) fr') as (rt & Hrt). destruct (ti_walk _ _ _ _ _ _ HI rt w Hrt Hw2) as (p & Hp).
      exists (vid rt), p. split; auto. apply start_in. eapply root_start; [exact Hf|exact Hrt].
    + apply in_map_iff in Ht. destruct Ht as (w & Hw1 & Hw2). apply in_split in Hw2. destruct Hw2 as (a & b & Hab).
      destruct (trace_walk F fr Hf a w b v pend fr' eq_refl Hab) as (p & Hp & _). exists (p ++ [vid n]). split; [destruct p; discriminate|].
      rewrite <- Hw1 at 1. apply walk_snoc with (vid v); auto. apply Hnext. apply in_map_iff in Hvn. destruct Hvn as (e & <- & He).
      apply in_map_iff. exists e. auto.
Qed.
End TopoProofs.
