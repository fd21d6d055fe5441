(** Topological sort with option is_tree, on a graph that is a tree. *)
From Coq Require Import List ZArith Lia Bool.
From Verif Require Import Machine MachineSim Common GearSpec CommonProofs TraversalSpec DFSSpec TreeLike TopoModel.
Import ListNotations.

Section TopoTree.
Context {V I L : Type}.
Variable vid : V -> I.
Variable VS : VSet I.
Variable PM : PMap I V.
Variable LM : PMap I L.
Variable next : V -> list (V * L).
Variable starts : list V.
Hypothesis HT : tree_like vid next starts.
Variables build labeled : bool.
Notation cfg1 := {| tc_is_tree := true; tc_build_paths := build; tc_labeled := labeled |}.
Notation cfg2 := {| tc_is_tree := false; tc_build_paths := build; tc_labeled := labeled |}.
Notation state := (@topo_state V I L VS PM LM).
Notation report := (@topo_report V I L VS PM LM).
Notation St := (is_start vid starts).
Notation reached := (reached next starts).
Notation looked_at := (looked_at vid next).

(** What the user sees except for the set of visited vertices, that is not kept with is_tree. *)
Record topo_same_seen (r1 r2 : report) : Prop := {
  tss_vertex : tr_vertex r2 = tr_vertex r1;
  tss_depth : tr_depth r2 = tr_depth r1;
  tss_pred : tr_pred r2 = tr_pred r1;
  tss_labels : tr_labels r2 = tr_labels r1
}.

Record topo_same_rest (s1 s2 : state) : Prop := {
  tsr_pc : t_pc s2 = t_pc s1;
  tsr_stack : t_stack s2 = t_stack s1;
  tsr_depth : t_depth s2 = t_depth s1;
  tsr_pred : t_pred s2 = t_pred s1;
  tsr_labels : t_labels s2 = t_labels s1;
  tsr_cycle : t_cycle s2 = t_cycle s1;
  tsr_limit : t_limit s2 = t_limit s1;
  tsr_calls : t_calls s2 = t_calls s1
}.

Definition cur (p : @topo_pc V L) := match p with TWhile => None | TEdges v r => Some (v, r) end.
Definition seen_id (s : state) (i : I) : Prop := St i \/ looked_at (map fst (t_calls s)) (cur (t_pc s)) i.
Definition count (up : list (V * bool)) : nat := length (filter snd up).

Record TT (s1 s2 : state) (up : list (V * bool)) (base : list V) : Prop := {
  tt_same : topo_same_rest s1 s2;
  tt_stack : t_stack s1 = map fst up ++ base;
  tt_marks : t_markers s1 = map snd up ++ map (fun _ => false) base;
  tt_base : forall v, In v base -> In v starts;
  tt_up : forall v, In (v, false) up -> ~ St (vid v) /\ vs_mem VS (vid v) (t_visited s2) = false;
  tt_nodup : NoDup (map vid (t_stack s1));
  tt_trace : forall i, vs_mem VS i (t_trace_set s2) = true <-> In (i, true) (map (fun x => (vid (fst x), snd x)) up);
  tt_depth : (t_depth s1 + match t_pc s1 with TWhile => 0 | TEdges _ _ => 1 end = Z.of_nat (count up))%Z;
  tt_visited : forall i, vs_mem VS i (t_visited s2) = true -> seen_id s1 i;
  tt_seen : forall v, In v (t_stack s1) \/ In v (map fst (t_calls s1)) -> reached v /\ seen_id s1 (vid v);
  tt_new : forall v, In (v, false) up \/ In v base -> ~ In v (map fst (t_calls s1));
  tt_pc : match t_pc s1 with TWhile => True | TEdges v rest => In v (map fst (t_calls s1)) /\ exists dn, next v = dn ++ rest end
}.

Lemma TT_init lim : TT (topo_init vid VS PM LM cfg1 starts None lim) (topo_init vid VS PM LM cfg2 starts None lim) [] (rev starts).
Proof.
  constructor; simpl; auto; try contradiction.
  - constructor; reflexivity.
  - clear. assert (H : forall l : list V, map (fun _ => false) l = repeat false (length l)) by (induction l; simpl; congruence).
    now rewrite !H, rev_length.
  - intros v. now rewrite <- in_rev.
  - rewrite map_rev. apply NoDup_rev. now apply tree_starts with next.
  - intros i. rewrite vs_mem_empty. split; [discriminate|contradiction].
  - intros i Hi. apply (define_visited_mem VS None (map vid starts) i) in Hi. destruct Hi as [[]|Hi]. now left.
  - intros v [Hv|[]]. apply in_rev in Hv. split; [now apply reached_start|]. left. now apply in_map.
Qed.

Lemma seen_step s1 s2 i : t_calls s2 = t_calls s1 -> t_pc s2 = t_pc s1 -> seen_id s1 i -> seen_id s2 i.
Proof. unfold seen_id. intros -> ->. auto. Qed.

Lemma in_flags (up : list (V * bool)) v b : In (v, b) up -> In (vid v, b) (map (fun x => (vid (fst x), snd x)) up).
Proof. intros H. apply in_map_iff. exists (v, b). auto. Qed.
Lemma flags_in (up : list (V * bool)) i b : In (i, b) (map (fun x => (vid (fst x), snd x)) up) -> In i (map vid (map fst up)).
Proof. intros H. apply in_map_iff in H. destruct H as ((v & c) & H & Hin). injection H as <- _. apply in_map. apply in_map_iff. exists (v, c). auto. Qed.

Lemma TT_step s1 s2 : (exists up base, TT s1 s2 up base) ->
  step_rel_weak (fun a b => exists up base, TT a b up base) topo_same_rest topo_same_seen
    (topo_step vid VS PM LM next cfg1 s1) (topo_step vid VS PM LM next cfg2 s2).
Proof.
  intros (up & base & H). pose proof H as [S1 S2 S3 S4 S5 S6 S7 S8 S9 S10 S11 S12]. pose proof S1 as [R1 R2 R3 R4 R5 R6 R7 R8].
  unfold topo_step. cbn [tc_is_tree]. unfold topo_step_tree, topo_step_graph. rewrite R1, R2.
  destruct (t_pc s1) as [|v [|[n l] rest]] eqn:Hpc.
  - destruct up as [|[v b] up].
    + simpl in S2, S3. rewrite S2. destruct base as [|v base]; simpl in S3.
      * simpl. split; auto.
      * rewrite S3. assert (Hm : vs_mem VS (vid v) (t_trace_set s2) = false). { apply vs_mem_false_iff. rewrite S7. auto. }
        rewrite Hm. rewrite R3. assert (Hd : t_depth s1 = 0%Z) by (unfold count in S8; simpl in S8; lia). rewrite Hd. simpl.
        unfold topo_go_expand. simpl. rewrite R7. destruct (limit_check (t_limit s1)) as [lm|]; simpl.
        -- split; [constructor|]. exists [(v, true)], base. rewrite S2 in *.
           assert (Hnew : ~ In v (map fst (t_calls s1))) by (apply S11; right; now left).
           assert (Hk : forall i, seen_id s1 i -> seen_id (topo_expand VS PM LM next (topo_mark VS PM LM s1 (map (fun _ => false) base)) v lm) i).
           { intros i [Hi|Hi]; [now left|]. right. simpl. rewrite Hpc in Hi. now apply looked_at_call. }
           constructor; simpl; auto.
           ++ constructor; simpl; auto; congruence.
           ++ intros w Hw. apply S4. now right.
           ++ intros w [C|[]]. discriminate.
           ++ now rewrite S2.
           ++ intros i. rewrite vs_mem_add, S7. simpl. split; [intros [->|[]]; auto|intros [C|[]]; left; congruence].
           ++ rewrite Hd. reflexivity.
           ++ intros i Hi. apply Hk, S9. rewrite R3, Hd in Hi. simpl in Hi. exact Hi.
           ++ rewrite S2. intros w Hw. assert (Hw' : In w (v :: base) \/ In w (map fst (t_calls s1))) by (simpl in *; tauto).
              destruct (S10 w Hw') as (K1 & K2). split; auto.
           ++ intros w [[C|[]]|Hw]; [discriminate|]. intros [C|C].
              ** subst w. inversion S6; subst. apply H2. now apply in_map.
              ** apply (S11 w); simpl; auto.
           ++ split; auto. exists []. reflexivity.
        -- split; [constructor|]. split; auto. constructor; simpl; congruence.
    + simpl in S2, S3. rewrite S2, S3. destruct b.
      * assert (Hm : vs_mem VS (vid v) (t_trace_set s2) = true). { apply S7. now left. } rewrite Hm. simpl. split.
        -- constructor; [|constructor]. constructor; simpl; auto. congruence.
        -- exists up, base. rewrite S2 in *. simpl in S6. inversion S6; subst. constructor; simpl; auto.
           ++ constructor; simpl; auto; congruence.
           ++ intros w Hw. apply S5. now right.
           ++ intros i. rewrite vs_mem_discard, S7. simpl. split.
              ** intros [Hne [C|C]]; auto. exfalso. apply Hne. congruence.
              ** intros Hi. split; auto. intros ->. apply H2. rewrite map_app, in_app_iff. left. eapply flags_in; eauto.
           ++ unfold count in *. simpl in S8. lia.
           ++ intros i Hi. apply S9 in Hi. unfold seen_id in *. rewrite Hpc in Hi. exact Hi.
           ++ intros w Hw. assert (Hw' : In w (v :: map fst up ++ base) \/ In w (map fst (t_calls s1))) by (simpl; tauto).
              destruct (S10 w Hw') as (K1 & K2). split; auto. unfold seen_id in *. rewrite Hpc in K2. exact K2.
           ++ intros w Hw. apply S11. simpl. tauto.
      * simpl in S6. rewrite S2 in S6. simpl in S6. apply NoDup_cons_iff in S6. destruct S6 as [S6a S6b].
        assert (Hm : vs_mem VS (vid v) (t_trace_set s2) = false).
        { apply vs_mem_false_iff. rewrite S7. simpl. intros [C|C]; [discriminate|]. apply S6a. rewrite map_app, in_app_iff. left. eapply flags_in; eauto. }
        destruct (S5 v (or_introl eq_refl)) as [S5a S5b]. rewrite Hm, S5b, andb_false_r.
        unfold topo_go_expand. simpl. rewrite R7. destruct (limit_check (t_limit s1)) as [lm|]; simpl.
        -- split; [constructor|]. exists ((v, true) :: up), base.
           assert (Hnew : ~ In v (map fst (t_calls s1))) by (apply S11; left; now left).
           set (s1' := topo_expand VS PM LM next (topo_mark VS PM LM s1 _) v lm).
           assert (Hk : forall i, seen_id s1 i -> seen_id s1' i).
           { intros i [Hi|Hi]; [now left|]. right. simpl. rewrite Hpc in Hi. now apply looked_at_call. }
           constructor; simpl; auto.
           ++ constructor; simpl; auto; congruence.
           ++ intros w [C|Hw]; [discriminate|]. destruct (S5 w (or_intror Hw)) as [K1 K2]. split; auto.
              destruct (0 <? t_depth s2)%Z; auto. apply vs_mem_false_iff. rewrite vs_mem_add. apply vs_mem_false_iff in K2. intros [C|C]; [|contradiction].
              apply S6a. rewrite <- C, map_app, in_app_iff. left. apply in_map. apply in_map_iff. exists (w, false). auto.
           ++ rewrite S2. simpl. now constructor.
           ++ intros i. rewrite vs_mem_add, S7. simpl. split; [intros [->|[C|C]]; auto; discriminate|intros [C|C]; [left; congruence|auto]].
           ++ unfold count in *. simpl in *. lia.
           ++ intros i Hi. apply Hk. destruct (0 <? t_depth s2)%Z; auto. apply vs_mem_add in Hi. destruct Hi as [->|Hi]; auto.
              apply S10. left. rewrite S2. now left.
           ++ intros w Hw. assert (Hw' : In w (t_stack s1) \/ In w (map fst (t_calls s1))).
              { destruct Hw as [Hw|[Hw|Hw]]; auto. subst w. left. rewrite S2. now left. }
              destruct (S10 w Hw') as (K1 & K2). split; auto.
           ++ intros w Hw. assert (Hin : In w (map fst up ++ base)).
              { rewrite in_app_iff. destruct Hw as [[C|Hw]|Hw]; [discriminate| |auto]. left. apply in_map_iff. exists (w, false). auto. }
              intros [C|C].
              ** subst w. apply S6a. now apply in_map.
              ** apply (S11 w); simpl; [|exact C]. destruct Hw as [[C'|Hw]|Hw]; [discriminate| |]; auto.
           ++ split; auto. exists []. reflexivity.
        -- split; [constructor|]. split; auto. constructor; simpl; congruence.
  - split; [constructor|]. exists up, base. assert (Hk : forall i, seen_id s1 i -> seen_id (topo_deeper VS PM LM s1) i).
    { intros i [Hi|Hi]; [now left|]. right. rewrite Hpc in Hi. simpl in *. eapply looked_at_end; [|exact Hi]. apply S12. }
    constructor; simpl; auto.
    + constructor; simpl; auto; congruence.
    + lia.
    + intros w Hw. destruct (S10 w Hw). auto.
  - destruct S12 as [S12a S12b]. assert (Hv : reached v) by (apply S10; auto).
    destruct (next_is_new vid next starts HT (map fst (t_calls s1)) v n l rest) as [N1 N2]; auto.
    { intros u Hu. apply S10. auto. }
    assert (Hns : ~ seen_id s1 (vid n)). { unfold seen_id. rewrite Hpc. intros [C|C]; [exact (N1 C)|exact (N2 C)]. }
    assert (Hm : vs_mem VS (vid n) (t_visited s2) = false). { apply vs_mem_false_iff. intros C. apply Hns, S9, C. }
    rewrite Hm. split; [constructor|]. exists ((n, false) :: up), base.
    assert (Hk : forall i, seen_id s1 i \/ i = vid n -> seen_id (topo_push vid VS PM LM cfg1 s1 v n l rest) i).
    { intros i [[Hi|Hi]|Hi]; [now left| |]; right; simpl; apply looked_at_next with n l; auto. rewrite Hpc in Hi. auto. }
    constructor; simpl; auto.
    + constructor; simpl; auto; try congruence; [rewrite R4|rewrite R5]; reflexivity.
    + now rewrite S2.
    + now rewrite S3.
    + intros w [C|Hw]; [injection C as <-; auto|auto].
    + constructor; auto. intros C. apply in_map_iff in C. destruct C as (w & C1 & C2). apply Hns. rewrite <- C1. apply S10. auto.
    + intros i. rewrite S7. split; [auto|]. intros [C|C]; [discriminate|auto].
    + intros w [[<-|Hw]|Hw].
      * split; [|auto]. change n with (fst (n, l)). apply reached_step with v; auto. destruct S12b as (dn & ->). apply in_or_app. right. now left.
      * destruct (S10 w (or_introl Hw)). auto.
      * destruct (S10 w (or_intror Hw)). auto.
    + intros w [[C|Hw]|Hw]; auto. injection C as <-. intros C. apply Hns. apply S10. auto.
    + split; auto. destruct S12b as (dn & Hd). exists (dn ++ [(n, l)]). now rewrite <- app_assoc.
Qed.

Theorem topo_tree_same lim n :
  Forall2 topo_same_seen (fst (topo_run vid VS PM LM next cfg1 starts None lim n)) (fst (topo_run vid VS PM LM next cfg2 starts None lim n)) /\
  outcome_rel topo_same_rest (snd (topo_run vid VS PM LM next cfg1 starts None lim n)) (snd (topo_run vid VS PM LM next cfg2 starts None lim n)).
Proof.
  apply run_sim_weak with (R := fun a b => exists up base, TT a b up base).
  - intros s1 s2 (up & base & H). apply H.
  - exact TT_step.
  - exists [], (rev starts). apply TT_init.
Qed.
End TopoTree.
