(** Breadth first search on related graphs, with different gears, proceeds in lock step. *)
From Coq Require Import List ZArith Bool.
From Verif Require Import Machine MachineSim GearSpec Common BFSModel.
Import ListNotations.

(** Collections with equal content. *)
Definition same_set {I} (VS1 VS2 : VSet I) (s1 : vs_t VS1) (s2 : vs_t VS2) : Prop :=
  forall i, vs_mem VS1 i s1 = vs_mem VS2 i s2.
Definition same_map {I A B} (f : A -> B) (PM1 : PMap I A) (PM2 : PMap I B)
    (m1 : pm_t PM1) (m2 : pm_t PM2) : Prop :=
  forall i, option_map f (pm_get PM1 i m1) = pm_get PM2 i m2.

Section Same.
Context {I : Type}.
Variable I_dec : forall a b : I, {a = b} + {a <> b}.

Lemma same_set_empty (VS1 VS2 : VSet I) : same_set VS1 VS2 (vs_empty VS1) (vs_empty VS2).
Proof. intros i. now rewrite !vs_mem_empty. Qed.

Lemma same_set_add (VS1 VS2 : VSet I) i s1 s2 :
  same_set VS1 VS2 s1 s2 -> same_set VS1 VS2 (vs_add VS1 i s1) (vs_add VS2 i s2).
Proof.
  intros H j. specialize (H j).
  pose proof (vs_mem_add VS1 j i s1) as H1. pose proof (vs_mem_add VS2 j i s2) as H2.
  destruct (vs_mem VS1 j (vs_add VS1 i s1)), (vs_mem VS2 j (vs_add VS2 i s2)); auto; rewrite H in H1; intuition.
Qed.

Lemma same_set_discard (VS1 VS2 : VSet I) i s1 s2 :
  same_set VS1 VS2 s1 s2 -> same_set VS1 VS2 (vs_discard VS1 i s1) (vs_discard VS2 i s2).
Proof.
  intros H j. specialize (H j).
  pose proof (vs_mem_discard VS1 j i s1) as H1. pose proof (vs_mem_discard VS2 j i s2) as H2.
  destruct (vs_mem VS1 j (vs_discard VS1 i s1)), (vs_mem VS2 j (vs_discard VS2 i s2)); auto; rewrite H in H1; intuition.
Qed.

Lemma same_set_of_list (VS1 VS2 : VSet I) l : forall s1 s2,
  same_set VS1 VS2 s1 s2 -> same_set VS1 VS2 (vs_of_list VS1 s1 l) (vs_of_list VS2 s2 l).
Proof.
  unfold vs_of_list. induction l as [|a l IH]; simpl; auto using same_set_add.
Qed.

Context {A B : Type}.
Variable f : A -> B.
Lemma same_map_empty (PM1 : PMap I A) (PM2 : PMap I B) : same_map f PM1 PM2 (pm_empty PM1) (pm_empty PM2).
Proof. intros i. now rewrite !pm_get_empty. Qed.

Lemma same_map_set (PM1 : PMap I A) (PM2 : PMap I B) i a m1 m2 :
  same_map f PM1 PM2 m1 m2 -> same_map f PM1 PM2 (pm_set PM1 i a m1) (pm_set PM2 i (f a) m2).
Proof using I_dec.
  intros H j. destruct (I_dec j i) as [->|Hne].
  - now rewrite !pm_get_set_same.
  - now rewrite !pm_get_set_other.
Qed.

Lemma same_map_of_list (PM1 : PMap I A) (PM2 : PMap I B) l : forall m1 m2,
  same_map f PM1 PM2 m1 m2 ->
  same_map f PM1 PM2 (pm_of_list PM1 m1 l) (pm_of_list PM2 m2 (map (fun p => (fst p, f (snd p))) l)).
Proof using I_dec.
  unfold pm_of_list. induction l as [|a l IH]; simpl; auto using same_map_set.
Qed.
End Same.

Lemma same_define_visited {I} (VS1 VS2 : VSet I) av1 av2 ids t :
  match av1, av2 with
  | None, None => True
  | Some a, Some b => same_set VS1 VS2 a b
  | _, _ => False
  end -> same_set VS1 VS2 (define_visited VS1 av1 ids t) (define_visited VS2 av2 ids t).
Proof.
  intros H. unfold define_visited. destruct av1, av2; try contradiction; destruct t; auto;
    apply same_set_of_list; auto using same_set_empty.
Qed.

Lemma same_predecessors {V1 V2 I} (I_dec : forall a b : I, {a = b} + {a <> b})
    (f : V1 -> V2) (vid1 : V1 -> I) (vid2 : V2 -> I)
    (PM1 : PMap I V1) (PM2 : PMap I V2) bp starts :
  (forall v, vid2 (f v) = vid1 v) ->
  same_map f PM1 PM2 (create_predecessors vid1 PM1 bp starts) (create_predecessors vid2 PM2 bp (map f starts)).
Proof.
  intros Hv. unfold create_predecessors. destruct bp.
  - replace (map (fun v => (vid2 v, v)) (map f starts))
      with (map (fun p => (fst p, f (snd p))) (map (fun v => (vid1 v, v)) starts)).
    + apply same_map_of_list; auto using same_map_empty.
    + rewrite !map_map. apply map_ext. intros. simpl. now rewrite Hv.
  - apply same_map_empty.
Qed.

Section BFSSim.
Context {V1 V2 I L : Type}.
Variable I_dec : forall a b : I, {a = b} + {a <> b}.
Variable f : V1 -> V2.
Variable vid1 : V1 -> I.
Variable vid2 : V2 -> I.
Hypothesis Hvid : forall v, vid2 (f v) = vid1 v.
Variables VS1 VS2 : VSet I.
Variable PM1 : PMap I V1.
Variable PM2 : PMap I V2.
Variables LM1 LM2 : PMap I L.
Definition fe (e : V1 * L) : V2 * L := (f (fst e), snd e).
Variable next1 : V1 -> list (V1 * L).
Variable next2 : V2 -> list (V2 * L).
Hypothesis Hnext : forall v, next2 (f v) = map fe (next1 v).
Variable cfg : bfs_cfg.

Definition pc_map (p : @bfs_pc V1 L) : @bfs_pc V2 L :=
  match p with BWhile => BWhile | BFor => BFor | BEdges v r => BEdges (f v) (map fe r) end.

Record bfs_same_state (s1 : bfs_state VS1 PM1 LM1) (s2 : bfs_state VS2 PM2 LM2) : Prop := {
  bss_pc : b_pc s2 = pc_map (b_pc s1);
  bss_te : b_to_expand s2 = map f (b_to_expand s1);
  bss_next : b_next s2 = map f (b_next s1);
  bss_depth : b_depth s2 = b_depth s1;
  bss_visited : same_set VS1 VS2 (b_visited s1) (b_visited s2);
  bss_pred : same_map f PM1 PM2 (b_pred s1) (b_pred s2);
  bss_labels : same_map (fun l => l) LM1 LM2 (b_labels s1) (b_labels s2);
  bss_limit : b_limit s2 = b_limit s1;
  bss_calls : b_calls s2 = map f (b_calls s1)
}.

(** Reports with the same observable content. *)
Record bfs_same_report (r1 : bfs_report VS1 PM1 LM1) (r2 : bfs_report VS2 PM2 LM2) : Prop := {
  bsr_vertex : br_vertex r2 = f (br_vertex r1);
  bsr_depth : br_depth r2 = br_depth r1;
  bsr_visited : same_set VS1 VS2 (br_visited r1) (br_visited r2);
  bsr_pred : same_map f PM1 PM2 (br_pred r1) (br_pred r2);
  bsr_labels : same_map (fun l => l) LM1 LM2 (br_labels r1) (br_labels r2)
}.

Lemma bfs_step_sim s1 s2 : bfs_same_state s1 s2 ->
  step_rel bfs_same_state bfs_same_report
    (bfs_step vid1 VS1 PM1 LM1 next1 cfg s1) (bfs_step vid2 VS2 PM2 LM2 next2 cfg s2).
Proof.
  intros H. unfold bfs_step. rewrite (bss_pc _ _ H), (bss_te _ _ H), (bss_limit _ _ H), (bss_next _ _ H).
  destruct (b_pc s1) as [| |v [|[n l] rest]] eqn:Hpc; simpl.
  - destruct (b_to_expand s1) eqn:Hte; simpl; split; auto; destruct H; constructor; simpl; auto; congruence.
  - destruct (b_to_expand s1) as [|u q] eqn:Hte; simpl.
    + split.
      * destruct (bc_report_depth_increase cfg); [|constructor].
        rewrite <- map_rev. destruct (rev (b_next s1)); simpl; [apply Forall2_nil|].
        apply Forall2_cons; [|apply Forall2_nil]. constructor; simpl; auto; apply H.
      * destruct H; constructor; simpl; auto. congruence.
    + destruct (limit_check (b_limit s1)); simpl; (split; [apply Forall2_nil|]); auto.
      destruct H; constructor; simpl; auto; [now rewrite Hnext|congruence].
  - split; auto. destruct H; constructor; simpl; auto.
  - rewrite Hvid, (bss_visited _ _ H (vid1 n)).
    destruct (_ && _); simpl.
    + split; auto. destruct H; constructor; simpl; auto.
    + assert (HV : same_set VS1 VS2 (if bc_is_tree cfg then b_visited s1 else vs_add VS1 (vid1 n) (b_visited s1))
                     (if bc_is_tree cfg then b_visited s2 else vs_add VS2 (vid2 (f n)) (b_visited s2))).
      { rewrite Hvid. destruct (bc_is_tree cfg); [apply H|apply same_set_add, H]. }
      assert (HP : same_map f PM1 PM2 (if bc_build_paths cfg then pm_set PM1 (vid1 n) v (b_pred s1) else b_pred s1)
                     (if bc_build_paths cfg then pm_set PM2 (vid2 (f n)) (f v) (b_pred s2) else b_pred s2)).
      { rewrite Hvid. destruct (bc_build_paths cfg); [apply same_map_set; auto; apply H|apply H]. }
      assert (HL : same_map (fun x => x) LM1 LM2
                     (if bc_build_paths cfg && bc_labeled cfg then pm_set LM1 (vid1 n) l (b_labels s1) else b_labels s1)
                     (if bc_build_paths cfg && bc_labeled cfg then pm_set LM2 (vid2 (f n)) l (b_labels s2) else b_labels s2)).
      { rewrite Hvid. destruct (_ && _); [apply (same_map_set I_dec (fun x : L => x)); apply H|apply H]. }
      rewrite Hvid in HV, HP, HL. unfold bfs_mark. cbn [b_visited b_pred b_labels b_next b_depth b_limit b_calls b_to_expand]. rewrite !Hvid. split.
      * apply Forall2_cons; [|apply Forall2_nil]. constructor; simpl; auto; apply H.
      * constructor; simpl; auto; try apply H. rewrite map_app, ?(bss_next _ _ H). reflexivity.
Qed.

Lemma bfs_sim starts av1 av2 lim n :
  match av1, av2 with
  | None, None => True
  | Some a, Some b => same_set VS1 VS2 a b
  | _, _ => False
  end ->
  Forall2 bfs_same_report (fst (bfs_run vid1 VS1 PM1 LM1 next1 cfg starts av1 lim n))
                          (fst (bfs_run vid2 VS2 PM2 LM2 next2 cfg (map f starts) av2 lim n)) /\
  outcome_rel bfs_same_state (snd (bfs_run vid1 VS1 PM1 LM1 next1 cfg starts av1 lim n))
                          (snd (bfs_run vid2 VS2 PM2 LM2 next2 cfg (map f starts) av2 lim n)).
Proof.
  intros Hav. apply run_sim with (R := bfs_same_state); [exact bfs_step_sim|].
  constructor; simpl; auto.
  - replace (map vid2 (map f starts)) with (map vid1 starts).
    + now apply same_define_visited.
    + rewrite map_map. apply map_ext. auto.
  - apply same_predecessors; auto.
  - apply same_map_empty.
Qed.
End BFSSim.

Lemma bfs_gear {V I L : Type} (I_dec : forall a b : I, {a = b} + {a <> b}) (vid : V -> I)
    (VS1 VS2 : VSet I) (PM1 PM2 : PMap I V) (LM1 LM2 : PMap I L)
    (next : V -> list (V * L)) (cfg : bfs_cfg) (starts : list V) av1 av2 lim n :
  match av1, av2 with
  | None, None => True
  | Some a, Some b => same_set VS1 VS2 a b
  | _, _ => False
  end ->
  let p1 := bfs_run vid VS1 PM1 LM1 next cfg starts av1 lim n in
  let p2 := bfs_run vid VS2 PM2 LM2 next cfg starts av2 lim n in
  Forall2 (bfs_same_report (fun v => v) VS1 VS2 PM1 PM2 LM1 LM2) (fst p1) (fst p2) /\
  outcome_rel (bfs_same_state (fun v => v) VS1 VS2 PM1 PM2 LM1 LM2) (snd p1) (snd p2).
Proof.
  intros Hav p1 p2.
  assert (Hn : forall v : V, next v = map (fe (fun v : V => v)) (next v)).
  { intros v. rewrite <- (map_id (next v)) at 1. apply map_ext. now intros [a b]. }
  pose proof (bfs_sim I_dec (fun v : V => v) vid vid (fun v => eq_refl) VS1 VS2 PM1 PM2 LM1 LM2
                next next Hn cfg starts av1 av2 lim n Hav) as H.
  rewrite map_id in H. exact H.
Qed.

Lemma bfs_ids_only {V I L : Type} (I_dec : forall a b : I, {a = b} + {a <> b}) (vid : V -> I)
    (VS : VSet I) (PM : PMap I V) (PMI : PMap I I) (LM : PMap I L)
    (next : V -> list (V * L)) (next_id : I -> list (I * L)) (cfg : bfs_cfg) (starts : list V) av lim n :
  (forall v, next_id (vid v) = map (fun e => (vid (fst e), snd e)) (next v)) ->
  let p1 := bfs_run vid VS PM LM next cfg starts av lim n in
  let p2 := bfs_run (fun i => i) VS PMI LM next_id cfg (map vid starts) av lim n in
  Forall2 (bfs_same_report vid VS VS PM PMI LM LM) (fst p1) (fst p2) /\
  outcome_rel (bfs_same_state vid VS VS PM PMI LM LM) (snd p1) (snd p2).
Proof.
  intros Hn p1 p2.
  apply (bfs_sim I_dec vid vid (fun i : I => i) (fun v => eq_refl) VS VS PM PMI LM LM
                next next_id Hn cfg starts av av lim n).
  destruct av; auto. intros i. reflexivity.
Qed.
