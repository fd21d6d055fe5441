(** Minimum spanning tree traversals on related graphs, with different gears, proceed in lock step. *)
From Coq Require Import List ZArith Bool.
From Verif Require Import Machine MachineSim GearSpec Common BFSSim Weight HeapModel HeapProofs DijkstraSim MSTModel.
Import ListNotations.

Section MSTSim.
Context {V1 V2 I L : Type}.
Variable I_dec : forall a b : I, {a = b} + {a <> b}.
Variable f : V1 -> V2.
Variable vid1 : V1 -> I.
Variable vid2 : V2 -> I.
Hypothesis Hvid : forall v, vid2 (f v) = vid1 v.
Variable WT : Weights.
Notation W := (w_t WT).
Variables VS1 VS2 : VSet I.
Variable PM1 : PMap I V1.
Variable PM2 : PMap I V2.
Variables LM1 LM2 : PMap I L.
Notation fwe := (fwe f WT).
Variable next1 : V1 -> list (V1 * W * L).
Variable next2 : V2 -> list (V2 * W * L).
Hypothesis Hnext : forall v, next2 (f v) = map fwe (next1 v).
Variable cfg : mst_cfg.

Definition mpc_map (p : @mst_pc V1 L WT) : @mst_pc V2 L WT :=
  match p with MStart _ l => MStart WT (map f l) | MLoop _ => MLoop WT | MEdges _ v r => MEdges WT (f v) (map fwe r) end.
Definition ffe (p : V1 * (V1 * W * L)) : V2 * (V2 * W * L) := (f (fst p), fwe (snd p)).

Record mst_same_state (s1 : mst_state WT VS1 PM1 LM1) (s2 : mst_state WT VS2 PM2 LM2) : Prop := {
  mss_pc : m_pc s2 = mpc_map (m_pc s1);
  mss_heap : m_heap s2 = map (entry_map WT ffe) (m_heap s1);
  mss_no : m_no s2 = m_no s1;
  mss_visited : same_set VS1 VS2 (m_visited s1) (m_visited s2);
  mss_pred : same_map f PM1 PM2 (m_pred s1) (m_pred s2);
  mss_labels : same_map (fun l => l) LM1 LM2 (m_labels s1) (m_labels s2);
  mss_edge : m_edge s2 = option_map ffe (m_edge s1);
  mss_limit : m_limit s2 = m_limit s1;
  mss_calls : m_calls s2 = map f (m_calls s1)
}.

(** Reports with the same observable content. *)
Record mst_same_report (r1 : mst_report WT PM1 LM1) (r2 : mst_report WT PM2 LM2) : Prop := {
  msr_vertex : mr_vertex r2 = f (mr_vertex r1);
  msr_edge : mr_edge r2 = option_map ffe (mr_edge r1);
  msr_pred : same_map f PM1 PM2 (mr_pred r1) (mr_pred r2);
  msr_labels : same_map (fun l => l) LM1 LM2 (mr_labels r1) (mr_labels r2)
}.

Lemma mst_entries_map v es : forall no, mst_entries WT no (f v) (map fwe es) = map (entry_map WT ffe) (mst_entries WT no v es).
Proof. induction es as [|e es IH]; intros no; simpl; auto. now rewrite IH. Qed.
Lemma mst_start_entries_map l : forall no,
  mst_start_entries WT next2 no (map f l) = map (entry_map WT ffe) (mst_start_entries WT next1 no l).
Proof.
  induction l as [|v l IH]; intros no; simpl; auto. rewrite map_app, Hnext, mst_entries_map, map_length, IH. reflexivity.
Qed.

Lemma mst_choose_sim s1 s2 v e h : mst_same_state s1 s2 ->
  mst_same_state (mst_choose vid1 WT VS1 PM1 LM1 cfg (m_set_heap WT VS1 PM1 LM1 s1 h) v e)
    (mst_choose vid2 WT VS2 PM2 LM2 cfg (m_set_heap WT VS2 PM2 LM2 s2 (map (entry_map WT ffe) h)) (f v) (fwe e)).
Proof.
  intros H. constructor; simpl; auto; try apply H; rewrite Hvid.
  - apply same_set_add; auto. apply H.
  - destruct (mc_build_paths cfg); [apply same_map_set; auto; apply H|apply H].
  - destruct (_ && _); [apply (same_map_set I_dec (fun x : L => x)); apply H|apply H].
Qed.

Lemma mst_step_sim s1 s2 : mst_same_state s1 s2 ->
  step_rel mst_same_state mst_same_report
    (mst_step vid1 WT VS1 PM1 LM1 next1 cfg s1) (mst_step vid2 WT VS2 PM2 LM2 next2 cfg s2).
Proof.
  intros H. unfold mst_step. rewrite (mss_pc _ _ H), (mss_heap _ _ H).
  destruct (m_pc s1) as [sl| |v [|e rest]] eqn:Hpc; cbn [mpc_map map].
  - rewrite (mss_limit _ _ H), map_length. destruct (mst_limit_start (m_limit s1) (length sl)) as [lm|]; cbn [step_rel]; [|auto].
    split; [constructor|]. destruct H; constructor; cbn [mst_begin m_pc m_heap m_no m_visited m_pred m_labels m_edge m_limit m_calls]; auto.
    + rewrite mst_start_entries_map. apply heapify_map.
    + rewrite mst_start_entries_map, map_length. reflexivity.
    + now rewrite map_app, map_rev, mss_calls0.
  - destruct (m_heap s1) as [|[k [v e]] h] eqn:Hh; cbn [map]; [cbn [step_rel]; auto|].
    unfold entry_map at 1. cbv zeta. cbn [fst snd ffe]. change (fst (fst (fwe e))) with (f (fst (fst e))).
    rewrite Hvid, (mss_visited _ _ H (vid1 (fst (fst e)))).
    destruct (vs_mem VS2 (vid1 (fst (fst e))) (m_visited s2)).
    + cbn [step_rel]. split; [constructor|]. destruct H; constructor; cbn [m_set_heap m_pc m_heap m_no m_visited m_pred m_labels m_edge m_limit m_calls]; auto; congruence.
    + cbv zeta. assert (H1 := mst_choose_sim s1 s2 v e h H).
      set (t1 := mst_choose vid1 WT VS1 PM1 LM1 cfg _ v e) in *. set (t2 := mst_choose vid2 WT VS2 PM2 LM2 cfg _ (f v) _) in *.
      rewrite (mss_limit _ _ H1).
      assert (HO : Forall2 mst_same_report [mst_observe WT VS1 PM1 LM1 (fst (fst e)) t1]
                    [mst_observe WT VS2 PM2 LM2 (f (fst (fst e))) t2]).
      { constructor; [|constructor]. constructor; simpl; auto; apply H1. }
      clearbody t1 t2. destruct (limit_check (m_limit t1)); cbn [step_rel]; auto.
      split; auto. destruct H1; constructor; simpl; auto; [now rewrite Hnext|congruence].
  - cbn [step_rel]. split; [constructor|]. destruct H; constructor; simpl; auto.
  - change (fst (fst (fwe e))) with (f (fst (fst e))). rewrite Hvid, (mss_visited _ _ H (vid1 (fst (fst e)))).
    destruct (vs_mem VS2 (vid1 (fst (fst e))) (m_visited s2)); cbn [step_rel]; (split; [constructor|]).
    + destruct H; constructor; simpl; auto.
    + constructor; simpl; auto; try apply H.
      * rewrite (mss_heap _ _ H), (mss_no _ _ H), <- heappush_map. reflexivity.
      * now rewrite (mss_no _ _ H).
Qed.

Lemma mst_sim starts lim n :
  Forall2 mst_same_report (fst (mst_run vid1 WT VS1 PM1 LM1 next1 cfg starts lim n))
                          (fst (mst_run vid2 WT VS2 PM2 LM2 next2 cfg (map f starts) lim n)) /\
  outcome_rel mst_same_state (snd (mst_run vid1 WT VS1 PM1 LM1 next1 cfg starts lim n))
                          (snd (mst_run vid2 WT VS2 PM2 LM2 next2 cfg (map f starts) lim n)).
Proof.
  apply run_sim with (R := mst_same_state); [exact mst_step_sim|].
  constructor; simpl; auto.
  - rewrite map_map. replace (map (fun x => vid2 (f x)) starts) with (map vid1 starts) by (apply map_ext; auto).
    apply same_set_of_list. apply same_set_empty.
  - apply same_predecessors; auto.
  - apply same_map_empty.
Qed.
End MSTSim.

Lemma mst_gear {V I L : Type} (I_dec : forall a b : I, {a = b} + {a <> b}) (vid : V -> I) (WT : Weights)
    (VS1 VS2 : VSet I) (PM1 PM2 : PMap I V) (LM1 LM2 : PMap I L)
    (next : V -> list (V * w_t WT * L)) (cfg : mst_cfg) (starts : list V) lim n :
  let p1 := mst_run vid WT VS1 PM1 LM1 next cfg starts lim n in
  let p2 := mst_run vid WT VS2 PM2 LM2 next cfg starts lim n in
  Forall2 (mst_same_report (fun v => v) WT PM1 PM2 LM1 LM2) (fst p1) (fst p2) /\
  outcome_rel (mst_same_state (fun v => v) WT VS1 VS2 PM1 PM2 LM1 LM2) (snd p1) (snd p2).
Proof.
  intros p1 p2.
  assert (Hn : forall v : V, next v = map (fwe (fun v : V => v) WT) (next v)).
  { intros v. rewrite <- (map_id (next v)) at 1. apply map_ext. now intros [[a b] c]. }
  pose proof (mst_sim I_dec (fun v : V => v) vid vid (fun v => eq_refl) WT VS1 VS2 PM1 PM2 LM1 LM2
                next next Hn cfg starts lim n) as H.
  rewrite map_id in H. exact H.
Qed.

Lemma mst_ids_only {V I L : Type} (I_dec : forall a b : I, {a = b} + {a <> b}) (vid : V -> I) (WT : Weights)
    (VS : VSet I) (PM : PMap I V) (PMI : PMap I I) (LM : PMap I L)
    (next : V -> list (V * w_t WT * L)) (next_id : I -> list (I * w_t WT * L)) (cfg : mst_cfg) (starts : list V) lim n :
  (forall v, next_id (vid v) = map (fun e => (vid (fst (fst e)), snd (fst e), snd e)) (next v)) ->
  let p1 := mst_run vid WT VS PM LM next cfg starts lim n in
  let p2 := mst_run (fun i => i) WT VS PMI LM next_id cfg (map vid starts) lim n in
  Forall2 (mst_same_report vid WT PM PMI LM LM) (fst p1) (fst p2) /\
  outcome_rel (mst_same_state vid WT VS VS PM PMI LM LM) (snd p1) (snd p2).
Proof.
  intros Hn p1 p2.
  exact (mst_sim I_dec vid vid (fun i : I => i) (fun v => eq_refl) WT VS VS PM PMI LM LM next next_id Hn cfg starts lim n).
Qed.
