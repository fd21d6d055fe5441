(** The traversal for infinite branching with two gears runs in lock step. *)
From Coq Require Import List ZArith Bool Lia.
From Verif Require Import Machine MachineSim GearSpec Common BFSSim PathsModel Weight HeapModel DijkstraModel DijkstraSim InfModel.
Import ListNotations.

Section InfSim.
Context {V : Type}.
Variable V_dec : forall a b : V, {a = b} + {a <> b}.
Variable edge : V -> nat -> option (V * option Z).
Notation state := (V * nat)%type.
Notation ZI := ZInfWeights.
Notation W := (option Z).
Notation sid := (fun s : state => s).
Variables DM1 DM2 : DMap V W None.
Variables PM1 PM2 : PMap V V.
Variables DMi1 DMi2 : DMap state W None.
Variables PMi1 PMi2 : PMap state state.
Variables LMi1 LMi2 : PMap state unit.
Variables build_paths store_distances : bool.
Notation cfg := (inf_inner_cfg build_paths).
Notation SD := (@state_dec V V_dec).
Notation same_in := (dij_same_state sid ZI DMi1 DMi2 PMi1 PMi2 LMi1 LMi2).
Notation same_rep := (dij_same_report sid ZI DMi1 DMi2 PMi1 PMi2 LMi1 LMi2).

(** The same observable content *)
Record inf_same_state (s1 : @inf_state V DM1 PM1 DMi1 PMi1 LMi1) (s2 : @inf_state V DM2 PM2 DMi2 PMi2 LMi2) : Prop := {
  nss_in : same_in (n_in s1) (n_in s2);
  nss_iters : n_iters s2 = n_iters s1;
  nss_distance : n_distance s2 = n_distance s1;
  nss_pred : same_map (fun v => v) PM1 PM2 (n_pred s1) (n_pred s2);
  nss_distances : same_dmap DM1 DM2 (n_distances s1) (n_distances s2);
  nss_calls : n_calls s2 = n_calls s1;
  nss_reads : n_reads s2 = n_reads s1
}.
Record inf_same_report (r1 : @inf_report V DM1 PM1) (r2 : @inf_report V DM2 PM2) : Prop := {
  nsr_vertex : nr_vertex r2 = nr_vertex r1;
  nsr_distance : nr_distance r2 = nr_distance r1;
  nsr_pred : same_map (fun v => v) PM1 PM2 (nr_pred r1) (nr_pred r2);
  nsr_distances : same_dmap DM1 DM2 (nr_distances r1) (nr_distances r2)
}.

Notation step1 := (inf_step V_dec edge DM1 PM1 DMi1 PMi1 LMi1 build_paths store_distances).
Notation step2 := (inf_step V_dec edge DM2 PM2 DMi2 PMi2 LMi2 build_paths store_distances).
Notation handle1 := (inf_handle V_dec DM1 PM1 DMi1 PMi1 LMi1 build_paths store_distances).
Notation handle2 := (inf_handle V_dec DM2 PM2 DMi2 PMi2 LMi2 build_paths store_distances).
Notation set1 := (n_set_in DM1 PM1 DMi1 PMi1 LMi1).
Notation set2 := (n_set_in DM2 PM2 DMi2 PMi2 LMi2).

Lemma edges_same it d1 d2 st : same_dmap DMi1 DMi2 d1 d2 -> next_state_edges V_dec edge DMi2 it d2 st = next_state_edges V_dec edge DMi1 it d1 st.
Proof. intros H. unfold next_state_edges. destruct st as [v k]. rewrite <- !H. reflexivity. Qed.

Lemma predecessor_same p1 p2 st : same_map sid PMi1 PMi2 p1 p2 -> paths_predecessor SD sid PMi2 p2 st = paths_predecessor SD sid PMi1 p1 st.
Proof. intros H. unfold paths_predecessor. rewrite <- H. destruct (pm_get PMi1 st p1); reflexivity. Qed.

Lemma handle_sim s1 s2 o1 o2 : inf_same_state s1 s2 -> Forall2 same_rep o1 o2 ->
  match handle1 s1 o1, handle2 s2 o2 with
  | inl (u1, t1), inl (u2, t2) => Forall2 inf_same_report u1 u2 /\ inf_same_state t1 t2 /\ n_iters t1 = n_iters s1
  | inr x1, inr x2 => x1 = x2
  | _, _ => False
  end.
Proof.
  intros H [|r1 r2 q1 q2 Hr _]; cbn [inf_handle]; [auto|].
  rewrite (dsr_vertex _ _ _ _ _ _ _ _ _ _ Hr). destruct (dr_vertex r1) as [v k]. destruct (negb (Nat.eqb k 0)); [auto|].
  rewrite (predecessor_same _ _ _ (dsr_pred _ _ _ _ _ _ _ _ _ _ Hr)). rewrite (dsr_distance _ _ _ _ _ _ _ _ _ _ Hr).
  assert (HD : same_dmap DM1 DM2 (if store_distances then dm_set DM1 v (dr_distance r1) (n_distances s1) else n_distances s1)
                                 (if store_distances then dm_set DM2 v (dr_distance r1) (n_distances s2) else n_distances s2)).
  { destruct store_distances; [apply (same_dmap_set V_dec)|]; apply H. }
  destruct build_paths.
  - destruct (paths_predecessor _ _ _ _) as [[[p j]|]| |]; auto. cbv zeta.
    assert (HP : same_map (fun v => v) PM1 PM2 (pm_set PM1 v p (n_pred s1)) (pm_set PM2 v p (n_pred s2))).
    { apply (same_map_set V_dec (fun v => v)), H. }
    split; [constructor; constructor; auto|]. split; [|reflexivity]. destruct H; constructor; auto.
  - cbv zeta. split; [constructor; constructor; auto; apply H|]. split; [|reflexivity]. destruct H; constructor; auto.
Qed.

Lemma set_sim s1 s2 i1 i2 : inf_same_state s1 s2 -> same_in i1 i2 -> inf_same_state (set1 s1 i1) (set2 s2 i2).
Proof. intros [] H. constructor; auto. Qed.

Lemma expanded_same i1 i2 j1 j2 : same_in i1 i2 -> same_in j1 j2 -> inf_expanded DMi2 PMi2 LMi2 i2 j2 = inf_expanded DMi1 PMi1 LMi1 i1 j1.
Proof. intros H J. unfold inf_expanded. rewrite (dss_pc _ _ _ _ _ _ _ _ _ _ H), (dss_pc _ _ _ _ _ _ _ _ _ _ J). destruct (d_pc i1), (d_pc j1); reflexivity. Qed.

Lemma inf_step_sim s1 s2 : inf_same_state s1 s2 -> step_rel inf_same_state inf_same_report (step1 s1) (step2 s2).
Proof.
  intros H. unfold inf_step.
  assert (Hn : forall st, next_state_edges V_dec edge DMi2 (n_iters s2) (d_distances (n_in s2)) st = next_state_edges V_dec edge DMi1 (n_iters s1) (d_distances (n_in s1)) st).
  { intros st. rewrite (nss_iters _ _ H). apply edges_same. apply (nss_in _ _ H). }
  set (e1 := fun st => match next_state_edges V_dec edge DMi1 (n_iters s1) (d_distances (n_in s1)) st with Some (l, _) => l | None => [] end).
  set (e2 := fun st => match next_state_edges V_dec edge DMi2 (n_iters s2) (d_distances (n_in s2)) st with Some (l, _) => l | None => [] end).
  assert (He : forall st, e2 st = map (fwe sid ZI) (e1 st)).
  { intros st. unfold e2, e1. rewrite Hn. destruct (next_state_edges _ _ _ _ _ st) as [[l it]|]; [|reflexivity].
    rewrite <- (map_id l) at 1. apply map_ext. now intros [[a b] c]. }
  pose proof (dij_step_sim SD sid sid sid (fun v => eq_refl) ZI DMi1 DMi2 PMi1 PMi2 LMi1 LMi2 e1 e2 He cfg _ _ (nss_in _ _ H)) as Hs.
  unfold step_rel in Hs.
  destruct (dij_step sid ZI DMi1 PMi1 LMi1 e1 cfg (n_in s1)) as [o1 i1|o1 i1|o1 x1 i1], (dij_step sid ZI DMi2 PMi2 LMi2 e2 cfg (n_in s2)) as [o2 i2|o2 i2|o2 x2 i2]; try contradiction.
  - destruct Hs as [Ho Hi]. pose proof (handle_sim _ _ _ _ H Ho) as Hh. destruct (handle1 s1 o1) as [[u1 t1]|y1], (handle2 s2 o2) as [[u2 t2]|y2]; try contradiction; [|subst; simpl; auto].
    destruct Hh as (Hu & Ht & _). cbv zeta. rewrite (expanded_same _ _ _ _ (nss_in _ _ H) Hi). destruct (inf_expanded DMi1 PMi1 LMi1 (n_in s1) i1) as [st|].
    + rewrite Hn. destruct (next_state_edges _ _ _ _ _ st) as [[l it]|]; [|simpl; auto using set_sim]. simpl. split; auto.
      assert (HD : dm_get DMi2 (fst st, 0) (d_distances i2) = dm_get DMi1 (fst st, 0) (d_distances i1)) by (symmetry; apply (dss_distances _ _ _ _ _ _ _ _ _ _ Hi)).
      destruct Ht as [A B C D E F G]. unfold inf_note, n_set_in. constructor; cbn; auto; rewrite ?HD, ?B, ?C, ?F, ?G; reflexivity.
    + simpl. auto using set_sim.
  - destruct Hs as [Ho Hi]. pose proof (handle_sim _ _ _ _ H Ho) as Hh. destruct (handle1 s1 o1) as [[u1 t1]|y1], (handle2 s2 o2) as [[u2 t2]|y2]; try contradiction; [|subst; simpl; auto].
    destruct Hh as (Hu & Ht & _). simpl. auto using set_sim.
  - destruct Hs as (Ho & Hx & Hi). pose proof (handle_sim _ _ _ _ H Ho) as Hh. destruct (handle1 s1 o1) as [[u1 t1]|y1], (handle2 s2 o2) as [[u2 t2]|y2]; try contradiction; [|subst; simpl; auto].
    destruct Hh as (Hu & Ht & _). simpl. auto using set_sim.
Qed.

Lemma inf_gear starts lim n :
  let p1 := inf_run V_dec edge DM1 PM1 DMi1 PMi1 LMi1 build_paths store_distances starts lim n in
  let p2 := inf_run V_dec edge DM2 PM2 DMi2 PMi2 LMi2 build_paths store_distances starts lim n in
  Forall2 inf_same_report (fst p1) (fst p2) /\ outcome_rel inf_same_state (snd p1) (snd p2).
Proof.
  intros p1 p2. apply run_sim with (R := inf_same_state); [exact inf_step_sim|].
  pose proof (dij_gear SD sid ZI DMi1 DMi2 PMi1 PMi2 LMi1 LMi2 (fun _ => []) cfg (map (fun v => (v, 0)) starts) None None lim 0 Logic.I) as [_ Hi].
  constructor; cbn; auto.
  - unfold create_predecessors. destruct build_paths; [|apply same_map_empty].
    replace (map (fun v : V => (v, v)) starts) with (map (fun p : V * V => (fst p, (fun v => v) (snd p))) (map (fun v : V => (v, v)) starts)) at 2.
    + apply (same_map_of_list V_dec (fun v => v)). apply same_map_empty.
    + rewrite map_map. reflexivity.
  - exact (same_define_distances V_dec ZI DM1 DM2 None None (if store_distances then map (fun v => (v, Some 0%Z)) starts else []) false Logic.I).
Qed.
End InfSim.
