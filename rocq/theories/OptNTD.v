(** Proofs for C101, part 4: with and without compute_depth, TraversalNeighborsThenDepth proceeds in lock step. *)
From Coq Require Import List Arith Lia ZArith Bool.
From Verif Require Import Common GearSpec Machine MachineSim NTDModel OptSpec OptSim.
Import ListNotations.

Section Depth.
Context {V I L : Type} (vid : V -> I) (VS : VSet I) (PM : PMap I V) (LM : PMap I L) (next : V -> list (V * L)).
Notation state := (@ntd_state V I L VS PM LM).

Definition marked (c : ntd_cfg) (s : state) : Prop := nc_compute_depth c = true -> count_occ bool_dec (n_markers s) false = length (n_to_expand s).
Definition ntd_near (c1 c2 : ntd_cfg) (s1 s2 : state) : Prop :=
  n_pc s1 = n_pc s2 /\ n_to_expand s1 = n_to_expand s2 /\ n_visited s1 = n_visited s2 /\ n_limit s1 = n_limit s2 /\
  map fst (n_calls s1) = map fst (n_calls s2) /\ marked c1 s1 /\ marked c2 s2.

Lemma leave_found : forall m d k, count_occ bool_dec m false = S k -> exists m' d', ntd_leave m d = Some (m', d') /\ count_occ bool_dec m' false = k.
Proof.
  induction m as [|[|] m IH]; intros d k H; cbn in H; [discriminate| |]; cbn.
  - destruct (IH (d - 1)%Z k H) as (m' & d' & H1 & H2). eauto.
  - injection H as H. eauto.
Qed.
Lemma enter_found c s v r : marked c s -> n_to_expand s = v :: r -> exists s', ntd_enter VS PM LM c s r = Some s' /\
  n_pc s' = n_pc s /\ n_to_expand s' = r /\ n_visited s' = n_visited s /\ n_limit s' = n_limit s /\ n_calls s' = n_calls s /\ marked c s'.
Proof.
  intros Hm Hv. unfold ntd_enter, marked in *. destruct (nc_compute_depth c) eqn:E.
  - rewrite Hv in Hm. destruct (leave_found _ (n_loop_depth s + 1)%Z _ (Hm eq_refl)) as (m' & d' & -> & H). eexists. repeat split. intros _. exact H.
  - eexists. repeat split. discriminate.
Qed.

Lemma ntd_depth_option starts av lim n c1 c2 os1 r1 os2 r2 : nc_is_tree c1 = nc_is_tree c2 ->
  ntd_run vid VS PM LM next c1 starts av lim n = (os1, r1) -> ntd_run vid VS PM LM next c2 starts av lim n = (os2, r2) ->
  map (fun rep => (nr_vertex rep, nr_visited rep)) os1 = map (fun rep => (nr_vertex rep, nr_visited rep)) os2 /\
  outcome_map (fun s => map fst (n_calls s)) r1 = outcome_map (fun s => map fst (n_calls s)) r2.
Proof.
  intros Ht. unfold ntd_run. apply (seen_run _ _ (ntd_near c1 c2)).
  - intros s1 s2 H. apply H.
  - intros s1 s2 (Hp & He & Hv & Hl & Hc & H1 & H2). unfold ntd_step. rewrite <- Hp, <- He. destruct (n_pc s1) as [|v [|[n' l] rest]] eqn:Epc.
    + destruct (n_to_expand s1) as [|v r] eqn:Ee; [split; [constructor|]; repeat split; try rewrite Epc; auto; congruence|].
      destruct (enter_found c1 s1 v r H1 Ee) as (s1' & -> & A1 & A2 & A3 & A4 & A5 & A6). destruct (enter_found c2 s2 v r H2 (eq_sym He)) as (s2' & -> & B1 & B2 & B3 & B4 & B5 & B6).
      rewrite A4, B4, <- Hl. destruct (limit_check (n_limit s1)) as [lim'|].
      * split; [constructor|]. unfold ntd_near, marked, ntd_expand in *; cbn in *. rewrite A5, B5, A2, B2 in *. repeat split; auto; congruence.
      * split; [constructor|]. split; [reflexivity|]. unfold ntd_near, marked in *; cbn in *. rewrite A5, B5, A2, B2 in *. repeat split; auto; congruence.
    + split; [constructor|]. unfold ntd_near, marked, n_set_pc in *; cbn in *. repeat split; auto.
    + rewrite <- Ht, <- Hv. destruct (negb (nc_is_tree c1) && vs_mem VS (vid n') (n_visited s1)).
      * split; [constructor|]. unfold ntd_near, marked, n_set_pc in *; cbn in *. repeat split; auto.
      * split; [repeat constructor; cbn; rewrite <- Ht, <- Hv; reflexivity|]. unfold ntd_near, marked, ntd_push, ntd_mark in *; cbn in *. rewrite <- Ht, <- Hv, <- He.
        repeat split; auto; intros E; rewrite E; cbn; f_equal; [auto|rewrite He; auto].
  - unfold ntd_init. repeat split; cbn; rewrite ?Ht; auto; unfold marked; cbn; intros E; rewrite E, rev_length; clear; induction starts; cbn; auto.
Qed.
End Depth.
