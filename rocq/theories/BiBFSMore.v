(** Bidirectional breadth first search: whole runs, and when they end. *)
From Coq Require Import List ZArith Bool Arith Lia.
From Verif Require Import Spec Machine MachineMore GearSpec Common CommonProofs TraversalSpec PathsModel PathsSpec PathModel PathSpec PathProofs BFSModel BFSProofs BiBFSModel BiBFSProofs.
Import ListNotations.

Section BiBFSMore.
Context {V I L : Type}.
Variable V_dec : forall a b : V, {a = b} + {a <> b}.
Variable I_dec : forall a b : I, {a = b} + {a <> b}.
Variable vid : V -> I.
Variable VS : VSet I.
Variable PM : PMap I V.
Variable LM : PMap I L.
Variable next_f next_b : V -> list (V * L).
Variables labeled build silent : bool.
Variable E : I -> I -> Prop.
Hypothesis Hf : presents vid next_f E.
Hypothesis Hb : presents vid next_b (fun i j => E j i).
Variables starts goals : list V.
Variable lim : option Z.
Notation cfg := (bb_cfg labeled build).
Notation nx := (nx next_f next_b).
Notation Ed := (Ed E).
Notation st := (st starts goals).
Notation SInv f := (Inv vid VS PM LM (nx f) cfg (Ed f) (st f) None).
Notation state := (@bb_state V I L VS PM LM).
Notation step := (bb_step V_dec vid VS PM LM next_f next_b labeled build silent).
Notation init := (bb_init vid VS PM LM labeled build starts goals lim).
Notation St := (is_start vid starts).
Notation Go_ := (is_start vid goals).
Notation cur s := (bs_state (bb_current s)).
Notation oth s := (bs_state (bb_other s)).
Notation BB := (BB vid VS PM LM next_f next_b labeled build E starts goals).
Notation connected := (connected vid E starts goals).
Notation good_result := (good_result vid next_f next_b labeled build silent E starts goals).

Lemma common_some v : bb_common I_dec vid starts goals = Some v -> In v starts /\ exists g, In g goals /\ vid g = vid v.
Proof.
  unfold bb_common. intros H. apply find_some in H. destruct H as [H1 H2]. split; auto.
  destruct (in_dec I_dec (vid v) (map vid goals)) as [Hi|]; [|discriminate]. apply in_map_iff in Hi. destruct Hi as (g & Hg & Hi). eauto.
Qed.

Lemma common_none : bb_common I_dec vid starts goals = None -> forall i, St i -> Go_ i -> False.
Proof.
  unfold bb_common. intros H i Hs Hg. apply in_map_iff in Hs. destruct Hs as (v & <- & Hv).
  pose proof (find_none _ _ H v Hv) as Hn. simpl in Hn. destruct (in_dec I_dec (vid v) (map vid goals)) as [|C]; [discriminate|]. exact (C Hg).
Qed.

(** The limits are absent if no limit is given. *)
Definition no_limits (s : state) : Prop := lim = None -> b_limit (cur s) = None /\ b_limit (oth s) = None.

Lemma side_limit next b o b' : bfs_step vid VS PM LM next cfg b = Go o b' -> b_limit b = None -> b_limit b' = None.
Proof.
  unfold bfs_step. intros Hs Hl. destruct (b_pc b) as [| |v [|[n l] rest]].
  - destruct (b_to_expand b); [discriminate|]. injection Hs as <- <-. exact Hl.
  - destruct (b_to_expand b); [injection Hs as <- <-; exact Hl|]. rewrite Hl in Hs. simpl in Hs. injection Hs as <- <-. reflexivity.
  - injection Hs as <- <-. exact Hl.
  - destruct (_ && _); injection Hs as <- <-; exact Hl.
Qed.

Lemma consume_sides reports : forall s o s', bb_consume V_dec vid VS PM LM labeled build s reports = Go o s' ->
  (bb_forwards s' = bb_forwards s /\ cur s' = cur s /\ bb_other s' = bb_other s) \/ (bb_forwards s' = negb (bb_forwards s) /\ bb_current s' = bb_other s /\ oth s' = cur s).
Proof.
  induction reports as [|r rest IH]; cbn [bb_consume]; intros s o s' H.
  - injection H as <- <-. auto.
  - destruct (match bb_prev s with Some u => if V_dec u (br_vertex r) then true else false | None => false end).
    + injection H as <- <-. simpl. auto.
    + destruct (vs_mem VS (vid (br_vertex r)) (b_visited (oth s))); [discriminate|]. apply IH in H. exact H.
Qed.

Lemma no_limits_step s o s' : no_limits s -> step s = Go o s' -> no_limits s'.
Proof.
  intros H Hs Hl. destruct (H Hl) as [H1 H2]. unfold bb_step in Hs.
  destruct (bfs_step vid VS PM LM (if bb_forwards s then next_f else next_b) cfg (cur s)) as [o1 b|o1 b|o1 x b] eqn:Hst;
    [|unfold bb_fail in Hs; destruct silent; discriminate|discriminate].
  apply side_limit in Hst; auto. apply consume_sides in Hs. simpl in Hs. destruct Hs as [(_ & -> & ->)|(_ & -> & ->)]; auto.
Qed.

(** ** What a run tells *)

Definition bb_says (os : list bb_result) (r : outcome state exn) : Prop :=
  match r with
  | Running _ => os = []
  | Ended _ => exists x, os = [x] /\ good_result x
  | Raised e _ => os = [] /\ ((e = RuntimeErrorLimit /\ lim <> None) \/ (e = KeyErrorNotFound /\ silent = false /\ forall k, ~ connected k))
  end.

Lemma from_vertex_good v : In v starts -> (exists g, In g goals /\ vid g = vid v) -> (forall u w, vid u = vid w -> u = w) ->
  good_path vid next_f next_b labeled E starts goals (from_vertex labeled v) 0.
Proof.
  intros Hv (g & Hg & Hid) Hinj. apply Hinj in Hid. subst g. exists [v], [], v. split; [apply (shows_mono _ 0); [lia|apply from_vertex_shows]|]. split; [reflexivity|]. split; [reflexivity|].
  split; [exact Hg|]. split; [|intros _ u w d []]. exists v, []. split; auto. split; auto. constructor.
Qed.

Theorem bb_run_says n os r : bb_run V_dec I_dec vid VS PM LM next_f next_b labeled build silent starts goals lim n = (os, r) -> bb_says os r.
Proof.
  unfold bb_run. destruct (bb_common I_dec vid starts goals) as [v|] eqn:Hc; intros HR.
  - injection HR as <- <-. simpl. eexists. split; [reflexivity|]. left. exists 0. simpl. destruct (common_some v Hc) as [Hv (g & Hg & Hid)].
    split; [reflexivity|]. split; [|split; [lia|]].
    + exists (vid v), [], (vid g). split; [apply in_map; auto|]. split; [apply in_map; auto|]. split; [|reflexivity]. rewrite Hid. constructor.
    + intros _ Hinj. apply from_vertex_good; eauto.
  - pose proof (common_none Hc) as HN.
    pose proof (run_inv_any step (fun pre s => pre = [] /\ BB s /\ no_limits s)) as HA.
    assert (HS : forall pre s o s', pre = [] /\ BB s /\ no_limits s -> step s = Go o s' -> (pre ++ o) = [] /\ BB s' /\ no_limits s').
    { intros pre s o s' (-> & HB & HL) Hs. pose proof (BB_step V_dec I_dec vid VS PM LM next_f next_b labeled build silent E Hf Hb starts goals s HB) as Ho.
      rewrite Hs in Ho. destruct Ho as [-> Ho]. split; auto. split; auto. eapply no_limits_step; eauto. }
    specialize (HA HS n [] init os r). simpl in HA.
    assert (H0 : [] = @nil (@bb_result V L) /\ BB init /\ no_limits init).
    { split; auto. split; [apply (BB_init I_dec); auto|]. intros ->. split; reflexivity. }
    specialize (HA H0 HR). destruct r as [s'|s'|x s']; simpl.
    + apply HA.
    + destruct HA as (os1 & o & s1 & -> & (-> & HB & _) & Hs).
      pose proof (BB_step V_dec I_dec vid VS PM LM next_f next_b labeled build silent E Hf Hb starts goals s1 HB) as Ho. rewrite Hs in Ho. exact Ho.
    + destruct HA as (os1 & o & s1 & -> & (-> & HB & HL) & Hs).
      pose proof (BB_step V_dec I_dec vid VS PM LM next_f next_b labeled build silent E Hf Hb starts goals s1 HB) as Ho. rewrite Hs in Ho.
      destruct Ho as [-> [[-> Ho]|(H1 & H2 & H3)]]; split; auto. left. split; auto. intros Hl. destruct (HL Hl) as [H1 _]. rewrite H1 in Ho. discriminate.
Qed.

(** ** Termination *)

Definition m2 (s : state) : nat := length (b_to_expand (cur s)).
Definition m3 (s : state) : nat :=
  match b_pc (cur s) with BWhile => match b_to_expand (cur s) with [] => 0 | _ :: _ => 2 end | BFor => 1 | BEdges _ rest => 2 + length rest end.
Definition less23 (s' s : state) : Prop := m2 s' < m2 s \/ (m2 s' = m2 s /\ m3 s' < m3 s).

Definition moved (s s' : state) : Prop :=
  (bb_forwards s' = bb_forwards s /\ oth s' = oth s /\ (b_depth (cur s) <= b_depth (cur s'))%Z /\ less23 s' s) \/
  (bb_forwards s' = negb (bb_forwards s) /\ cur s' = oth s /\ b_depth (oth s') = (b_depth (cur s) + 1)%Z).

Lemma moves s o s' : BB s -> step s = Go o s' -> moved s s'.
Proof.
  intros [(F & d & HI) (F' & d' & HI' & HD') Hpc' HA HP] Hs. unfold bb_step in Hs.
  change (if bb_forwards s then next_f else next_b) with (nx (bb_forwards s)) in Hs.
  destruct (bfs_step vid VS PM LM (nx (bb_forwards s)) cfg (cur s)) as [o1 b|o1 b|o1 x b] eqn:Hst;
    [|unfold bb_fail in Hs; destruct silent; discriminate|discriminate].
  assert (Hq : (b_pc (cur s) = BFor /\ b_to_expand (cur s) = [] /\ b_pc b = BWhile /\ b_to_expand b = b_next (cur s) /\ b_next b = []) \/
               (length (b_to_expand b) < length (b_to_expand (cur s)) \/ (length (b_to_expand b) = length (b_to_expand (cur s)) /\
                 match b_pc b with BWhile => match b_to_expand b with [] => 0 | _ :: _ => 2 end | BFor => 1 | BEdges _ rest => 2 + length rest end < m3 s))).
  { clear Hs. unfold m3. unfold bfs_step in Hst. destruct (b_pc (cur s)) as [| |v [|[n l] rest]].
    - destruct (b_to_expand (cur s)) eqn:He; [discriminate|]. injection Hst as <- <-. simpl. rewrite He. simpl. right. right. auto.
    - destruct (b_to_expand (cur s)) eqn:He; [injection Hst as <- <-; simpl; auto 10|]. destruct (limit_check (b_limit (cur s))); [|discriminate Hst]. injection Hst as <- <-. simpl. right. left. auto.
    - injection Hst as <- <-. simpl. right. right. auto.
    - destruct (_ && _); injection Hst as <- <-; simpl; right; right; auto. }
  destruct (side_step I_dec vid VS PM LM (nx (bb_forwards s)) cfg (cfg_tree labeled build) (cfg_rdi labeled build) (Ed (bb_forwards s)) (presents_nx vid next_f next_b E Hf Hb _) (st (bb_forwards s)) F d _ _ _ HI Hst)
      as [d2 -> HI2 _ Hd Hv Hn|v r -> Hr Hrd HI2 Hnew Hv Hn|v r x -> Hr Hrd Hn HI2 Hpc2 Hv Hn2 _].
  - simpl in Hs. injection Hs as <- <-. left. simpl. split; auto. split; auto.
    split. { destruct (i_d _ _ _ _ _ _ _ _ _ _ _ _ HI) as [-> _]. destruct (i_d _ _ _ _ _ _ _ _ _ _ _ _ HI2) as [-> _]. lia. }
    unfold less23. unfold m2, m3 at 1. simpl. destruct Hq as [(Q1 & Q2 & Q3 & Q4 & Q5)|Hq]; [|exact Hq].
    right. unfold m3. rewrite Q1, Q2, Q3, Q4, <- Hn, Q5. auto.
  - cbn [bb_consume bb_set_current bb_prev bb_current bb_other bb_forwards bs_state bs_depth] in Hs. rewrite Hr in Hs.
    assert (Hneq : match bb_prev s with Some u => if V_dec u v then true else false | None => false end = false).
    { rewrite HP. destruct (rev (b_next (cur s))) as [|u x] eqn:Hre; auto. destruct (V_dec u v) as [->|]; auto. exfalso.
      assert (Hin : In v (b_next (cur s))) by (apply in_rev; rewrite Hre; now left).
      apply (i_nx _ _ _ _ _ _ _ _ _ _ _ _ HI) in Hin.
      assert (C : vs_mem VS (vid v) (b_visited (cur s)) = true); [|congruence].
      apply (side_visited vid VS PM LM (nx (bb_forwards s)) cfg (Ed (bb_forwards s)) (st (bb_forwards s)) F d); auto. exists d. right. eauto. }
    rewrite Hneq in Hs. destruct (vs_mem VS (vid v) (b_visited (oth s))); [discriminate|]. injection Hs as <- <-.
    left. simpl. split; auto. split; auto. split. { destruct (i_d _ _ _ _ _ _ _ _ _ _ _ _ HI) as [-> _]. destruct (i_d _ _ _ _ _ _ _ _ _ _ _ _ HI2) as [-> _]. lia. }
    unfold less23. unfold m2, m3 at 1. simpl. destruct Hq as [(Q1 & Q2 & Q3 & Q4 & Q5)|Hq]; [|exact Hq].
    rewrite Q5 in Hn. destruct (b_next (cur s)); discriminate.
  - cbn [bb_consume bb_set_current bb_prev bb_current bb_other bb_forwards bs_state bs_depth] in Hs. rewrite Hr, HP, Hn, rev_app_distr in Hs. simpl rev in Hs. cbn [app] in Hs.
    destruct (V_dec v v) as [_|C]; [|congruence]. injection Hs as <- <-. right. simpl. split; auto. split; auto.
    destruct (i_d _ _ _ _ _ _ _ _ _ _ _ _ HI) as [-> _]. destruct (i_d _ _ _ _ _ _ _ _ _ _ _ _ HI2) as [-> _]. lia.
Qed.

Lemma terminates_by (m1 : state -> nat) :
  (forall s s', BB s -> BB s' -> moved s s' -> (bb_forwards s' = bb_forwards s -> m1 s' <= m1 s) /\ (bb_forwards s' = negb (bb_forwards s) -> m1 s' < m1 s)) ->
  (forall i, St i -> Go_ i -> False) -> exists n os r, run step n init = (os, r) /\ forall s', r <> Running s'.
Proof.
  intros Hm HN. apply (run_terminates_wf step (lex3 m1 m2 m3) BB); [apply lex3_wf| |apply (BB_init I_dec); auto].
  intros s o s' HB Hs. pose proof (moves s o s' HB Hs) as Hmv.
  pose proof (BB_step V_dec I_dec vid VS PM LM next_f next_b labeled build silent E Hf Hb starts goals s HB) as HB'. rewrite Hs in HB'. destruct HB' as [_ HB'].
  split; auto. destruct (Hm s s' HB HB' Hmv) as [M1 M2]. unfold lex3. destruct Hmv as [(H1 & _ & _ & H2)|(H1 & _)].
  - specialize (M1 H1). unfold less23 in H2. destruct (Nat.eq_dec (m1 s') (m1 s)); [right; split; auto|left; lia].
  - left. auto.
Qed.

(** The search ends if a path exists ... *)
Lemma ends_if_connected k : connected k -> (forall i, St i -> Go_ i -> False) -> exists n os r, run step n init = (os, r) /\ forall s', r <> Running s'.
Proof.
  intros Hk HN. apply (terminates_by (fun s => k + 2 - (Z.to_nat (b_depth (cur s)) + Z.to_nat (b_depth (oth s))))); auto.
  intros s s' [(F & d & HI) (F' & d' & HI' & HD') Hpc' HA HP] [(F2 & d2 & HI2) (F2' & d2' & HI2' & HD2') Hpc2' HA2 HP2] Hmv.
  pose proof (apart vid VS PM LM next_f next_b labeled build E starts goals _ _ _ _ _ _ _ HI2 HI2' HA2 k Hk) as Hlow.
  destruct (i_d _ _ _ _ _ _ _ _ _ _ _ _ HI) as [D1 _]. destruct (i_d _ _ _ _ _ _ _ _ _ _ _ _ HI') as [D2 _].
  destruct (i_d _ _ _ _ _ _ _ _ _ _ _ _ HI2) as [D3 _]. destruct (i_d _ _ _ _ _ _ _ _ _ _ _ _ HI2') as [D4 _].
  destruct Hmv as [(H1 & H2 & H3 & _)|(H1 & H2 & H3)].
  - rewrite H2 in *. split; [|intros C; rewrite H1 in C; destruct (bb_forwards s); discriminate]. intros _. rewrite D1, D2, D3 in *. lia.
  - rewrite H2 in *. split; [intros C; rewrite H1 in C; destruct (bb_forwards s); discriminate|]. intros _. rewrite D1, D2, D4 in *. lia.
Qed.

Lemma depth_bound f F d b l : SInv f F d b -> (forall i, reachable (Ed f) (is_st vid starts goals f) i -> In i l) -> d <= length l + 2.
Proof.
  intros HI Hl. assert (HF : length F <= length l).
  { rewrite <- (map_length (fun x => vid (fst x)) F). apply NoDup_incl_length; [exact (i_nodup _ _ _ _ _ _ _ _ _ _ _ _ HI)|].
    intros i Hi. apply in_map_iff in Hi. destruct Hi as ([v k] & <- & Hv). apply Hl.
    destruct (lv_walk vid VS PM LM (nx f) cfg (Ed f) (st f) F d b (vid v) k HI) as (s & p & H1 & H2 & _); [right; exists v; auto|]. exists s, p. auto. }
  destruct (b_pc b) eqn:Hpc.
  - destruct (i_while _ _ _ _ _ _ _ _ _ _ _ _ HI Hpc) as (_ & _ & _ & _ & H & _). lia.
  - destruct (i_loop _ _ _ _ _ _ _ _ _ _ _ _ HI) as [_ H]; [congruence|lia].
  - destruct (i_loop _ _ _ _ _ _ _ _ _ _ _ _ HI) as [_ H]; [congruence|lia].
Qed.

(** ... or if only finitely many vertices are reachable in one of the directions. *)
Lemma ends_if_finite f l : (forall i, reachable (Ed f) (is_st vid starts goals f) i -> In i l) -> (forall i, St i -> Go_ i -> False) ->
  exists n os r, run step n init = (os, r) /\ forall s', r <> Running s'.
Proof.
  intros Hl HN.
  apply (terminates_by (fun s => 2 * (length l + 2 - Z.to_nat (b_depth (if Bool.eqb (bb_forwards s) f then cur s else oth s))) + if Bool.eqb (bb_forwards s) f then 0 else 1)); auto.
  intros s s' [(F & d & HI) (F' & d' & HI' & HD') Hpc' HA HP] [(F2 & d2 & HI2) (F2' & d2' & HI2' & HD2') Hpc2' HA2 HP2] Hmv.
  destruct (i_d _ _ _ _ _ _ _ _ _ _ _ _ HI) as [D1 _]. destruct (i_d _ _ _ _ _ _ _ _ _ _ _ _ HI') as [D2 _].
  destruct (i_d _ _ _ _ _ _ _ _ _ _ _ _ HI2) as [D3 _]. destruct (i_d _ _ _ _ _ _ _ _ _ _ _ _ HI2') as [D4 _].
  destruct Hmv as [(H1 & H2 & H3 & _)|(H1 & H2 & H3)].
  - split; [|intros C; rewrite H1 in C; destruct (bb_forwards s); discriminate]. intros _. rewrite H1 in *. rewrite H2 in *.
    destruct (Bool.eqb (bb_forwards s) f); [|lia]. rewrite D1, D3 in *. lia.
  - split; [intros C; rewrite H1 in C; destruct (bb_forwards s); discriminate|]. intros _.
    assert (Hfl : forall b, bb_forwards s = f -> SInv (negb (bb_forwards s')) F2' d2' b -> d2' <= length l + 2).
    { intros b <- Hx. rewrite H1, negb_involutive in Hx. eapply depth_bound; eauto. }
    rewrite H1 in *. destruct (Bool.eqb (bb_forwards s) f) eqn:He.
    + apply eqb_prop in He. specialize (Hfl _ He HI2'). rewrite He. replace (Bool.eqb (negb f) f) with false by (destruct f; reflexivity).
      rewrite D4, D1 in *. lia.
    + replace (Bool.eqb (negb (bb_forwards s)) f) with true by (destruct (bb_forwards s), f; auto; discriminate). rewrite H2. lia.
Qed.

Notation bbrun := (bb_run V_dec I_dec vid VS PM LM next_f next_b labeled build silent starts goals).

Theorem bb_run_ends : (exists k, connected k) \/ (exists l, forall i, reachable E St i -> In i l) \/ (exists l, forall i, reachable (fun a b => E b a) Go_ i -> In i l) ->
  exists n os r, bbrun lim n = (os, r) /\ forall s', r <> Running s'.
Proof.
  intros H. unfold bb_run. destruct (bb_common I_dec vid starts goals) as [v|] eqn:Hc.
  - exists 0. eexists _, _. split; [reflexivity|]. discriminate.
  - pose proof (common_none Hc) as HN. destruct H as [(k & Hk)|[(l & Hl)|(l & Hl)]].
    + eapply ends_if_connected; eauto.
    + apply (ends_if_finite true l); auto.
    + apply (ends_if_finite false l); auto.
Qed.

Lemma bb_run_exact n os r : bbrun lim n = (os, r) ->
  match r with
  | Running _ => os = []
  | Ended _ => exists x, os = [x] /\
      ((exists k, br_length x = Z.of_nat k /\ connected k /\ forall k', connected k' -> k <= k') \/ (silent = true /\ br_length x = (-1)%Z /\ forall k, ~ connected k))
  | Raised e _ => os = [] /\ ((e = RuntimeErrorLimit /\ lim <> None) \/ (e = KeyErrorNotFound /\ silent = false /\ forall k, ~ connected k))
  end.
Proof.
  intros H. apply bb_run_says in H. destruct r; simpl in H; auto. destruct H as (x & -> & [(k & H1 & H2 & H3 & _)|H]); exists x; split; auto. left. exists k. auto.
Qed.

Lemma bb_run_path n x r k : build = true -> (forall u w, vid u = vid w -> u = w) -> bbrun lim n = ([x], r) -> br_length x = Z.of_nat k ->
  good_path vid next_f next_b labeled E starts goals (br_path x) k.
Proof.
  intros Hbu Hinj H Hk. apply bb_run_says in H. destruct r; simpl in H; [discriminate| |destruct H; discriminate].
  destruct H as (y & Hy & [(k' & H1 & _ & _ & H4)|(_ & H & _)]); injection Hy as <-.
  - replace k with k' by lia. auto.
  - lia.
Qed.
End BiBFSMore.
