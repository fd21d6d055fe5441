(** The search for a round trip if all edges have the same weight: it fails only if there is no round trip. *)
From Coq Require Import List ZArith Bool Lia Permutation Arith.
From Verif Require Import Machine GearSpec Common TraversalSpec PathsModel PathModel PathSpec Weight WeightSpec HeapModel HeapProofs DijkstraModel
  BiSPModel BiSPSpec BiSPSide BiSPProofs BiSPMore BiSPPaths BiSPRun TspModel TspSpec TspBits TspProofs TspRun.
Import ListNotations.
Local Open Scope Z_scope.

Section Equal.
Variable DM : DMap Z (option Z) None.
Variable PM : PMap Z Z.
Variable LM : PMap Z unit.
Variables forth back : list (list (option Z)).
Variable N : nat.
Notation n := (Z.of_nat N).
Hypothesis HN : (2 <= N)%nat.
Hypothesis Hsym : forall v w, 0 <= v < n -> 0 <= w < n -> cell back v w = cell forth w v.
Hypothesis Hfpos : forall v w x, cell forth v w = Some x -> 0 <= x.
Hypothesis Hbpos : forall v w x, cell back v w = Some x -> 0 <= x.
Variable w0 : Z.
Hypothesis Hw0 : forall v w x, 0 <= v < n -> 0 <= w < n -> v <> w -> cell forth v w = Some x -> x = w0.
Hypothesis Hw0pos : 0 <= w0.
Notation S0 := (2 ^ n - 1 - 1).
Notation TE := (TE forth N).
Notation TB := (TB back N).
Notation st := (st N).
Notation valid := (valid N).
Notation wt := (fun a b => if a =? b then None else cell forth a b).
Notation nextf := (next_edges_forwards forth N).
Notation nextb := (next_edges_backwards back N).
Notation state := (@b2_state Z Z unit ZI DM PM LM).
Notation side_of := (side_of ZI DM PM LM).
Notation GI := (GI (fun s : Z => s) ZI DM PM LM nextf nextb TE TB [start_state N] [goal_state N]).
Notation moved := (moved (fun s : Z => s) ZI DM PM LM nextf nextb false true).
Notation fresh := (fresh (fun s : Z => s) ZI DM PM LM TE TB [start_state N] [goal_state N]).

Lemma mask_range (a b : Z) : 0 <= b < 2 ^ n -> 0 <= Z.land a b < 2 ^ n.
Proof.
  intros Hb. assert (H0 : 0 <= Z.land a b) by (apply Z.land_nonneg; lia). split; auto. apply bits_below; [lia|auto|].
  intros k Hk. rewrite Z.land_spec, (below_bit n b) by lia. apply andb_false_r.
Qed.

Lemma mod_range i : 0 <= i mod n < n.
Proof. apply Z.mod_pos_bound. lia. Qed.

Lemma TE_w0 i w j : TE i w j -> w = Some w0.
Proof.
  intros H. unfold TspProofs.TE in H. apply in_map_iff in H. destruct H as ([[x y] l] & Heq & Hin). simpl in Heq. injection Heq as -> ->.
  unfold next_edges_forwards in Hin. apply edges_to_in in Hin; [|apply mask_range, adjacent_range]. destruct Hin as (u & Hu & Hb & _ & ->).
  rewrite Z.land_spec in Hb. apply andb_true_iff in Hb. destruct Hb as [_ Hb]. apply adjacent_bit in Hb; auto. destruct Hb as (H1 & H2 & H3).
  destruct (cell forth (i mod n) u) as [x|] eqn:E; [|contradiction]. f_equal. eapply Hw0; [apply (mod_range i)| | |exact E]; auto.
Qed.

Lemma TB_w0 i w j : TB i w j -> w = Some w0.
Proof.
  intros H. unfold TspProofs.TB in H. apply in_map_iff in H. destruct H as ([[x y] l] & Heq & Hin). simpl in Heq. injection Heq as -> ->.
  unfold next_edges_backwards in Hin. apply edges_to_in in Hin; [|apply mask_range, adjacent_range]. destruct Hin as (u & Hu & Hb & _ & ->).
  rewrite Z.land_spec in Hb. apply andb_true_iff in Hb. destruct Hb as [_ Hb]. apply adjacent_bit in Hb; auto. destruct Hb as (H1 & H2 & H3).
  rewrite Hsym in * by (auto; apply mod_range).
  destruct (cell forth u (i mod n)) as [x|] eqn:E; [|contradiction]. f_equal. eapply Hw0; [|apply (mod_range i)| |exact E]; auto.
Qed.

Lemma steady0 : steady (fun s : Z => s) ZI TE TB [start_state N] [goal_state N].
Proof. left. exists (Some w0). intros [|] i w j; simpl; [apply TE_w0|apply TB_w0]. Qed.

Lemma st_inj a b c d : 0 <= b < n -> 0 <= d < n -> st a b = st c d -> a = c /\ b = d.
Proof.
  intros Hb Hd Heq. split; [rewrite <- (st_div N HN a b), <- (st_div N HN c d), Heq by auto; reflexivity|rewrite <- (st_mod N HN a b), <- (st_mod N HN c d), Heq by auto; reflexivity].
Qed.

(** The states after the start state *)
Lemma second_state w i : TE (start_state N) w i -> exists u, 0 < u < n /\ i = st (S0 - 2 ^ u) u /\ valid (S0 - 2 ^ u) u /\ S0 - 2 ^ u <> S0.
Proof.
  rewrite (start_is N HN). intros HE. apply TE_shape in HE; auto; [|apply valid_start; auto]. pose proof (S0_pos N HN).
  destruct HE as [(HSz & u & Hu & Hb & _ & _ & _ & ->)|(C & _)]; [|lia]. exists u. split; auto. split; auto.
  split; [apply (valid_remove N HN S0 0); auto; apply valid_start; auto|]. assert (0 < 2 ^ u) by (apply Z.pow_pos_nonneg; lia). lia.
Qed.

Lemma second_not_goal w i : TE (start_state N) w i -> i <> goal_state N.
Proof.
  intros HE C. destruct (second_state w i HE) as (u & Hu & -> & _). rewrite goal_is in C. apply st_inj in C; lia.
Qed.

Notation callsf s := (b2_calls (side_of true s)).
Notation callsb s := (b2_calls (side_of false s)).

Record QI (s : state) : Prop := {
  q_fresh : forall f, fresh f (side_of f s);
  q_out : b2_outdated s = false;
  q_start : callsf s = [] \/ exists w, In (start_state N, w) (callsf s);
  q_first : callsf s = [] -> b2_forwards s = true /\ b2_pc_of s = SLoop /\ callsb s = [] /\ exists no, b2_heap (side_of true s) = [(Some 0, no, start_state N)];
  q_heapf : callsf s <> [] -> forall e, In e (b2_heap (side_of true s)) -> w_leb ZI (Some w0) (e_key e) = true;
  q_heapb : callsb s = [] -> forall e, In e (b2_heap (side_of false s)) -> e_val e = goal_state N;
  q_others : callsb s <> [] -> match b2_pc_of s, b2_forwards s with SLoop, false => w_leb ZI (Some w0) (b2_others s) = true | SEdges _ _ _, true => w_leb ZI (Some w0) (b2_others s) = true | _, _ => True end;
  q_not : forall i w c, TE (start_state N) w i -> ~ In (i, c) (callsb s)
}.

Lemma QI_init first : QI (b2_init (fun s => s) ZI DM PM LM true first [start_state N] [goal_state N] None).
Proof.
  constructor; try (simpl; auto; fail).
  - apply (fresh_init Z.eq_dec).
  - intros _. split; [reflexivity|]. split; [reflexivity|]. split; [reflexivity|]. simpl. rewrite dm_get_set_same. eexists. reflexivity.
  - intros _ e He. simpl in He. destruct He as [<-|[]]. reflexivity.
Qed.

Lemma QI_moved s s' : GI s -> moved s s' -> QI s -> QI s'.
Proof.
  intros G Hmv Q.
  destruct (fresh_moved Z.eq_dec (fun s : Z => s) ZI DM PM LM nextf nextb false true TE TB (TE_presents forth N) (TB_presents back N)
    (TE_nonneg forth N Hfpos) (TB_nonneg back N Hbpos) [start_state N] [goal_state N] steady0 s s' G Hmv (q_fresh s Q) (q_out s Q)) as [F1 F2].
  pose proof (g_cur _ _ _ _ _ _ _ _ _ _ _ s G) as HC. pose proof (g_oth _ _ _ _ _ _ _ _ _ _ _ s G) as HO.
  pose proof (g_others _ _ _ _ _ _ _ _ _ _ _ s G) as Hoth.
  destruct Q as [_ _ Qs Qf Qh Qb Qo Qn].
  destruct Hmv as [w no v h s' Hpc Hh Hst E1 E2 E3 E4 E5 E6|w no v h lim s' Hpc Hh Hst Hbr Hl E1 E2 E3 E4 E5 E6|v w s' Hpc E1 E2 E3 E4 E5 E6|v w m ew l rest s' Hpc Hov Hle E1 E2 E3 E4 E5 E6|v w m ew l rest s' Hpc Hov Hle E1 E2 E3 E4 E5 E6].
  - exfalso. congruence.
  - (* a vertex is expanded *)
    rewrite Hpc in *. constructor; auto; unfold BiSPMore.side_of in *; rewrite ?E1, ?E2, ?E3, ?E4, ?E6; clear E1 E2 E3 E4 E5 E6; destruct (b2_forwards s); cbn [Bool.eqb negb b2_calls b2_heap b2_expanded b2_popped] in *.
    + right. destruct Qs as [Hn|(w1 & Hw1)]; [|exists w1; now right]. destruct (Qf Hn) as (_ & _ & _ & no' & Hh'). rewrite Hh in Hh'. injection Hh' as -> _ -> _. exists (Some 0). now left.
    + destruct Qs as [Hn|Hw1]; auto.
    + discriminate.
    + intros Hn. destruct (Qf Hn) as (C & _). discriminate.
    + intros _ e He. destruct (b2_calls (b2_current s)) as [|c cs] eqn:Ec.
      * destruct (Qf eq_refl) as (_ & _ & _ & no' & Hh'). rewrite Hh in Hh'. injection Hh' as _ _ _ ->. destruct He.
      * apply Qh; [discriminate|]. rewrite Hh. now right.
    + auto.
    + auto.
    + discriminate.
    + intros Hb. specialize (Qo Hb). destruct (b2_calls (b2_current s)) as [|c cs] eqn:Ec.
      * destruct (Qf eq_refl) as (_ & _ & C & _). contradiction.
      * apply (Qh ltac:(discriminate) (w, no, v)). rewrite Hh. now left.
    + auto.
    + exact Qn.
    + intros i wi c HE [Heq|Hin]; [|exact (Qn i wi c HE Hin)]. injection Heq as -> ->.
      (* a successor of the start state is expanded backwards *)
      assert (Hcb : b2_calls (b2_current s) <> []).
      { intros Hn. specialize (Qb Hn (c, no, i)). rewrite Hh in Qb. specialize (Qb (or_introl eq_refl)). change (i = goal_state N) in Qb. now apply second_not_goal in HE. }
      specialize (Qo Hcb). destruct Qs as [Hn|(w1 & Hw1)]; [destruct (Qf Hn) as (C & _); discriminate|].
      destruct (second_state wi i HE) as (u & Hu & -> & HV & HS).
      simpl in HC, HO.
      assert (Hl1 : exists l, In (st (S0 - 2 ^ u) u, wi, l) (nextf (start_state N))).
      { unfold TspProofs.TE in HE. apply in_map_iff in HE. destruct HE as ([[a b] l] & Heq & Hin). simpl in Heq. injection Heq as -> ->. eauto. }
      destruct Hl1 as (l & Hl1).
      assert (Hdf : w_leb ZI (dm_get DM (st (S0 - 2 ^ u) u) (b2_dist (b2_other s))) (Some w0) = true).
      { destruct (s_edges _ _ _ _ _ _ _ _ _ _ HO _ _ _ _ _ Hw1 Hl1) as [[_ H2]|(r & C & _)]; [|discriminate].
        destruct (s_X _ _ _ _ _ _ _ _ _ _ HO _ _ Hw1) as [H3 _]. rewrite (s_start _ _ _ _ _ _ _ _ _ _ HO) in H3 by (now left). subst w1.
        rewrite (ea_zero ZI ZInfWeights_exact), (TE_w0 _ _ _ HE) in H2. exact H2. }
      destruct (s_heap _ _ _ _ _ _ _ _ _ _ HC (c, no, st (S0 - 2 ^ u) u)) as [Hk1 Hk2]; [rewrite Hh; now left|].
      change (w_leb ZI (dm_get DM (st (S0 - 2 ^ u) u) (b2_dist (b2_current s))) c = true) in Hk1. change (w_ltb ZI c (w_inf ZI) = true) in Hk2.
      assert (Hbest : w_leb ZI (b2_best s) (w_add ZI c (b2_others s)) = true).
      { apply (w_leb_trans ZI) with (w_add ZI c (Some w0)).
        - eapply (w_leb_trans ZI); [apply (g_best_le _ _ _ _ _ _ _ _ _ _ _ s G (st (S0 - 2 ^ u) u))|]. apply (add_mono2 ZI ZInfWeights_exact); assumption.
        - apply (add_mono2 ZI ZInfWeights_exact); auto. apply (w_leb_refl ZI). }
      rewrite Hbest, andb_true_r in Hbr. apply negb_false_iff in Hbr.
      assert (Hbinf : w_leb ZI (b2_best s) (w_add ZI c (Some w0)) = true).
      { eapply (w_leb_trans ZI); [apply (g_best_le _ _ _ _ _ _ _ _ _ _ _ s G (st (S0 - 2 ^ u) u))|]. apply (add_mono2 ZI ZInfWeights_exact); assumption. }
      destruct c as [c|]; [|discriminate]. destruct (b2_best s) as [b|]; [discriminate|discriminate].
  - (* the edges are done *)
    rewrite Hpc in *. constructor; auto; unfold BiSPMore.side_of in *; rewrite ?E1, ?E2, ?E3, ?E4, ?E6; clear E1 E2 E3 E4 E5 E6; destruct (b2_forwards s) eqn:Ef; cbn [Bool.eqb negb] in *; auto.
    + intros Hn. destruct (Qf Hn) as (_ & C & _). discriminate.
    + intros Hn. destruct (Qf Hn) as (C & _). discriminate.
  - (* an edge does not lead to a better distance *)
    rewrite Hpc in *. constructor; auto; unfold BiSPMore.side_of in *; rewrite ?E1, ?E2, ?E3, ?E4, ?E6; clear E1 E2 E3 E4 E5 E6; destruct (b2_forwards s) eqn:Ef; cbn [Bool.eqb negb] in *; auto.
    + intros Hn. destruct (Qf Hn) as (_ & C & _). discriminate.
    + intros Hn. destruct (Qf Hn) as (C & _). discriminate.
  - (* a better distance *)
    rewrite Hpc in *. destruct (s_op _ _ _ _ _ _ _ _ _ _ HC v w _ eq_refl) as (Hin & Hinc & _ & _).
    destruct (s_X _ _ _ _ _ _ _ _ _ _ HC _ _ Hin) as [Hdv _]. pose proof (s_nn _ _ _ _ _ _ _ _ _ _ HC v) as Hnn. rewrite Hdv in Hnn.
    constructor; auto; unfold BiSPMore.side_of in *; rewrite ?E1, ?E2, ?E3, ?E4, ?E6; clear E1 E2 E3 E4 E5 E6; destruct (b2_forwards s) eqn:Ef; cbn [Bool.eqb negb b2_calls b2_heap b2_improved] in *; auto.
    + intros Hn. destruct (Qf Hn) as (_ & C & _). discriminate.
    + intros Hn. destruct (Qf Hn) as (C & _). discriminate.
    + intros Hn e He. apply heappush_in in He. destruct He as [->|He]; [|apply Qh; auto]. cbn [e_key fst snd].
      assert (HE : TE v ew m) by (apply (TE_presents forth N); apply in_map_iff; exists (m, ew, l); split; [reflexivity|apply Hinc; now left]).
      rewrite (TE_w0 _ _ _ HE). apply (add_le_l ZI ZInfWeights_exact). exact Hnn.
    + intros Hn e He. rewrite Hn in Hin. destruct Hin.
Qed.

Theorem tsp_search_complete passes os e r : tsp_search DM PM LM forth back N passes = (os, Raised e r) ->
  forall order c, Permutation (0 :: order) (range N) -> route_length wt (0 :: order ++ [0]) = Some c -> False.
Proof.
  intros HR order c HP Hr. pose proof (tsp_search_says DM PM LM forth back N HN Hsym Hfpos Hbpos passes os _ HR) as He. simpl in He. subst e.
  unfold tsp_search, b2_run in HR.
  assert (Hdisj : forall i, is_start (fun s : Z => s) [start_state N] i -> is_start (fun s : Z => s) [goal_state N] i -> False).
  { intros i [H1|[]] [H2|[]]. apply (start_not_goal N HN). congruence. }
  destruct (b2_common Z.eq_dec _ _ _); [discriminate|].
  destruct (run _ passes _) as [os1 r1] eqn:ER. destruct r1 as [s|s|x s]; try discriminate. injection HR as _ Hx _. subst x.
  pose proof (run_inv_raised (b2_step Z.eq_dec (fun s : Z => s) ZI DM PM LM nextf nextb false true false) (fun _ s => GI s /\ QI s)) as HI.
  assert (Hstep : forall (pre : list (@b2_result Z unit ZI)) s o s', GI s /\ QI s -> b2_step Z.eq_dec (fun s : Z => s) ZI DM PM LM nextf nextb false true false s = Go o s' -> GI s' /\ QI s').
  { intros pre s0 o s' [G Q] Hs.
    destruct (GI_go Z.eq_dec Z.eq_dec (fun s : Z => s) ZI ZInfWeights_exact DM PM LM nextf nextb false true false TE TB (TE_presents forth N) (TB_presents back N)
      (TE_nonneg forth N Hfpos) (TB_nonneg back N Hbpos) [start_state N] [goal_state N] s0 o s' G Hs) as [G' _].
    split; auto. apply (QI_moved s0 s' G); auto. eapply moves; eauto. }
  specialize (HI Hstep passes [] _ _ _ _ (conj (GI_init Z.eq_dec (fun s : Z => s) ZI ZInfWeights_exact DM PM LM nextf nextb true TE TB [start_state N] [goal_state N] Hdisj _ None) (QI_init _)) ER).
  destruct HI as (os2 & o & s1 & _ & [G Q] & Hs).
  destruct (route_walk forth N HN order S0 0 c (valid_start N HN)) as (p & Hp & Hpw); auto.
  { left. pose proof (S0_pos N HN). lia. }
  { apply Permutation_cons_inv with 0. rewrite HP, (elements_S0 N HN). reflexivity. }
  rewrite <- (start_is N HN) in Hp.
  assert (Hend : b2_pc_of s1 = SLoop /\ b2_heap (b2_current s1) = []).
  { unfold b2_step in Hs. destruct (b2_pc_of s1) as [|v w [|[[m ew] l] rest]]; [|discriminate|].
    - destruct (b2_heap (b2_current s1)) as [|[[w no] v] h]; auto. exfalso. cbv zeta in Hs. destruct (w_ltb _ _ _); [discriminate|]. destruct (negb _ && _); [discriminate|].
      destruct (limit_check _); discriminate.
    - exfalso. cbv zeta in Hs. destruct (w_leb ZI (w_inf ZI) _); [discriminate|]. destruct (w_leb ZI _ _); discriminate. }
  destruct Hend as [Hpc Hh].
  destruct (b2_forwards s1) eqn:Ef.
  - pose proof (empty_exhausted (fun s : Z => s) ZI DM PM LM nextf nextb TE TB (TE_presents forth N) (TB_presents back N)
      (TE_nonneg forth N Hfpos) (TB_nonneg back N Hbpos) [start_state N] [goal_state N] s1 G Hpc Hh) as Hx. rewrite Ef in Hx.
    apply (Hx (start_state N) p (goal_state N)); auto; now left.
  - inversion Hp as [i E1 E2|i w j q k HE Hq E1 E2]; subst; [now apply (start_not_goal N HN)|].
    destruct (second_state w j HE) as (u & Hu & -> & HV & HS).
    pose proof (both_rest forth back N HN Hsym _ _ _ Hq _ _ eq_refl HV HS) as Hbw.
    destruct (wwalk_reversed ZI ZInfWeights_exact _ _ _ _ Hbw) as (r' & Hr' & _).
    assert (Hrb : wwalk ZI TB (goal_state N) r' (st (S0 - 2 ^ u) u)) by (eapply wwalk_mono; [|exact Hr']; intros a x b [_ H2]; exact H2).
    pose proof (g_cur _ _ _ _ _ _ _ _ _ _ _ s1 G) as HC. rewrite Hpc, Ef, Hh in HC. simpl in HC.
    destruct (frontier (fun s : Z => s) ZI DM nextb TB (TB_presents back N) (TB_nonneg back N Hbpos) _ _ _ _ HC (goal_state N) r' _ (or_introl eq_refl) Hrb) as [(v & Hv & Hve & _)|(e & [] & _)].
    rewrite Hve in Hv. apply (q_not s1 Q _ _ (dm_get DM (st (S0 - 2 ^ u) u) (b2_dist (b2_current s1))) HE).
    unfold BiSPMore.side_of. rewrite Ef. exact Hv.
Qed.
End Equal.
