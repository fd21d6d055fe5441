(** The search for a round trip: what the bidirectional search finds. *)
From Coq Require Import List ZArith Bool Lia Permutation Arith.
From Verif Require Import Machine GearSpec Common TraversalSpec PathsModel PathModel PathSpec Weight WeightSpec HeapModel HeapProofs DijkstraModel
  BiSPModel BiSPSpec BiSPSide BiSPProofs BiSPMore BiSPPaths BiSPRun TspModel TspSpec TspBits TspProofs.
Import ListNotations.
Local Open Scope Z_scope.

Section RunTsp.
Variable DM : DMap Z (option Z) None.
Variable PM : PMap Z Z.
Variable LM : PMap Z unit.
Variables forth back : list (list (option Z)).
Variable N : nat.
Notation n := (Z.of_nat N).
Hypothesis HN : (2 <= N)%nat.
Hypothesis Hsym : forall v w, 0 <= v < n -> 0 <= w < n -> cell back v w = cell forth w v.
Hypothesis Hfpos : forall v w x, cell forth v w = Some x -> 0 <= x.
Hypothesis Hbpos : forall v w x, cell back v w = Some x -> 0 <= x.
Notation S0 := (2 ^ n - 1 - 1).
Notation TE := (TE forth N).
Notation TB := (TB back N).
Notation st := (st N).
Notation valid := (valid N).
Notation wt := (fun a b => if a =? b then None else cell forth a b).
Notation nextf := (next_edges_forwards forth N).
Notation nextb := (next_edges_backwards back N).
Notation state := (@b2_state Z Z unit ZI DM PM LM).
Notation side_of := (side_of ZI DM PM LM).

(** A route through what is left to visit is a walk to the goal state. *)
Lemma route_walk order : forall S v c, valid S v -> (S <> 0 \/ v <> 0) -> Permutation order (elements N S) -> route_length wt (v :: order ++ [0]) = Some c ->
  exists p, wwalk ZI TE (st S v) p (goal_state N) /\ walk_weight ZI p = Some c.
Proof.
  induction order as [|u order IH]; intros S v c HV Hne HP HR; pose proof HV as (Hv & HS & H0 & Hvb & Hv0).
  - assert (HSz : S = 0).
    { apply zero_bits; [lia|]. intros k Hk. destruct (Z.testbit S k) eqn:Eb; auto. exfalso.
      assert (Hin : In k (elements N S)) by (apply elements_in; split; auto; destruct (Z_lt_le_dec k n); [lia|]; rewrite (below_bit n) in Eb by lia; discriminate).
      apply (Permutation_in _ (Permutation_sym HP)) in Hin. destruct Hin. }
    subst S. assert (Hvz : v <> 0) by (destruct Hne; auto). cbn [app route_length] in HR. destruct (Z.eqb_spec v 0); [contradiction|].
    destruct (cell forth v 0) as [x|] eqn:Ec; [|discriminate]. injection HR as <-.
    exists [(Some x, goal_state N)]. split; [|unfold walk_weight; cbn [fold_left fst]; simpl; f_equal; lia].
    apply wwalk_cons; [|constructor]. apply TE_shape; auto. right. rewrite Ec. repeat (split; auto). discriminate.
  - assert (Hu : In u (elements N S)) by (apply (Permutation_in _ HP); now left). apply elements_in in Hu. destruct Hu as [Hu Hub].
    assert (Huz : u <> 0) by (intros ->; congruence).
    assert (HV' : valid (S - 2 ^ u) u) by (apply (valid_remove N HN S v); auto; lia).
    change (v :: (u :: order) ++ [0]) with (v :: u :: (order ++ [0])) in HR. cbn [route_length] in HR. fold (route_length wt (u :: order ++ [0])) in HR.
    destruct (Z.eqb_spec v u) as [|Hvu]; [discriminate|]. destruct (cell forth v u) as [x|] eqn:Ec; [|discriminate].
    match type of HR with match ?r with _ => _ end = _ => destruct r as [y|] eqn:Er; [|discriminate] end. injection HR as <-.
    destruct (IH (S - 2 ^ u) u y) as (p & Hp & Hpw); auto.
    { apply Permutation_cons_inv with u. rewrite HP. symmetry. apply elements_remove; auto. }
    exists ((Some x, st (S - 2 ^ u) u) :: p). split; [|rewrite zi_walk_cons, Hpw; reflexivity]. apply wwalk_cons; auto.
    apply TE_shape; auto. left. split; [intros ->; rewrite Z.bits_0 in Hub; discriminate|]. exists u. rewrite Ec. split; [lia|]. split; [auto|]. split; [auto|]. split; [discriminate|]. auto.
Qed.

Lemma S0_pos : 0 < S0.
Proof. assert (2 ^ 2 <= 2 ^ n) by (apply Z.pow_le_mono_r; lia). simpl in H. lia. Qed.

Lemma start_not_goal : start_state N <> goal_state N.
Proof. rewrite (start_is N HN), goal_is. unfold TspProofs.st. pose proof S0_pos. nia. Qed.

Lemma elements_S0 : Permutation (0 :: elements N S0) (range N).
Proof.
  apply NoDup_Permutation.
  - constructor; [|apply elements_nodup]. rewrite elements_in. intros [_ C]. rewrite S0_bit in C by lia. rewrite andb_false_r in C. discriminate.
  - apply range_nodup.
  - intros x. rewrite range_in. cbn [In]. rewrite elements_in. split.
    + intros [<-|[? _]]; lia.
    + intros Hx. destruct (Z.eq_dec x 0) as [->|Hx0]; auto. right. split; auto. rewrite S0_bit by lia. destruct (Z.ltb_spec x n); [|lia]. destruct (Z.eqb_spec x 0); [lia|reflexivity].
Qed.

(** ** The start state is expanded first *)
Definition begun (s : state) : Prop :=
  (exists w, In (start_state N, w) (b2_calls (side_of true s))) \/
  (b2_best s = None /\ b2_forwards s = true /\ b2_pc_of s = SLoop /\ forall e, In e (b2_heap (b2_current s)) -> e_val e = start_state N /\ e_key e = Some 0).

Notation GI := (GI (fun s : Z => s) ZI DM PM LM nextf nextb TE TB [start_state N] [goal_state N]).
Notation moved := (moved (fun s : Z => s) ZI DM PM LM nextf nextb false true).

Lemma begun_init first : begun (b2_init (fun s => s) ZI DM PM LM true first [start_state N] [goal_state N] None).
Proof.
  right. split; [reflexivity|]. split; [reflexivity|]. split; [reflexivity|]. intros e He. simpl in He.
  destruct He as [<-|[]]. simpl. rewrite dm_get_set_same. auto.
Qed.

Lemma begun_moved s s' : GI s -> moved s s' -> begun s -> begun s'.
Proof.
  intros G Hmv [(w0 & Hw0)|(Hb & Hf & Hpc & Hh)].
  - left. exists w0.
    destruct Hmv as [w no v h s' Hpc Hh Hst E1 E2 E3 E4 E5|w no v h lim s' Hpc Hh Hst Hbr Hl E1 E2 E3 E4 E5|v w s' Hpc E1 E2 E3 E4 E5|v w m ew l rest s' Hpc Hov Hle E1 E2 E3 E4 E5|v w m ew l rest s' Hpc Hov Hle E1 E2 E3 E4 E5];
      unfold BiSPMore.side_of in *; rewrite E2, E3, E4; destruct (b2_forwards s); simpl in *; auto.
  - destruct Hmv as [w no v h s' Hpc' Hh' Hst E1 E2 E3 E4 E5|w no v h lim s' Hpc' Hh' Hst Hbr Hl E1 E2 E3 E4 E5|v w s' Hpc' E1 E2 E3 E4 E5|v w m ew l rest s' Hpc' Hov Hle E1 E2 E3 E4 E5|v w m ew l rest s' Hpc' Hov Hle E1 E2 E3 E4 E5]; try congruence.
    + exfalso. destruct (Hh (w, no, v)) as [Hv Hw]; [rewrite Hh'; now left|]. change (v = start_state N) in Hv. change (w = Some 0) in Hw. subst v. rewrite Hw in Hst.
      pose proof (g_cur _ _ _ _ _ _ _ _ _ _ _ s G) as HC. rewrite Hf in HC. rewrite (s_start _ _ _ _ _ _ _ _ _ _ HC (start_state N)) in Hst; [discriminate|]. now left.
    + left. exists w. destruct (Hh (w, no, v)) as [Hv Hw]; [rewrite Hh'; now left|]. change (v = start_state N) in Hv. subst v. unfold BiSPMore.side_of. rewrite E2, E3, Hf. now left.
Qed.

(** The walk from the start state, without its first edge, is known to both directions. *)
Lemma both_rest s p j : wwalk ZI TE s p j -> forall S v, s = st S v -> valid S v -> S <> S0 -> wwalk ZI (both ZI TE TB true) s p j.
Proof.
  intros H. induction H as [i|i w j p k HE Hw IH]; intros S v -> HV HS; [constructor|].
  pose proof HE as HE'. apply TE_valid in HE'; auto. destruct HE' as (S1 & v1 & HV1 & -> & HS1 & _).
  econstructor; [split; [exact HE|eapply TE_TB; eauto]|]. eapply IH; eauto.
Qed.

Lemma tour_known s p c : GI s -> begun s -> b2_best s <> None -> b2_pc_of s = SLoop -> wwalk ZI TE (start_state N) p (goal_state N) -> walk_weight ZI p = c ->
  known ZI DM TE TB (b2_forwards s) (b2_dist (b2_current s)) (b2_dist (b2_other s)) c.
Proof.
  intros G [(w0 & Hw0)|[Hb _]] Hne Hpc Hw <-; [|contradiction].
  inversion Hw as [i E1 E2|i w j q k HE Hq E1 E2]; subst; [exfalso; now apply start_not_goal|].
  pose proof HE as HE'. rewrite (start_is N HN) in HE'. apply TE_valid in HE'; [|auto|apply valid_start; auto].
  destruct HE' as (S1 & v1 & HV1 & -> & HS1 & _). pose proof (both_rest _ _ _ Hq S1 v1 eq_refl HV1 HS1) as Hbw.
  pose proof (g_cur _ _ _ _ _ _ _ _ _ _ _ s G) as HC. pose proof (g_oth _ _ _ _ _ _ _ _ _ _ _ s G) as HO. rewrite Hpc in HC. simpl in HC.
  unfold BiSPMore.side_of in Hw0. unfold known.
  assert (Hedge : exists l, In (st S1 v1, w, l) (nextf (start_state N))).
  { unfold TspProofs.TE in HE. apply in_map_iff in HE. destruct HE as ([[a b] l] & Heq & Hin). simpl in Heq. injection Heq as -> ->. eauto. }
  destruct Hedge as (l & Hl).
  assert (Hs0 : forall X H D, SInv (fun s : Z => s) ZI DM nextf TE [start_state N] X None H D -> In (start_state N, w0) X ->
     w_ltb ZI (dm_get DM (st S1 v1) D) (w_inf ZI) = true /\ w_leb ZI (dm_get DM (st S1 v1) D) w = true).
  { intros X H D HI Hin. destruct (s_edges _ _ _ _ _ _ _ _ _ _ HI _ _ _ _ _ Hin Hl) as [[H1 H2]|(r & C & _)]; [|discriminate].
    destruct (s_X _ _ _ _ _ _ _ _ _ _ HI _ _ Hin) as [H3 _]. rewrite (s_start _ _ _ _ _ _ _ _ _ _ HI) in H3 by (now left). subst w0.
    rewrite (ea_zero ZI ZInfWeights_exact) in H2. auto. }
  assert (Hg0 : forall X op H D, SInv (fun s : Z => s) ZI DM nextb TB [goal_state N] X op H D ->
     w_ltb ZI (dm_get DM (goal_state N) D) (w_inf ZI) = true /\ w_leb ZI (dm_get DM (goal_state N) D) (w_zero ZI) = true).
  { intros X op H D HI. assert (Hz : dm_get DM (goal_state N) D = Some 0) by (exact (s_start _ _ _ _ _ _ _ _ _ _ HI (goal_state N) (or_introl eq_refl))).
    rewrite Hz. split; reflexivity. }
  destruct (b2_forwards s); simpl in *.
  - destruct (Hs0 _ _ _ HC Hw0) as [A1 A2]. destruct (Hg0 _ _ _ _ HO) as [B1 B2].
    exists (st S1 v1), w, q, (goal_state N), (w_zero ZI). repeat (split; [assumption|]).
    rewrite (ea_zero ZI ZInfWeights_exact), zi_walk_cons. apply (w_leb_refl ZI).
  - destruct (Hs0 _ _ _ HO Hw0) as [A1 A2]. destruct (Hg0 _ _ _ _ HC) as [B1 B2].
    destruct (wwalk_reversed ZI ZInfWeights_exact _ _ _ _ Hbw) as (r & Hr & Hrw).
    exists (goal_state N), (w_zero ZI), r, (st S1 v1), w. split; [|repeat (split; [assumption|])].
    + eapply wwalk_mono; [|exact Hr]. intros a x b [H1 H2]. split; assumption.
    + rewrite (zero_add ZI ZInfWeights_exact), Hrw, zi_walk_cons, (ea_comm ZI ZInfWeights_exact). apply (w_leb_refl ZI).
Qed.

Lemma zi_le a b : w_leb ZI (Some a) (Some b) = true <-> a <= b.
Proof. simpl. apply Z.leb_le. Qed.

Theorem tsp_search_says passes os r : tsp_search DM PM LM forth back N passes = (os, r) ->
  match r with
  | Running _ => True
  | Ended _ => exists x c states order, os = [x] /\ b2_length x = Some c /\ path_vertices_from_start (b2_path x) (Datatypes.S N) = POk states /\
      map (fun s => s mod n) states = 0 :: order ++ [0] /\ Permutation (0 :: order) (range N) /\ route_length wt (0 :: order ++ [0]) = Some c /\
      forall order' c', Permutation (0 :: order') (range N) -> route_length wt (0 :: order' ++ [0]) = Some c' -> c <= c' + c'
  | Raised e _ => e = KeyErrorNotFound
  end.
Proof.
  unfold tsp_search. intros HR. pose proof HR as HR0.
  apply (run_cases Z.eq_dec Z.eq_dec (fun s => s) ZI ZInfWeights_exact DM PM LM nextf nextb false true false TE TB (TE_presents forth N) (TB_presents back N)
    (TE_nonneg forth N Hfpos) (TB_nonneg back N Hbpos) [start_state N] [goal_state N] None begun) in HR; [|intros first _; apply begun_init|exact begun_moved].
  destruct r as [s|s|e s]; [exact Logic.I| |].
  - destruct HR as (x & -> & [(C & _)|[(v & g & [Hv|[]] & [Hg|[]] & Hgv & _)|(s1 & G & HQ & Hx & H1 & _ & H3 & _ & Hpc)]]); [discriminate|subst; exfalso; symmetry in Hgv; now apply start_not_goal in Hgv|].
    assert (Hlen : b2_length x = b2_best s1) by (rewrite Hx; reflexivity).
    assert (Hni : b2_best s1 <> None) by (intros C; rewrite C in H1; discriminate).
    apply (run_path Z.eq_dec Z.eq_dec (fun s => s) ZI ZInfWeights_exact DM PM LM nextf nextb false false TE TB (TE_presents forth N) (TB_presents back N)
      (TE_nonneg forth N Hfpos) (TB_nonneg back N Hbpos) [start_state N] [goal_state N] (TB_faithful forth back N HN Hsym) None (fun u w H => H)) in HR0; [|rewrite Hlen; exact Hni].
    destruct HR0 as (a & p & g & es & [Ha|[]] & [Hg|[]] & Hw & Hpw & Hsh & _). subst a g.
    pose proof Hw as Hw'. rewrite (start_is N HN) in Hw'.
    destruct (walk_route forth N HN _ _ _ Hw' S0 0 eq_refl (valid_start N HN) eq_refl) as (order & c & Hm & HP & Hc & Hr).
    { rewrite <- (start_is N HN). apply start_not_goal. }
    assert (HPr : Permutation (0 :: order) (range N)) by (rewrite HP; exact elements_S0).
    assert (Hlp : length p = N).
    { rewrite <- (map_length (fun e => snd e mod n) p), Hm, app_length. simpl. apply Permutation_length in HPr. unfold range in HPr. rewrite map_length, seq_length in HPr. simpl in HPr. lia. }
    exists x, c, (start_state N :: map snd p), order. split; auto. split; [congruence|]. split; [apply (sh_vertices _ _ _ _ Hsh); lia|]. split; [|split; [exact HPr|split; [exact Hr|]]].
    + cbn [map]. rewrite map_map, Hm, (start_is N HN), st_mod by lia. reflexivity.
    + intros order' c' HP' Hr'.
      destruct (route_walk order' S0 0 c' (valid_start N HN)) as (p' & Hp' & Hpw'); auto.
      { left. pose proof S0_pos. lia. }
      { apply Permutation_cons_inv with 0. rewrite HP', elements_S0. reflexivity. }
      rewrite <- (start_is N HN) in Hp'.
      assert (Hk := tour_known s1 p' (Some c') G HQ Hni Hpc Hp' Hpw').
      apply H3 in Hk; [|rewrite <- Hpw'; eapply wzero_le_walk; [exact (TE_nonneg forth N Hfpos)|exact Hp']].
      rewrite <- Hlen, <- Hpw, Hc in Hk. apply zi_le in Hk. exact Hk.
  - destruct HR as [_ [(H & _)|[[_ C]|[_ (f & a & p & i & Ha & Hp & Hinf)]]]]; [exact H|congruence|]. exfalso.
    assert (Hfin : exists y, walk_weight ZI p = Some y).
    { destruct f; simpl in Ha, Hp; destruct Ha as [Ha|[]]; subst a.
      - rewrite (start_is N HN) in Hp. destruct (TE_walk_valid forth N HN _ _ _ Hp S0 0 eq_refl (valid_start N HN)) as (_ & _ & _ & _ & H). exact H.
      - rewrite goal_is in Hp. destruct (TB_walk_valid forth back N HN Hsym _ _ _ Hp 0 0 eq_refl (valid_goal N HN) (goal_not_S0 N HN)) as (_ & _ & _ & _ & _ & H). exact H. }
    destruct Hfin as (y & Hy). rewrite Hy in Hinf. discriminate.
Qed.

Theorem tsp_search_ends : exists passes os r, tsp_search DM PM LM forth back N passes = (os, r) /\ forall s, r <> Running s.
Proof.
  apply (run_ends Z.eq_dec Z.eq_dec (fun s => s) ZI ZInfWeights_exact DM PM LM nextf nextb false true false TE TB (TE_presents forth N) (TB_presents back N)
    (TE_nonneg forth N Hfpos) (TB_nonneg back N Hbpos) [start_state N] [goal_state N] None).
  exists true, (range (Z.to_nat (2 ^ n * n))). left. intros a p i [Ha|[]] Hp. subst a. simpl in Hp. rewrite (start_is N HN) in Hp.
  destruct (TE_walk_valid forth N HN _ _ _ Hp S0 0 eq_refl (valid_start N HN)) as (S & v & (Hv & HS & _) & -> & _).
  apply range_in. unfold TspProofs.st. rewrite Z2Nat.id by nia. nia.
Qed.
End RunTsp.
