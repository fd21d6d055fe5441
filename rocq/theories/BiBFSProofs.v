(** Proofs about bidirectional breadth first search. *)
From Coq Require Import List ZArith Bool Lia Arith.
From Verif Require Import Machine MachineMore GearSpec Spec TraversalSpec Common CommonProofs PathsModel PathsSpec PathModel PathSpec PathProofs BFSModel BFSProofs BiBFSModel.
Import ListNotations.

Lemma walk_flip {I} (E : I -> I -> Prop) i p j : walk E i p j -> exists q, walk (fun a b => E b a) j q i /\ length q = length p.
Proof.
  induction 1 as [i|i j p k He Hw (q & Hq & Hl)].
  - exists []. split; auto. constructor.
  - exists (q ++ [i]). split; [eapply walk_snoc; eauto|]. rewrite app_length. simpl. lia.
Qed.

Lemma walk_split {I} (E : I -> I -> Prop) i p j : walk E i p j -> forall k, k <= length p ->
  exists p1 m p2, p = p1 ++ p2 /\ walk E i p1 m /\ walk E m p2 j /\ length p1 = k.
Proof.
  induction 1 as [i|i j p m He Hw IH]; intros k Hk; simpl in *.
  - exists [], i, []. split; [reflexivity|]. split; [constructor|]. split; [constructor|]. simpl. lia.
  - destruct k as [|k].
    + exists [], i, (j :: p). split; [reflexivity|]. split; [constructor|]. split; [econstructor; eauto|reflexivity].
    + destruct (IH k ltac:(lia)) as (p1 & x & p2 & -> & H1 & H2 & H3). exists (j :: p1), x, p2. split; [reflexivity|].
      split; [econstructor; eauto|]. split; auto. simpl. lia.
Qed.

Section Side.
Context {V I L : Type}.
Variable I_dec : forall a b : I, {a = b} + {a <> b}.
Variable vid : V -> I.
Variable VS : VSet I.
Variable PM : PMap I V.
Variable LM : PMap I L.
Variable next : V -> list (V * L).
Variable cfg : bfs_cfg.
Hypothesis Htree : bc_is_tree cfg = false.
Hypothesis Hrdi : bc_report_depth_increase cfg = true.
Variable E : I -> I -> Prop.
Hypothesis Hnext : presents vid next E.
Variable starts : list V.
Notation Inv := (Inv vid VS PM LM next cfg E starts None).
Notation step := (bfs_step vid VS PM LM next cfg).
Notation St := (start_id vid starts).

(** What one pass does. *)
Inductive side_case (F : list (V * nat)) (d : nat) (b : @bfs_state V I L VS PM LM) (o : list (@bfs_report V I L VS PM LM)) (b' : @bfs_state V I L VS PM LM) : Prop :=
| sc_quiet d' : o = [] -> Inv F d' b' -> (d' = d \/ b_next b = []) -> d <= d' -> b_visited b' = b_visited b -> b_next b' = b_next b -> side_case F d b o b'
| sc_new v r : o = [r] -> br_vertex r = v -> br_depth r = Z.of_nat d -> Inv (F ++ [(v, d)]) d b' -> vs_mem VS (vid v) (b_visited b) = false ->
    b_visited b' = vs_add VS (vid v) (b_visited b) -> b_next b' = b_next b ++ [v] -> side_case F d b o b'
| sc_level v r x : o = [r] -> br_vertex r = v -> br_depth r = Z.of_nat d -> b_next b = x ++ [v] -> Inv F (d + 1) b' -> b_pc b' = BWhile ->
    b_visited b' = b_visited b -> b_next b' = [] -> b_to_expand b' <> [] -> side_case F d b o b'.

Lemma side_step F d b o b' : Inv F d b -> step b = Go o b' -> side_case F d b o b'.
Proof.
  intros HI Hs. destruct (Inv_step I_dec vid VS PM LM next cfg Htree E Hnext starts None F d b o b' HI Hs) as (G & d' & HI' & HO).
  destruct (i_d _ _ _ _ _ _ _ _ _ _ _ _ HI) as [Hd Hd1]. destruct (i_d _ _ _ _ _ _ _ _ _ _ _ _ HI') as [Hd' _].
  unfold bfs_step in Hs. destruct (b_pc b) as [| |v [|[n l] rest]] eqn:Hpc.
  - destruct (b_to_expand b) as [|v q] eqn:Hex; [discriminate|]. injection Hs as <- <-. simpl in Hd'. assert (d' = d) by lia. subst d'.
    destruct HO as [(_ & ->)|[(v' & C & _)|(_ & _ & v' & r & C & _)]]; try discriminate. rewrite app_nil_r in HI'. eapply sc_quiet; eauto.
  - destruct (b_to_expand b) as [|v q] eqn:Hex.
    + rewrite Hrdi in Hs. destruct (rev (b_next b)) as [|v x] eqn:Hr.
      * injection Hs as <- <-. simpl in Hd'. destruct HO as [(_ & ->)|[(v' & C & _)|(_ & _ & v' & r & C & _)]]; try discriminate.
        rewrite app_nil_r in HI'. assert (Hn : b_next b = []) by (rewrite <- (rev_involutive (b_next b)), Hr; reflexivity). eapply sc_quiet; eauto. lia.
      * injection Hs as <- <-. simpl in Hd'. assert (d' = d + 1) by lia. subst d'.
        assert (Hn : b_next b = rev x ++ [v]) by (rewrite <- (rev_involutive (b_next b)), Hr; reflexivity).
        destruct HO as [(C & _)|[(v' & C & _)|(_ & -> & _)]]; [discriminate| |].
        -- injection C as -> C. lia.
        -- rewrite app_nil_r in HI'. eapply sc_level; eauto. simpl. rewrite Hn. destruct (rev x); discriminate.
    + destruct (limit_check (b_limit b)); [|discriminate]. injection Hs as <- <-. simpl in Hd'. assert (d' = d) by lia. subst d'.
      destruct HO as [(_ & ->)|[(v' & C & _)|(_ & _ & v' & r & C & _)]]; try discriminate. rewrite app_nil_r in HI'. eapply sc_quiet; eauto.
  - injection Hs as <- <-. simpl in Hd'. assert (d' = d) by lia. subst d'.
    destruct HO as [(_ & ->)|[(v' & C & _)|(_ & _ & v' & r & C & _)]]; try discriminate. rewrite app_nil_r in HI'. eapply sc_quiet; eauto.
  - rewrite Htree in Hs. simpl in Hs. destruct (vs_mem VS (vid n) (b_visited b)) eqn:Hm.
    + injection Hs as <- <-. simpl in Hd'. assert (d' = d) by lia. subst d'.
      destruct HO as [(_ & ->)|[(v' & C & _)|(_ & _ & v' & r & C & _)]]; try discriminate. rewrite app_nil_r in HI'. eapply sc_quiet; eauto.
    + injection Hs as <- <-. simpl in Hd'. assert (d' = d) by lia. subst d'.
      destruct HO as [(C & _)|[(v' & C & -> & _)|(_ & _ & v' & r & C & C2 & C3)]]; [discriminate| |].
      * injection C as <-. eapply sc_new; eauto. simpl. now rewrite Htree.
      * injection C as <-. simpl in C3. lia.
Qed.

(** What is visited, and where. *)
Lemma side_visited F d b i : Inv F d b -> vs_mem VS i (b_visited b) = true <-> exists k, lv vid starts F i k.
Proof.
  intros HI. rewrite (i_vis _ _ _ _ _ _ _ _ _ _ _ _ HI). simpl. split.
  - intros [[]|[H|H]]; [exists 0; left; auto|]. apply in_map_iff in H. destruct H as ([v k] & <- & Hv). exists k. right. exists v. auto.
  - intros (k & [[H _]|(v & Hv & <-)]); auto. right. right. change (vid v) with (rid vid (v, k)). now apply in_map.
Qed.

Lemma open_none i j : E_open VS E None i j <-> E i j.
Proof. unfold E_open. simpl. tauto. Qed.

Lemma lv_walk F d b i k : Inv F d b -> lv vid starts F i k -> exists s p, St s /\ walk E s p i /\ length p = k.
Proof.
  intros HI [[H ->]|(v & Hv & <-)].
  - exists i, []. split; auto. split; auto. constructor.
  - destruct (i_F _ _ _ _ _ _ _ _ _ _ _ _ HI _ _ Hv) as (_ & _ & _ & s & p & Hs & Hw & Hl). exists s, p. split; auto. split; auto.
    eapply walk_mono; [|exact Hw]. intros x y. apply open_none.
Qed.

Lemma side_within F d b s p i : Inv F d b -> St s -> walk E s p i -> length p <= d - 1 -> vs_mem VS i (b_visited b) = true.
Proof.
  intros HI Hs Hw Hl. apply (side_visited F d b i HI). destruct (found_below vid VS PM LM next cfg E starts None F d b HI s p i Hs) as (m & Hm & _); eauto.
  eapply walk_mono; [|exact Hw]. intros x y. apply open_none.
Qed.

Lemma side_paused F d b i k : Inv F d b -> b_pc b = BWhile -> lv vid starts F i k -> k <= d - 1.
Proof.
  intros HI Hpc [[_ ->]|(v & Hv & _)]; [lia|]. destruct (i_F _ _ _ _ _ _ _ _ _ _ _ _ HI _ _ Hv) as (_ & _ & Hk & _).
  destruct (Nat.eq_dec k d) as [->|]; [|lia]. apply (i_nx _ _ _ _ _ _ _ _ _ _ _ _ HI) in Hv.
  destruct (i_while _ _ _ _ _ _ _ _ _ _ _ _ HI Hpc) as [Hn _]. rewrite Hn in Hv. destruct Hv.
Qed.

Lemma side_all F d b i : Inv F d b -> b_pc b = BWhile -> b_to_expand b = [] -> reachable E St i -> vs_mem VS i (b_visited b) = true.
Proof.
  intros HI Hpc Hex (s & p & Hs & Hw). apply (side_visited F d b i HI). eapply all_found_at_end; eauto. exists s, p. split; auto.
  eapply walk_mono; [|exact Hw]. intros x y. apply open_none.
Qed.
End Side.

Section BiBFSProofs.
Context {V I L : Type}.
Variable V_dec : forall a b : V, {a = b} + {a <> b}.
Variable I_dec : forall a b : I, {a = b} + {a <> b}.
Variable vid : V -> I.
Variable VS : VSet I.
Variable PM : PMap I V.
Variable LM : PMap I L.
Variable next_f next_b : V -> list (V * L).
Variables labeled build silent : bool.
Variable E : I -> I -> Prop.
Hypothesis Hf : presents vid next_f E.
Hypothesis Hb : presents vid next_b (fun i j => E j i).
Variables starts goals : list V.
Variable lim : option Z.

Definition nx (f : bool) := if f then next_f else next_b.
Definition Ed (f : bool) (i j : I) : Prop := if f then E i j else E j i.
Definition st (f : bool) := if f then starts else goals.
Notation cfg := (bb_cfg labeled build).
Notation SInv f := (Inv vid VS PM LM (nx f) cfg (Ed f) (st f) None).
Notation state := (@bb_state V I L VS PM LM).
Notation step := (bb_step V_dec vid VS PM LM next_f next_b labeled build silent).
Notation init := (bb_init vid VS PM LM labeled build starts goals lim).
Notation St := (is_start vid starts).
Notation Go_ := (is_start vid goals).
Notation cur s := (bs_state (bb_current s)).
Notation oth s := (bs_state (bb_other s)).

Lemma presents_nx f : presents vid (nx f) (Ed f).
Proof. destruct f; [exact Hf|exact Hb]. Qed.

(** A path with [k] edges from a start vertex to a goal vertex. *)
Definition connected (k : nat) : Prop := exists s p g, St s /\ Go_ g /\ walk E s p g /\ length p = k.

Definition is_st (f : bool) : I -> Prop := start_id vid (st f).

Lemma walk_Ed_rev f i p j : walk (Ed f) i p j -> exists q, walk (Ed (negb f)) j q i /\ length q = length p.
Proof. intros H. apply walk_flip in H. destruct f; exact H. Qed.

Lemma connected_Ed f k : connected k <-> exists s p g, is_st f s /\ is_st (negb f) g /\ walk (Ed f) s p g /\ length p = k.
Proof.
  unfold connected. destruct f; simpl.
  - split; intros (s & p & g & H1 & H2 & H3 & H4); exists s, p, g; auto.
  - split; intros (s & p & g & H1 & H2 & H3 & H4); apply walk_flip in H3; destruct H3 as (q & H3 & H5); exists g, q, s; split; auto; split; auto; split; auto; lia.
Qed.

(** A vertex met in both directions connects. *)
Lemma meet f k m i s p g q : is_st f s -> walk (Ed f) s p i -> length p = k -> is_st (negb f) g -> walk (Ed (negb f)) g q i -> length q = m -> connected (k + m).
Proof.
  intros H1 H2 H3 H4 H5 H6. apply (connected_Ed f). apply walk_Ed_rev in H5. destruct H5 as (q' & H5 & H7). rewrite negb_involutive in H5.
  exists s, (p ++ q'), g. split; auto. split; auto. split; [eapply walk_app; eauto|]. rewrite app_length. lia.
Qed.

(** If no vertex has been visited in both directions, each connection is longer than what is complete in both directions. *)
Lemma apart f F d b F' d' b' : SInv f F d b -> SInv (negb f) F' d' b' ->
  (forall i, vs_mem VS i (b_visited b) = true -> vs_mem VS i (b_visited b') = true -> False) ->
  forall k, connected k -> (d - 1) + (d' - 1) < k.
Proof.
  intros HI HI' HD k Hk. apply (connected_Ed f) in Hk. destruct Hk as (s & p & g & Hs & Hg & Hw & Hl).
  destruct (Nat.lt_ge_cases ((d - 1) + (d' - 1)) k) as [|Hle]; auto. exfalso.
  destruct (walk_split _ _ _ _ Hw (Nat.min (d - 1) (length p))) as (p1 & m & p2 & -> & H1 & H2 & H3); [lia|].
  apply (HD m).
  - eapply (side_within vid VS PM LM (nx f) cfg (Ed f) (st f)); eauto. lia.
  - apply walk_Ed_rev in H2. destruct H2 as (q & H2 & H4).
    eapply (side_within vid VS PM LM (nx (negb f)) cfg (Ed (negb f)) (st (negb f))); eauto. rewrite app_length in *. lia.
Qed.

Record BB (s : state) : Prop := {
  bb_cur_inv : exists F d, SInv (bb_forwards s) F d (cur s);
  bb_oth_inv : exists F d, SInv (negb (bb_forwards s)) F d (oth s) /\ bs_depth (bb_other s) = (Z.of_nat d - 1)%Z;
  bb_oth_pc : b_pc (oth s) = BWhile;
  bb_apart : forall i, vs_mem VS i (b_visited (cur s)) = true -> vs_mem VS i (b_visited (oth s)) = true -> False;
  bb_prev_ok : bb_prev s = match rev (b_next (cur s)) with [] => None | v :: _ => Some v end
}.

(** What the result tells. *)
Definition good_length (z : Z) : Prop := exists k, z = Z.of_nat k /\ connected k /\ forall k', connected k' -> k <= k'.

Lemma cfg_tree : bc_is_tree cfg = false. Proof. reflexivity. Qed.
Lemma cfg_rdi : bc_report_depth_increase cfg = true. Proof. reflexivity. Qed.

Lemma BB_init : (forall i, St i -> Go_ i -> False) -> BB init.
Proof.
  intros HN. constructor; simpl; auto.
  - exists [], 1. apply (Inv_init I_dec); auto.
  - exists [], 1. split; [|reflexivity]. apply (Inv_init I_dec); auto.
  - intros i H1 H2. apply (define_visited_mem VS None (map vid starts) i) in H1. apply (define_visited_mem VS None (map vid goals) i) in H2.
    destruct H1 as [[]|H1]. destruct H2 as [[]|H2]. exact (HN i H1 H2).
Qed.

(** The path of the result. *)
Definition good_path (p : path_obj V L) (k : nat) : Prop :=
  exists l es g, shows p (S k) l es /\ po_labeled p = labeled /\ length l = S k /\ In g goals /\
    path_list (fun u w => E (vid u) (vid w)) (fun u => In u starts) l g /\
    (labeled = true -> forall u w d, In (u, w, d) es -> In (w, d) (next_f u) \/ In (u, d) (next_b w)).

Lemma side_path f F d b v k : SInv f F d b -> build = true -> (forall u w, vid u = vid w -> u = w) -> lv vid (st f) F (vid v) k ->
  exists l, path_list (fun u w => Ed f (vid u) (vid w)) (fun u => In u (st f)) (l ++ [v]) v /\ length l = k /\
    delivers V_dec vid PM LM (b_pred b) (b_labels b) labeled (fun u w l => In (w, l) (nx f u)) v (l ++ [v]).
Proof.
  intros HI Hbuild Hinj Hlv.
  assert (Hsi : starts_inj vid (st f)) by (intros x y _ _; apply Hinj).
  destruct (i_path _ _ _ _ _ _ _ _ _ _ _ _ HI Hbuild Hsi) as [P1 P2].
  assert (HP : path_ok vid VS PM (nx f) (st f) None F (b_pred b) v k).
  { destruct Hlv as [[Hs ->]|(u & Hu & Hid)].
    - apply in_map_iff in Hs. destruct Hs as (u & Hid & Hu). apply Hinj in Hid. subst u. auto.
    - apply Hinj in Hid. subst u. auto. }
  destruct (path_ok_delivers V_dec vid VS PM LM (nx f) cfg (Ed f) (st f) None F d b (b_pred b) (b_labels b) v k HI Hbuild Hsi HP) as (l & H1 & H2 & H3 & _); [auto|].
  assert (Hlast : exists l', l = l' ++ [v]).
  { destruct H1 as (s & p & -> & _ & Hw). destruct p as [|x p _] using rev_ind.
    - inversion Hw; subst. exists []. reflexivity.
    - apply walk_snoc_inv in Hw. destruct Hw as (j & _ & _ & ->). exists (s :: p). reflexivity. }
  destruct Hlast as (l' & ->). exists l'. split; [|split].
  - destruct H1 as (s & p & Heq & Hs & Hw). exists s, p. split; auto. split; auto. eapply walk_mono; [|exact Hw].
    intros x y [Hxy _]. apply (presents_nx f). apply in_map_iff in Hxy. destruct Hxy as (e & <- & He). apply in_map_iff. exists e. auto.
  - rewrite app_length in H2. simpl in H2. lia.
  - exact H3.
Qed.

Lemma path_list_join (E1 : V -> V -> Prop) S1 S2 a v b : path_list E1 S1 (a ++ [v]) v -> path_list (fun x y => E1 y x) S2 (b ++ [v]) v ->
  exists g, S2 g /\ path_list E1 S1 (a ++ v :: rev b) g.
Proof.
  intros (s & p & Hp & Hs & Hw) (g & q & Hq & Hg & Hw2). exists g. split; auto.
  assert (Hb2 : walk E1 v (rev b) g).
  { clear - Hq Hw2. revert g Hw2 b Hq. induction q as [|x q IH]; intros g Hw2 b Hq.
    - inversion Hw2; subst. destruct b as [|y [|]]; try discriminate. constructor.
    - inversion Hw2 as [|? ? ? ? He Hw3]; subst. destruct b as [|y b]; [discriminate|]. simpl in Hq. injection Hq as -> Hq.
      simpl. eapply walk_snoc; [|exact He]. eapply IH; eauto. }
  destruct a as [|x a]; simpl in *.
  - injection Hp as <- <-. exists v, (rev b). auto.
  - injection Hp as -> <-. exists s, (a ++ v :: rev b). split; auto. split; auto.
    replace (a ++ v :: rev b) with ((a ++ [v]) ++ rev b) by (rewrite <- app_assoc; reflexivity). eapply walk_app; eauto.
Qed.

(** The result at the moment a vertex has been found from both directions. *)
Lemma found_good s v F d F' d' k m : SInv (bb_forwards s) F d (cur s) -> SInv (negb (bb_forwards s)) F' d' (oth s) ->
  lv vid (st (bb_forwards s)) F (vid v) k -> lv vid (st (negb (bb_forwards s))) F' (vid v) m ->
  build = true -> (forall u w, vid u = vid w -> u = w) -> forall z, good_path (br_path (bb_found V_dec vid VS PM LM labeled build s v z)) (k + m).
Proof.
  intros HI HI' Hk Hm Hbuild Hinj z.
  destruct (side_path _ _ _ _ _ _ HI Hbuild Hinj Hk) as (l1 & P1 & L1 & D1).
  destruct (side_path _ _ _ _ _ _ HI' Hbuild Hinj Hm) as (l2 & P2 & L2 & D2).
  unfold bb_found. simpl. rewrite Hbuild. destruct (bb_forwards s); simpl in *.
  - destruct (joined_shows V_dec vid PM LM labeled _ _ _ _ _ _ v l1 l2 D1 D2) as (es & HS & HL).
    destruct (path_list_join (fun u w => E (vid u) (vid w)) _ _ l1 v l2 P1 P2) as (g & Hg & HP).
    exists (l1 ++ v :: rev l2), es, g. rewrite <- L1, <- L2. split; [exact HS|]. split; [reflexivity|].
    split; [rewrite app_length; simpl; rewrite rev_length; lia|]. split; [exact Hg|]. split; [exact HP|].
    intros Hlab u w x Hin. destruct (HL Hlab) as (e1 & e2 & -> & _ & _ & Q1 & Q2). apply in_app_or in Hin. destruct Hin; auto.
  - destruct (joined_shows V_dec vid PM LM labeled _ _ _ _ _ _ v l2 l1 D2 D1) as (es & HS & HL).
    destruct (path_list_join (fun u w => E (vid u) (vid w)) _ _ l2 v l1 P2 P1) as (g & Hg & HP).
    exists (l2 ++ v :: rev l1), es, g. rewrite <- L1, <- L2. rewrite Nat.add_comm. split; [exact HS|]. split; [reflexivity|].
    split; [rewrite app_length; simpl; rewrite rev_length; lia|]. split; [exact Hg|]. split; [exact HP|].
    intros Hlab u w x Hin. destruct (HL Hlab) as (e1 & e2 & -> & _ & _ & Q1 & Q2). apply in_app_or in Hin. destruct Hin; auto.
Qed.

(** What a result tells. *)
Definition good_result (r : bb_result) : Prop :=
  (exists k, br_length r = Z.of_nat k /\ connected k /\ (forall k', connected k' -> k <= k') /\
     (build = true -> (forall u w, vid u = vid w -> u = w) -> good_path (br_path r) k)) \/
  (silent = true /\ br_length r = (-1)%Z /\ (forall k, ~ connected k)).

Lemma BB_step s : BB s -> match step s with
  | Go o s' => o = [] /\ BB s'
  | Halt o s' => exists r, o = [r] /\ good_result r
  | Raise o x s' => o = [] /\ ((x = RuntimeErrorLimit /\ limit_check (b_limit (cur s)) = None) \/ (silent = false /\ x = KeyErrorNotFound /\ forall k, ~ connected k))
  end.
Proof.
  intros [(F & d & HI) (F' & d' & HI' & HD') Hpc' HA HP].
  unfold bb_step. change (if bb_forwards s then next_f else next_b) with (nx (bb_forwards s)).
  destruct (bfs_step vid VS PM LM (nx (bb_forwards s)) cfg (cur s)) as [o b|o b|o x b] eqn:Hs.
  - destruct (side_step I_dec vid VS PM LM (nx (bb_forwards s)) cfg cfg_tree cfg_rdi (Ed (bb_forwards s)) (presents_nx _) (st (bb_forwards s)) F d _ _ _ HI Hs)
      as [d2 -> HI2 _ _ Hv Hn|v r -> Hr Hrd HI2 Hnew Hv Hn|v r x -> Hr Hrd Hn HI2 Hpc2 Hv Hn2 _].
    + simpl. split; auto. constructor; simpl; eauto; [rewrite Hv; auto|rewrite Hn; auto].
    + cbn [bb_consume bb_set_current bb_prev bb_current bb_other bb_forwards bs_state bs_depth]. rewrite Hr.
      assert (Hneq : match bb_prev s with Some u => if V_dec u v then true else false | None => false end = false).
      { rewrite HP. destruct (rev (b_next (cur s))) as [|u x] eqn:Hre; auto. destruct (V_dec u v) as [->|]; auto. exfalso.
        assert (Hin : In v (b_next (cur s))) by (apply in_rev; rewrite Hre; now left).
        apply (i_nx _ _ _ _ _ _ _ _ _ _ _ _ HI) in Hin.
        assert (C : vs_mem VS (vid v) (b_visited (cur s)) = true); [|congruence].
        apply (side_visited vid VS PM LM (nx (bb_forwards s)) cfg (Ed (bb_forwards s)) (st (bb_forwards s)) F d); auto. exists d. right. eauto. }
      rewrite Hneq. destruct (vs_mem VS (vid v) (b_visited (oth s))) eqn:Hm.
      * eexists. split; [reflexivity|]. left.
        apply (side_visited vid VS PM LM (nx (negb (bb_forwards s))) cfg (Ed (negb (bb_forwards s))) (st (negb (bb_forwards s))) F' d') in Hm; auto.
        destruct Hm as (m & Hm).
        assert (Hlv : lv vid (st (bb_forwards s)) (F ++ [(v, d)]) (vid v) d) by (right; exists v; split; auto; apply in_or_app; right; now left).
        destruct (lv_walk vid VS PM LM (nx (bb_forwards s)) cfg (Ed (bb_forwards s)) (st (bb_forwards s)) (F ++ [(v, d)]) d b (vid v) d HI2 Hlv) as (s0 & p & W1 & W2 & W3).
        destruct (lv_walk vid VS PM LM (nx (negb (bb_forwards s))) cfg (Ed (negb (bb_forwards s))) (st (negb (bb_forwards s))) F' d' (oth s) (vid v) m HI' Hm) as (g & q & X1 & X2 & X3).
        pose proof (meet (bb_forwards s) d m (vid v) s0 p g q W1 W2 W3 X1 X2 X3) as Hc.
        pose proof (apart (bb_forwards s) F d (cur s) F' d' (oth s) HI HI' HA) as Hlow.
        pose proof (side_paused vid VS PM LM (nx (negb (bb_forwards s))) cfg (Ed (negb (bb_forwards s))) (st (negb (bb_forwards s))) F' d' (oth s) (vid v) m HI' Hpc' Hm) as Hmd.
        destruct (i_d _ _ _ _ _ _ _ _ _ _ _ _ HI) as [_ Hd1]. destruct (i_d _ _ _ _ _ _ _ _ _ _ _ _ HI') as [_ Hd1'].
        pose proof (Hlow _ Hc) as Hlow1. exists (d + m). split; [|split; [exact Hc|split]].
        -- simpl. rewrite Hrd, HD'. lia.
        -- intros k' Hk'. apply Hlow in Hk'. lia.
        -- intros Hbu Hinj. eapply found_good; eauto.
      * split; auto. constructor; simpl; eauto.
        -- intros i Hi Hi'. rewrite Hv in Hi. apply vs_mem_add in Hi. destruct Hi as [->|Hi]; [congruence|eauto].
        -- now rewrite Hn, rev_app_distr.
    + cbn [bb_consume bb_set_current bb_prev bb_current bb_other bb_forwards bs_state bs_depth]. rewrite Hr, HP, Hn, rev_app_distr. simpl rev. cbn [app].
      destruct (V_dec v v) as [_|C]; [|congruence]. split; auto. constructor; simpl; eauto.
      * exists F, (d + 1). rewrite negb_involutive. split; auto. rewrite Hrd. lia.
      * intros i H1 H2. rewrite Hv in H2. eauto.
      * destruct (i_while _ _ _ _ _ _ _ _ _ _ _ _ HI' Hpc') as [-> _]. reflexivity.
  - assert (Hend : b_pc (cur s) = BWhile /\ b_to_expand (cur s) = []).
    { unfold bfs_step in Hs. destruct (b_pc (cur s)) as [| |v [|[n l] rest]]; [|destruct (b_to_expand _); [discriminate|]; destruct (limit_check _); discriminate|discriminate|destruct (_ && _); discriminate].
      destruct (b_to_expand (cur s)); [auto|discriminate]. }
    destruct Hend as [He1 He2].
    assert (HNC : forall k, ~ connected k).
    { intros k Hk. apply (connected_Ed (bb_forwards s)) in Hk. destruct Hk as (s0 & p & g & Hs0 & Hg & Hw & _).
      apply (HA g).
      - eapply (side_all vid VS PM LM (nx (bb_forwards s)) cfg (Ed (bb_forwards s)) (st (bb_forwards s))); eauto. exists s0, p. auto.
      - apply (side_visited vid VS PM LM (nx (negb (bb_forwards s))) cfg (Ed (negb (bb_forwards s))) (st (negb (bb_forwards s))) F' d'); auto. exists 0. left. auto. }
    unfold bb_fail. destruct silent eqn:Hsil.
    + eexists. split; [reflexivity|]. right. auto.
    + split; auto.
  - split; auto. left. unfold bfs_step in Hs. destruct (b_pc (cur s)) as [| |v [|[n l] rest]]; [destruct (b_to_expand _); discriminate| |discriminate|destruct (_ && _); discriminate].
    destruct (b_to_expand (cur s)); [discriminate|]. destruct (limit_check (b_limit (cur s))); [discriminate|]. injection Hs as <- <- <-. auto.
Qed.
End BiBFSProofs.
