(** A* with weights whose sums may be rounded (C98): no use of associativity or cancellation. *)
From Coq Require Import List ZArith Bool Lia Sorted Arith.
From Verif Require Import Machine MachineMore GearSpec Spec TraversalSpec Common CommonProofs PathsModel Weight WeightSpec HeapModel HeapProofs DijkstraModel AStarModel.
Import ListNotations.

(** What is needed of the sum *)
Record rounded (WT : Weights) : Prop := {
  ro_comm : forall a b, w_add WT a b = w_add WT b a;
  ro_inf : forall a, w_add WT a (w_inf WT) = w_inf WT;
  ro_top : forall a, w_leb WT a (w_inf WT) = true;
  ro_zero : forall a, w_add WT (w_zero WT) a = a
}.

Section AStarRounded.
Context {V I L : Type}.
Variable I_dec : forall a b : I, {a = b} + {a <> b}.
Variable vid : V -> I.
Variable WT : Weights.
Notation W := (w_t WT).
Notation leb := (w_leb WT).
Notation ltb := (w_ltb WT).
Notation add := (w_add WT).
Notation zero := (w_zero WT).
Notation inf := (w_inf WT).
Variable DM : DMap I W inf.
Variable PM : PMap I V.
Variable LM : PMap I L.
Variable next : V -> list (V * W * L).
Variable cfg : ast_cfg.
Hypothesis Htree : ac_is_tree cfg = false.
Variable E : I -> W -> I -> Prop.
Hypothesis Hnext : presents_weighted WT vid next E.
Hypothesis Hnn : nonnegative WT E.
Hypothesis Hro : rounded WT.
Variable heuristic : V -> W.
Variable h : I -> W.
Hypothesis Hh : forall v, heuristic v = h (vid v).
Hypothesis Hh0 : forall i, leb zero (h i) = true.
Variable starts : list V.
Notation St := (is_start vid starts).
Notation state := (@ast_state V I L WT DM PM LM).
Notation report := (@ast_report V I L WT DM PM LM).
Notation step := (ast_step vid WT DM PM LM next cfg heuristic).
Notation ent := (@entry (V * nat) WT).
Notation "D @ i" := (dm_get DM i D) (at level 20).
Definition evx (e : ent) : V := fst (e_val e).
Definition ekx (e : ent) : nat := snd (e_val e).
Notation pcx := (@ast_pc V L WT).

Definition pending (H : list ent) (G : dm_t DM) (i : I) : Prop := exists e, In e H /\ vid (evx e) = i /\ e_key e = G @ i.
(** All edges from [i], except those that are still to be examined, have been used. *)
Definition used (pc : pcx) (D : dm_t DM) (i : I) : Prop :=
  forall w j, E i w j -> (ltb (add w (D @ i)) inf = true /\ leb (D @ j) (add w (D @ i)) = true) \/
    exists v d k rest, pc = AEdges WT v d k rest /\ vid v = i /\ In (w, j) (map (fun e => (snd (fst e), vid (fst (fst e)))) rest).

Record RI (os : list report) (X : list (V * W * nat)) (pc : pcx) (H : list ent) (D G : dm_t DM) : Prop := {
  r_sorted : heap_sorted WT H;
  r_start : forall i, St i -> leb (D @ i) zero = true;
  r_open : forall i, ltb (D @ i) inf = true -> pending H G i \/ (used pc D i /\ exists v d k, In (v, d, k) X /\ vid v = i);
  r_guess : forall i, ltb (D @ i) inf = true -> G @ i = add (D @ i) (h i);
  r_key : forall e, In e H -> ltb (D @ vid (evx e)) inf = true /\ leb (G @ vid (evx e)) (e_key e) = true;
  r_cur : forall v d k rest, pc = AEdges WT v d k rest -> D @ vid v = d /\ ltb d inf = true /\ incl rest (next v);
  r_real : forall i, ltb (D @ i) inf = true -> exists s p, St s /\ wwalk WT E s p i /\ walk_weight WT p = D @ i;
  r_H0 : forall e, In e H -> ekx e = 0 -> St (vid (evx e));
  r_X : forall v d k, In (v, d, k) X -> St (vid v) \/ exists rep, In rep os /\ vid (ar_vertex rep) = vid v;
  r_fin : forall e, In e H -> ltb (h (vid (evx e))) inf = true -> ltb (e_key e) inf = true
}.

Lemma add_mono_l a b c : leb a b = true -> leb (add a c) (add b c) = true.
Proof using Hro. intros Hab. rewrite (ro_comm WT Hro a c), (ro_comm WT Hro b c). now apply w_add_mono. Qed.

Lemma add_infl_r a c : leb zero c = true -> leb a (add a c) = true.
Proof using Hro. intros Hc. rewrite (ro_comm WT Hro). now apply w_add_infl. Qed.

(** Along a walk from a start vertex: either all vertices before the last one have been used, or one of them is pending. *)
Lemma walk_front os X pc H D G : RI os X pc H D G -> pc = ALoop WT ->
  forall p s i, St s -> wwalk WT E s p i -> ltb (walk_weight WT p) inf = true ->
  leb (D @ i) (walk_weight WT p) = true \/
  exists q1 q2 v, p = q1 ++ q2 /\ q2 <> [] /\ wwalk WT E s q1 v /\ wwalk WT E v q2 i /\ pending H G v /\ leb (D @ v) (walk_weight WT q1) = true.
Proof using Hnn Hro.
  intros HI Hpc p. induction p as [|[w j] p IH] using rev_ind; intros s i Hs Hw Hlt.
  - inversion Hw; subst. left. cbn. exact (r_start _ _ _ _ _ _ HI i Hs).
  - apply wwalk_snoc_inv in Hw. destruct Hw as (u & Hw & He & ->). rewrite walk_weight_snoc in Hlt.
    assert (Hlt' : ltb (walk_weight WT p) inf = true).
    { eapply w_le_lt_trans; [|exact Hlt]. apply w_add_infl. eapply Hnn. exact He. }
    destruct (IH s u Hs Hw Hlt') as [HD|(q1 & q2 & v & -> & Hq & H1 & H2 & H3 & H4)].
    + assert (Hu : ltb (D @ u) inf = true) by (eapply w_le_lt_trans; eauto).
      destruct (r_open _ _ _ _ _ _ HI u Hu) as [Hp|[Hused _]].
      * right. exists p, [(w, j)], u. split; [reflexivity|]. split; [discriminate|]. split; [exact Hw|].
        split; [econstructor; [exact He|constructor]|]. auto.
      * destruct (Hused w j He) as [[_ Hle]|(v & d & k & rest & Hc & _)]; [|rewrite Hpc in Hc; discriminate].
        left. rewrite walk_weight_snoc. eapply w_leb_trans; [exact Hle|]. now apply w_add_mono.
    + right. exists q1, (q2 ++ [(w, j)]), v. rewrite app_assoc. split; [reflexivity|]. split; [destruct q2; discriminate|].
      split; [exact H1|]. split; [eapply wwalk_snoc; eauto|]. auto.
Qed.

(** ** Initial state *)
Lemma rzero_inf : ltb zero inf = true.
Proof. apply w_ltb_lt. apply w_zero_inf. Qed.

Lemma rstart_dec i : St i \/ ~ St i.
Proof using I_dec. unfold is_start. destruct (In_dec I_dec i (map vid starts)); auto. Qed.

Lemma rfold_get (F : I -> W) (l : list V) : forall m i,
  fold_left (fun m p => dm_set DM (fst p) (snd p) m) (map (fun v => (vid v, F (vid v))) l) m @ i
  = if In_dec I_dec i (map vid l) then F i else m @ i.
Proof.
  induction l as [|v l IH]; intros m i; simpl; auto. rewrite IH.
  destruct (I_dec (vid v) i) as [->|Hne].
  - destruct (In_dec _ i _); auto. apply dm_get_set_same.
  - destruct (In_dec _ i _); auto. apply dm_get_set_other. congruence.
Qed.

Definition rD0 : dm_t DM := define_distances WT DM None (map (fun v => (vid v, zero)) starts) false.
Definition rG0 : dm_t DM :=
  define_distances WT DM None (map (fun v => (vid v, add (rD0 @ (vid v)) (heuristic v))) starts) (ac_is_tree cfg).

Lemma rD0_start i : St i -> rD0 @ i = zero.
Proof using I_dec.
  intros Hs. unfold rD0, define_distances. rewrite (rfold_get (fun _ => zero)).
  destruct (In_dec _ _ _); auto. contradiction.
Qed.
Lemma rD0_other i : ~ St i -> rD0 @ i = inf.
Proof using I_dec.
  intros Hs. unfold rD0, define_distances. rewrite (rfold_get (fun _ => zero)).
  destruct (In_dec _ _ _); [contradiction|]. apply dm_get_empty.
Qed.
Lemma rG0_start i : St i -> rG0 @ i = add zero (h i).
Proof using I_dec Hh.
  intros Hs. unfold rG0, define_distances.
  rewrite (map_ext_in _ (fun v => (vid v, add zero (h (vid v))))).
  - rewrite (rfold_get (fun i => add zero (h i))). destruct (In_dec _ _ _); auto. contradiction.
  - intros v Hv. f_equal. rewrite rD0_start by (now apply in_map). now rewrite Hh.
Qed.

Lemma rentries_in g : forall l n' e, In e (ast_start_entries vid WT DM n' g l) ->
  In (evx e) l /\ ekx e = 0 /\ e_key e = g @ (vid (evx e)).
Proof.
  induction l as [|v l IH]; simpl; intros n' e Hin; [contradiction|].
  destruct Hin as [<-|Hin]; [cbn; auto|]. destruct (IH _ _ Hin) as (H1 & H2 & H3). auto.
Qed.
Lemma rin_entries g : forall l n' v, In v l ->
  exists e, In e (ast_start_entries vid WT DM n' g l) /\ evx e = v /\ e_key e = g @ (vid v).
Proof.
  induction l as [|u l IH]; simpl; intros n' v Hin; [contradiction|].
  destruct Hin as [<-|Hin].
  - eexists. split; [left; reflexivity|]. simpl. auto.
  - destruct (IH (n' - 1)%Z v Hin) as (e & H1 & H2). exists e. auto.
Qed.

Notation init := (ast_init vid WT DM PM LM cfg heuristic starts None None).

Lemma RI_init lim : RI [] [] (@ALoop V L WT) (a_heap (init lim)) rD0 rG0.
Proof using I_dec Hh Hro.
  assert (Hin : forall e, In e (a_heap (init lim)) -> In (evx e) starts /\ ekx e = 0 /\ e_key e = rG0 @ (vid (evx e))).
  { intros e. unfold ast_init. cbn [a_heap]. fold rD0. fold rG0. intros He. apply (proj1 (heapify_in WT _ _)) in He. now apply rentries_in in He. }
  assert (HS : forall i, ltb (rD0 @ i) inf = true -> St i).
  { intros i Hi. destruct (rstart_dec i) as [Hs|Hs]; [exact Hs|]. rewrite rD0_other in Hi by auto. rewrite w_lt_irrefl in Hi. discriminate. }
  constructor.
  - apply heapify_sorted.
  - intros i Hs. rewrite rD0_start by auto. apply w_leb_refl.
  - intros i Hi. left. specialize (HS i Hi). unfold is_start in HS. apply in_map_iff in HS. destruct HS as (v & <- & Hv).
    destruct (rin_entries rG0 starts 256%Z v Hv) as (e & He & Hv' & Hk).
    exists e. split; [unfold ast_init; cbn [a_heap]; now apply heapify_in|]. rewrite Hv'. auto.
  - intros i Hi. specialize (HS i Hi). rewrite rD0_start by exact HS. now apply rG0_start.
  - intros e He. destruct (Hin e He) as (Hv & _ & Hk). rewrite Hk. rewrite rD0_start by (now apply in_map).
    split; [apply rzero_inf|apply w_leb_refl].
  - discriminate.
  - intros i Hi. specialize (HS i Hi). exists i, []. rewrite rD0_start by exact HS. repeat split; auto. constructor.
  - intros e He _. destruct (Hin e He) as (Hv & _). now apply in_map.
  - intros v d k [].
  - intros e He Hf. destruct (Hin e He) as (Hv & _ & Hk). rewrite Hk, rG0_start by (now apply in_map). now rewrite (ro_zero WT Hro).
Qed.

(** ** Steps *)
Lemma RI_stale os X e H D G : RI os X (@ALoop V L WT) (e :: H) D G -> ltb (G @ vid (evx e)) (e_key e) = true ->
  RI os X (@ALoop V L WT) H D G.
Proof.
  intros HI Hst. destruct HI as [R1 R2 R3 R4 R5 R6 R7 R8 R9 R10]. constructor; auto.
  - inversion R1; auto.
  - intros i Hi. destruct (R3 i Hi) as [(e' & [<-|He'] & Hv & Hk)|HU]; [|left; exists e'; auto|now right].
    exfalso. rewrite <- Hv in Hk. rewrite <- Hk in Hst. rewrite w_lt_irrefl in Hst. discriminate.
  - intros e' He'. apply R5. now right.
  - intros e' He' Hk. apply R8; [now right|exact Hk].
  - intros e' He'. apply R10. now right.
Qed.

Lemma RI_pop os os' X e H D G : RI os X (@ALoop V L WT) (e :: H) D G ->
  (ekx e <> 0 -> exists rep, In rep os' /\ vid (ar_vertex rep) = vid (evx e)) ->
  RI (os ++ os') ((evx e, D @ vid (evx e), ekx e) :: X) (AEdges WT (evx e) (D @ vid (evx e)) (ekx e) (next (evx e))) H D G.
Proof using I_dec Hnext.
  intros HI Hrep. destruct HI as [R1 R2 R3 R4 R5 R6 R7 R8 R9 R10]. constructor; auto.
  - inversion R1; auto.
  - intros i Hi. destruct (I_dec (vid (evx e)) i) as [Hi'|Hne].
    + right. split.
      * intros w j Hw. right. exists (evx e), (D @ vid (evx e)), (ekx e), (next (evx e)). split; [reflexivity|]. split; [exact Hi'|].
        subst i. apply Hnext in Hw. exact Hw.
      * exists (evx e), (D @ vid (evx e)), (ekx e). split; [now left|exact Hi'].
    + destruct (R3 i Hi) as [(e' & [<-|He'] & Hv & Hk)|[HU (v & d & k & Hin & Hv)]]; [now destruct Hne|left; exists e'; auto|].
      right. split.
      * intros w j Hw. destruct (HU w j Hw) as [Hle|(? & ? & ? & ? & Hc & _)]; [now left|discriminate].
      * exists v, d, k. split; [now right|exact Hv].
  - intros e' He'. apply R5. now right.
  - intros v d k rest Hpc. injection Hpc as <- <- <- <-. split; [reflexivity|]. split; [apply R5; now left|apply incl_refl].
  - intros e' He' Hk. apply R8; [now right|exact Hk].
  - intros v d k [Hin|Hin].
    + injection Hin as <- <- <-. destruct (Nat.eq_dec (ekx e) 0) as [H0|H0].
      * left. apply R8; [now left|exact H0].
      * right. destruct (Hrep H0) as (rep & Hr & Hv). exists rep. split; [apply in_or_app; now right|exact Hv].
    + destruct (R9 v d k Hin) as [Hs|(rep & Hr & Hv)]; [now left|]. right. exists rep. split; [apply in_or_app; now left|exact Hv].
  - intros e' He'. apply R10. now right.
Qed.

Lemma used_next v d k n ew l rest D i : used (AEdges WT v d k ((n, ew, l) :: rest)) D i ->
  (vid v = i -> ltb (add ew (D @ i)) inf = true /\ leb (D @ vid n) (add ew (D @ i)) = true) -> used (AEdges WT v d k rest) D i.
Proof.
  intros HU Hn w j Hw. destruct (HU w j Hw) as [Hle|(v' & d' & k' & rest' & Hpc & Hv & Hin)]; [now left|].
  injection Hpc as <- <- <- <-. cbn [map fst snd] in Hin. destruct Hin as [Hin|Hin].
  - injection Hin as <- <-. left. now apply Hn.
  - right. exists v, d, k, rest. auto.
Qed.

Lemma RI_skip os X v d k n ew l rest H D G : RI os X (AEdges WT v d k ((n, ew, l) :: rest)) H D G ->
  ltb (add ew d) inf = true -> leb (D @ vid n) (add ew d) = true -> RI os X (AEdges WT v d k rest) H D G.
Proof.
  intros HI Hfin Hle. destruct HI as [R1 R2 R3 R4 R5 R6 R7 R8 R9 R10]. destruct (R6 _ _ _ _ eq_refl) as (Hd & Hf & Hinc). constructor; auto.
  - intros i Hi. destruct (R3 i Hi) as [HP|[HU HX]]; [now left|right]. split; [|exact HX].
    eapply used_next; [exact HU|]. intros <-. now rewrite Hd.
  - intros v' d' k' rest' Hpc. injection Hpc as <- <- <- <-. do 2 (split; [assumption|]). intros x Hx. apply Hinc. now right.
Qed.

Lemma RI_relax os X v d k n ew l rest H D G no : RI os X (AEdges WT v d k ((n, ew, l) :: rest)) H D G ->
  leb (D @ vid n) (add ew d) = false -> ltb (add ew d) inf = true -> (ltb (h (vid n)) inf = true -> ltb (add (add ew d) (h (vid n))) inf = true) ->
  RI os X (AEdges WT v d k rest) (heappush WT (add (add ew d) (h (vid n)), no, (n, S k)) H)
     (dm_set DM (vid n) (add ew d) D) (dm_set DM (vid n) (add (add ew d) (h (vid n))) G).
Proof using I_dec Hnext Hnn Hro.
  intros HI Hgt Hfin Hgf. destruct HI as [R1 R2 R3 R4 R5 R6 R7 R8 R9 R10]. destruct (R6 _ _ _ _ eq_refl) as (Hd & Hf & Hinc).
  assert (Hin : In (n, ew, l) (next v)) by (apply Hinc; now left).
  assert (HE : E (vid v) ew (vid n)) by (apply Hnext; apply in_map_iff; exists (n, ew, l); auto).
  assert (Hne : vid n <> vid v).
  { intros Heq. rewrite Heq, Hd in Hgt. rewrite w_add_infl in Hgt; [discriminate|]. eapply Hnn; eauto. }
  set (nw := add ew d) in *. set (D' := dm_set DM (vid n) nw D). set (G' := dm_set DM (vid n) (add nw (h (vid n))) G).
  assert (HDn : D' @ vid n = nw) by apply dm_get_set_same.
  assert (HGn : G' @ vid n = add nw (h (vid n))) by apply dm_get_set_same.
  assert (HDo : forall i, vid n <> i -> D' @ i = D @ i) by (intros; apply dm_get_set_other; congruence).
  assert (HGo : forall i, vid n <> i -> G' @ i = G @ i) by (intros; apply dm_get_set_other; congruence).
  assert (Hlt : leb nw (D @ vid n) = true) by (destruct (w_leb_total WT nw (D @ vid n)); congruence).
  assert (HDle : forall i, leb (D' @ i) (D @ i) = true).
  { intros i. destruct (I_dec (vid n) i) as [<-|Hn]; [now rewrite HDn|rewrite HDo by auto; apply w_leb_refl]. }
  constructor.
  - now apply heappush_sorted.
  - intros i Hs. eapply w_leb_trans; [apply HDle|now apply R2].
  - intros i Hi. destruct (I_dec (vid n) i) as [<-|Hn].
    + left. eexists. split; [apply heappush_in; left; reflexivity|]. cbn. split; [reflexivity|]. now rewrite HGn.
    + rewrite HDo in Hi by auto. destruct (R3 i Hi) as [(e & He & Hv & Hk)|[HU HX]].
      * left. exists e. split; [apply heappush_in; now right|]. split; [exact Hv|]. now rewrite HGo.
      * right. split; [|exact HX]. intros w j Hw. rewrite (HDo i) by auto.
        destruct (HU w j Hw) as [[Hlf Hle]|(v' & d' & k' & rest' & Hpc & Hv & Hj)].
        -- left. split; [exact Hlf|]. eapply w_leb_trans; [apply HDle|exact Hle].
        -- injection Hpc as <- <- <- <-. cbn [map fst snd] in Hj. destruct Hj as [Hj|Hj].
           ++ injection Hj as <- <-. left. rewrite HDn, <- Hv, Hd. split; [exact Hfin|apply w_leb_refl].
           ++ right. exists v, d, k, rest. auto.
  - intros i Hi. destruct (I_dec (vid n) i) as [<-|Hn]; [now rewrite HDn, HGn|]. rewrite HDo in Hi |- * by auto. rewrite HGo by auto. now apply R4.
  - intros e He. apply (proj1 (heappush_in WT _ _ _)) in He. destruct He as [->|He].
    + cbn. rewrite HDn, HGn. split; [exact Hfin|apply w_leb_refl].
    + destruct (R5 e He) as [K1 K2]. destruct (I_dec (vid n) (vid (evx e))) as [Heq|Hn].
      * rewrite <- Heq in *. rewrite HDn, HGn. split; [exact Hfin|]. eapply w_leb_trans; [|exact K2]. rewrite R4 by exact K1. now apply add_mono_l.
      * rewrite HDo, HGo by auto. auto.
  - intros v' d' k' rest' Hpc. injection Hpc as <- <- <- <-. rewrite HDo by auto. do 2 (split; [assumption|]). intros x Hx. apply Hinc. now right.
  - intros i Hi. destruct (I_dec (vid n) i) as [<-|Hn].
    + rewrite HDn. rewrite <- Hd in Hf. destruct (R7 _ Hf) as (s & p & Hs & Hw & Hp). exists s, (p ++ [(ew, vid n)]). split; [exact Hs|].
      split; [eapply wwalk_snoc; eauto|]. rewrite walk_weight_snoc, Hp, Hd. reflexivity.
    + rewrite HDo in Hi |- * by auto. now apply R7.
  - intros e He Hk. apply (proj1 (heappush_in WT _ _ _)) in He. destruct He as [->|He]; [discriminate Hk|now apply R8].
  - exact R9.
  - intros e He Hk. apply (proj1 (heappush_in WT _ _ _)) in He. destruct He as [->|He]; [now apply Hgf|now apply R10].
Qed.

Lemma RI_done os X v d k H D G : RI os X (AEdges WT v d k []) H D G -> RI os X (@ALoop V L WT) H D G.
Proof.
  intros HI. destruct HI as [R1 R2 R3 R4 R5 R6 R7 R8 R9 R10]. constructor; auto; [|discriminate].
  intros i Hi. destruct (R3 i Hi) as [HP|[HU HX]]; [now left|right]. split; [|exact HX].
  intros w j Hw. destruct (HU w j Hw) as [Hle|(v' & d' & k' & rest' & Hpc & Hv & Hj)]; [now left|]. injection Hpc as <- <- <- <-. destruct Hj.
Qed.

(** ** The first goal vertex *)
Variable Goal : I -> Prop.
Hypothesis Hgs : forall i, St i -> ~ Goal i.

(** What is known about a report when no goal vertex has been reported before *)
Definition good_goal (rep : report) : Prop :=
  (exists s p, St s /\ wwalk WT E s p (vid (ar_vertex rep)) /\ walk_weight WT p = ar_path_length rep) /\
  ltb (ar_path_length rep) inf = true /\
  (ltb (h (vid (ar_vertex rep))) inf = true -> ltb (add (ar_path_length rep) (h (vid (ar_vertex rep)))) inf = true) /\
  forall s q g, St s -> Goal g -> wwalk WT E s q g -> ltb (walk_weight WT q) inf = true ->
    exists q1 q2 v, q = q1 ++ q2 /\ wwalk WT E s q1 v /\ wwalk WT E v q2 g /\ leb (add (ar_path_length rep) (h (vid (ar_vertex rep)))) (add (walk_weight WT q1) (h v)) = true.

Definition os_good (os : list report) : Prop := forall os1 rep os2, os = os1 ++ rep :: os2 ->
  (forall r, In r os1 -> ~ Goal (vid (ar_vertex r))) -> Goal (vid (ar_vertex rep)) -> good_goal rep.

Lemma os_good_snoc os rep : os_good os -> ((forall r, In r os -> ~ Goal (vid (ar_vertex r))) -> Goal (vid (ar_vertex rep)) -> good_goal rep) ->
  os_good (os ++ [rep]).
Proof.
  intros HG Hrep os1 r os2 Heq. destruct os2 as [|x os2 _] using rev_ind.
  - apply app_inj_tail in Heq. destruct Heq as [<- <-]. exact Hrep.
  - rewrite app_comm_cons, app_assoc in Heq. apply app_inj_tail in Heq. destruct Heq as [-> ->]. now apply (HG os1 r os2).
Qed.

Lemma pop_good os X e H D G rep : RI os X (@ALoop V L WT) (e :: H) D G -> ltb (G @ vid (evx e)) (e_key e) = false ->
  ar_vertex rep = evx e -> ar_path_length rep = D @ vid (evx e) ->
  (forall r, In r os -> ~ Goal (vid (ar_vertex r))) -> good_goal rep.
Proof using Hgs Hh0 Hnn Hro.
  intros HI Hst Hv Hp Hfirst. unfold good_goal. rewrite Hv, Hp. destruct (r_key _ _ _ _ _ _ HI e (or_introl eq_refl)) as [Hf Hk].
  split; [exact (r_real _ _ _ _ _ _ HI _ Hf)|]. split; [exact Hf|].
  assert (HG : G @ vid (evx e) = add (D @ vid (evx e)) (h (vid (evx e)))) by exact (r_guess _ _ _ _ _ _ HI _ Hf).
  split; [intros Hhf; rewrite <- HG; eapply w_le_lt_trans; [exact Hk|]; exact (r_fin _ _ _ _ _ _ HI e (or_introl eq_refl) Hhf)|].
  assert (HD : forall u, pending (e :: H) G u -> leb (add (D @ vid (evx e)) (h (vid (evx e)))) (G @ u) = true).
  { intros u (e' & He' & Hu & Hk'). rewrite <- HG. eapply w_leb_trans; [exact Hk|].
    - rewrite <- Hk'. destruct He' as [<-|He']; [apply w_leb_refl|]. pose proof (r_sorted _ _ _ _ _ _ HI) as HS.
      inversion HS as [|? ? _ HF]; subst. rewrite Forall_forall in HF. now apply HF. }
  intros s q g Hs Hg Hw Hlt. destruct (walk_front _ _ _ _ _ _ HI eq_refl q s g Hs Hw Hlt) as [HL|(q1 & q2 & u & -> & _ & H1 & H2 & HP & HL)].
  - assert (Hfg : ltb (D @ g) inf = true) by (eapply w_le_lt_trans; eauto).
    destruct (r_open _ _ _ _ _ _ HI g Hfg) as [HP|[_ (v & d & k & Hin & Hvg)]].
    + exists q, [], g. rewrite app_nil_r. do 2 (split; [auto|]). split; [constructor|].
      eapply w_leb_trans; [apply HD; exact HP|]. rewrite (r_guess _ _ _ _ _ _ HI _ Hfg). now apply add_mono_l.
    + exfalso. destruct (r_X _ _ _ _ _ _ HI v d k Hin) as [Hsv|(r & Hr & Hrv)].
      * rewrite Hvg in Hsv. exact (Hgs g Hsv Hg).
      * apply (Hfirst r Hr). now rewrite Hrv, Hvg.
  - exists q1, q2, u. do 3 (split; [auto|]). eapply w_leb_trans; [apply HD; exact HP|].
    rewrite (r_guess _ _ _ _ _ _ HI u); [now apply add_mono_l|]. destruct HP as (e' & He' & <- & _). now apply (r_key _ _ _ _ _ _ HI).
Qed.

Definition RInv (os : list report) (s : state) : Prop :=
  RI os (a_calls s) (a_pc s) (a_heap s) (a_distances s) (a_guesses s) /\ os_good os.

Lemma pop_out os s g no v k hp : RInv os s -> a_pc s = ALoop WT -> a_heap s = (g, no, (v, k)) :: hp ->
  ltb (a_guesses s @ vid v) g = false ->
  let s1 := ast_export vid WT DM PM LM (a_set_heap WT DM PM LM s hp) v k in
  os_good (os ++ (if 0 <? k then [ast_observe WT DM PM LM v s1] else [])).
Proof using Hgs Hh0 Hnn Hro.
  intros [HI HG] Hpc Hhp Hst s1. destruct (0 <? k) eqn:Ek; [|now rewrite app_nil_r]. apply os_good_snoc; [exact HG|]. intros Hfirst _.
  rewrite Hpc, Hhp in HI. eapply pop_good; [exact HI|exact Hst|reflexivity|reflexivity|exact Hfirst].
Qed.

Lemma RInv_step : forall os s o s', RInv os s -> step s = Go o s' -> RInv (os ++ o) s'.
Proof using I_dec Htree Hnext Hnn Hro Hh Hh0 Hgs.
  intros os s o s' HR. unfold ast_step. destruct (a_pc s) as [|v w k [|[[n ew] l] rest]] eqn:Epc.
  - destruct (a_heap s) as [|[[g no] [v k]] hp] eqn:Ehp; [discriminate|]. rewrite Htree. cbn [negb andb].
    destruct (ltb (dm_get DM (vid v) (a_guesses s)) g) eqn:Est.
    + intros HS. injection HS as <- <-. rewrite app_nil_r. destruct HR as [HI HG]. split; [|exact HG]. rewrite Epc, Ehp in HI.
      cbn [a_set_heap a_pc a_heap a_distances a_guesses a_calls]. rewrite Epc. eapply RI_stale; [exact HI|exact Est].
    + pose proof (pop_out os s g no v k hp HR Epc Ehp Est) as HO. cbv zeta in HO |- *. destruct (limit_check _) as [lim|]; [|discriminate].
      intros HS. injection HS as <- <-. split; [|exact HO]. destruct HR as [HI HG]. rewrite Epc, Ehp in HI.
      cbn [ast_expand ast_export a_set_heap a_pc a_heap a_distances a_guesses a_calls a_path_length].
      eapply (RI_pop os _ (a_calls s) (g, no, (v, k)) hp (a_distances s) (a_guesses s) HI). cbn. intros Hk.
      destruct k as [|k]; [now destruct Hk|]. cbn. eexists. split; [left; reflexivity|reflexivity].
  - intros HS. injection HS as <- <-. rewrite app_nil_r. destruct HR as [HI HG]. split; [|exact HG]. rewrite Epc in HI.
    cbn [a_set_pc a_pc a_heap a_distances a_guesses a_calls]. eapply RI_done. exact HI.
  - cbv zeta. destruct (leb inf (add ew w)) eqn:Ei; [discriminate|]. rewrite Htree. cbn [negb andb].
    destruct HR as [HI HG]. rewrite Epc in HI.
    destruct (leb (dm_get DM (vid n) (a_distances s)) (add ew w)) eqn:El.
    + intros HS. injection HS as <- <-. rewrite app_nil_r. split; [|exact HG].
      cbn [a_set_pc a_pc a_heap a_distances a_guesses a_calls]. eapply RI_skip; [exact HI|apply w_ltb_lt; exact Ei|exact El].
    + assert (Hfin : ltb (add ew w) inf = true) by (apply w_ltb_lt; exact Ei).
      pose proof (RI_relax os _ v w k n ew l rest _ _ _ (a_no s) HI El Hfin) as HN.
      destruct (w_eqb WT (heuristic n) inf) eqn:Eh.
      * intros HS. injection HS as <- <-. rewrite app_nil_r. split; [|exact HG].
        cbn [ast_push ast_store a_pc a_heap a_distances a_guesses a_calls a_no]. rewrite Htree.
        assert (Hhi : h (vid n) = inf).
        { rewrite <- Hh. unfold w_eqb in Eh. apply andb_true_iff in Eh. now apply w_leb_antisym. }
        rewrite Hhi, (ro_inf WT Hro) in HN. apply HN. rewrite w_lt_irrefl. discriminate.
      * destruct (leb inf (add (add ew w) (heuristic n))) eqn:Eg; [discriminate|]. intros HS. injection HS as <- <-. rewrite app_nil_r. split; [|exact HG].
        cbn [ast_push ast_store a_pc a_heap a_distances a_guesses a_calls a_no]. rewrite Htree, Hh. apply HN. intros _. rewrite <- Hh. apply w_ltb_lt. exact Eg.
Qed.

(** ** At the end, all reachable vertices have been reported. *)
Theorem ast_rounded_complete lim n os s' : ast_run vid WT DM PM LM next cfg heuristic starts None None lim n = (os, Ended s') ->
  forall s p i, St s -> wwalk WT E s p i -> ~ St i -> exists rep, In rep os /\ vid (ar_vertex rep) = i.
Proof using I_dec Htree Hnext Hnn Hro Hh Hh0 Hgs.
  unfold ast_run. intros HR.
  assert (H0 : RInv [] (init lim)).
  { split; [exact (RI_init lim)|]. intros os1 rep os2 Heq. destruct os1; discriminate. }
  destruct (run_inv_any step RInv RInv_step n [] (init lim) os _ H0 HR) as (os1 & o & s1 & -> & [HI _] & HS). cbn [app] in HI. unfold ast_step in HS.
  destruct (a_pc s1) as [|v w k [|[[m ew] l] rest]] eqn:Epc; [|discriminate|].
  2:{ cbv zeta in HS. destruct (leb inf _); [discriminate|]. destruct (negb _ && _); [discriminate|]. destruct (w_eqb _ _ _); [discriminate|].
      destruct (leb inf _); discriminate. }
  destruct (a_heap s1) as [|[[g no] [v k]] hp] eqn:Ehp.
  2:{ destruct (negb _ && _); [discriminate|]. cbv zeta in HS. destruct (limit_check _); discriminate. }
  injection HS as <- <-. rewrite app_nil_r.
  assert (HF : forall p s i, St s -> wwalk WT E s p i -> ltb (a_distances s1 @ i) inf = true).
  { intros p. induction p as [|[w j] p IH] using rev_ind; intros s i Hs Hw.
    - inversion Hw; subst. eapply w_le_lt_trans; [exact (r_start _ _ _ _ _ _ HI i Hs)|apply rzero_inf].
    - apply wwalk_snoc_inv in Hw. destruct Hw as (u & Hw & He & ->). specialize (IH s u Hs Hw).
      destruct (r_open _ _ _ _ _ _ HI u IH) as [(e & [] & _)|[HU _]].
      destruct (HU w j He) as [[Hf Hle]|(? & ? & ? & ? & Hc & _)]; [|discriminate]. eapply w_le_lt_trans; eauto. }
  intros s p i Hs Hw Hni. specialize (HF p s i Hs Hw). destruct (r_open _ _ _ _ _ _ HI i HF) as [(e & [] & _)|[_ (v & d & k & Hin & Hv)]].
  destruct (r_X _ _ _ _ _ _ HI v d k Hin) as [Hsv|(rep & Hr & Hrv)]; [rewrite Hv in Hsv; contradiction|]. exists rep. split; [exact Hr|]. now rewrite Hrv.
Qed.

Theorem ast_first_goal lim n os r : ast_run vid WT DM PM LM next cfg heuristic starts None None lim n = (os, r) -> os_good os.
Proof using I_dec Htree Hnext Hnn Hro Hh Hh0 Hgs.
  unfold ast_run. intros HR.
  assert (H0 : RInv [] (init lim)).
  { split; [exact (RI_init lim)|]. intros os1 rep os2 Heq. destruct os1; discriminate. }
  pose proof (run_inv_any step RInv RInv_step n [] (init lim) os r H0 HR) as HA.
  destruct r as [s'|s'|x s']; [exact (proj2 HA)| |].
  - destruct HA as (os1 & o & s1 & -> & [HI HG] & HS). unfold ast_step in HS.
    destruct (a_pc s1) as [|v w k [|[[m ew] l] rest]] eqn:Epc; [|discriminate|].
    + destruct (a_heap s1) as [|[[g no] [v k]] hp]; [injection HS as <- <-; now rewrite app_nil_r|].
      destruct (negb _ && _); [discriminate|]. cbv zeta in HS. destruct (limit_check _); discriminate.
    + cbv zeta in HS. destruct (leb inf _); [discriminate|]. destruct (negb _ && _); [discriminate|]. destruct (w_eqb _ _ _); [discriminate|].
      destruct (leb inf _); discriminate.
  - destruct HA as (os1 & o & s1 & -> & HRI & HS). pose proof HRI as [HI HG]. unfold ast_step in HS.
    destruct (a_pc s1) as [|v w k [|[[m ew] l] rest]] eqn:Epc; [|discriminate|].
    + destruct (a_heap s1) as [|[[g no] [v k]] hp] eqn:Ehp; [discriminate|]. rewrite Htree in HS. cbn [negb andb] in HS.
      destruct (ltb (dm_get DM (vid v) (a_guesses s1)) g) eqn:Est; [discriminate|].
      pose proof (pop_out os1 s1 g no v k hp HRI Epc Ehp Est) as HO. cbv zeta in HO, HS. destruct (limit_check _); [discriminate|].
      injection HS as <- _ _. exact HO.
    + cbv zeta in HS. destruct (leb inf _); [injection HS as <- _ _; now rewrite app_nil_r|]. destruct (negb _ && _); [discriminate|].
      destruct (w_eqb _ _ _); [discriminate|]. destruct (leb inf _); [injection HS as <- _ _; now rewrite app_nil_r|discriminate].
Qed.
End AStarRounded.
