(** Topological sort: the main results. *)
From Coq Require Import List ZArith Lia Bool Permutation.
From Verif Require Import Machine MachineMore Common Spec GearSpec TraversalSpec PathsModel PathsSpec PathsProofs Forest TopoModel TopoSpec TopoProofs.
Import ListNotations.
Local Open Scope nat_scope.

Section TopoMore.
Context {V I L : Type}.
Variable V_dec : forall a b : V, {a = b} + {a <> b}.
Variable I_dec : forall a b : I, {a = b} + {a <> b}.
Variable vid : V -> I.
Variable VS : VSet I.
Variable PM : PMap I V.
Variable LM : PMap I L.
Variable next : V -> list (V * L).
Variable cfg : topo_cfg.
Hypothesis Htree : tc_is_tree cfg = false.
Variable E : I -> I -> Prop.
Hypothesis Hnext : presents vid next E.
Variable starts : list V.
Hypothesis Hstarts : NoDup (map vid starts).
Variable av : option (vs_t VS).

Notation state := (@topo_state V I L VS PM LM).
Notation report := (@topo_report V I L VS PM LM).
Notation step := (topo_step vid VS PM LM next cfg).
Notation pre_ := (in_already_visited VS av).
Notation Eo := (avoiding E pre_).
Notation St := (is_start vid starts).
Notation trun := (topo_run vid VS PM LM next cfg starts av).
Notation Q := (Q vid VS PM LM next cfg E starts av).
Notation TInv := (TInv vid VS PM LM next cfg E starts av).
Notation ids os := (map (fun rep => vid (tr_vertex rep)) os).

Lemma limit_none s o s' : t_limit s = None -> step s = Go o s' -> t_limit s' = None.
Proof.
  intros Hl Hst. unfold topo_step in Hst. rewrite Htree in Hst. unfold topo_step_graph, topo_go_expand in Hst.
  destruct (t_pc s) as [|v [|[n l] rest]].
  - destruct (t_stack s) as [|v q]; [discriminate|]. destruct (vs_mem _ _ _); [injection Hst as <- <-; auto|].
    destruct (_ && _); [injection Hst as <- <-; auto|]. simpl in Hst. rewrite Hl in Hst. injection Hst as <- <-. auto.
  - injection Hst as <- <-. auto.
  - destruct (vs_mem _ _ _); [destruct (vs_mem _ _ _); [discriminate|]|]; injection Hst as <- <-; auto.
Qed.

Lemma topo_any lim n os r : trun lim n = (os, r) ->
  exists s, Q os s /\ t_pred (outcome_state r) = t_pred s /\ t_labels (outcome_state r) = t_labels s /\ t_calls (outcome_state r) = t_calls s /\
    match r with
    | Running s' => s' = s
    | Ended s' => s' = s /\ t_stack s = []
    | Raised x s' => (x = RuntimeErrorLimit /\ lim <> None) \/ (x = RuntimeErrorCycle /\ cycle_found vid VS PM LM next E starts av s')
    end.
Proof.
  intros HR. pose (Inv := fun os (s : state) => Q os s /\ (lim = None -> t_limit s = None)).
  assert (HI : match r with
     | Running s' => Inv ([] ++ os) s'
     | Ended s' => exists os1 o s1, os = os1 ++ o /\ Inv ([] ++ os1) s1 /\ step s1 = Halt o s'
     | Raised x s' => exists os1 o s1, os = os1 ++ o /\ Inv ([] ++ os1) s1 /\ step s1 = Raise o x s'
     end).
  { eapply (run_inv_any step Inv); [| |exact HR].
    - intros os' s o s' [H1 H2] Hst. split; [eapply Q_step; eauto|]. intros C. eapply limit_none; eauto.
    - split.
      + exists [], [], (rev starts), [], []. split; [apply TInv_init; auto|constructor].
      + intros ->. reflexivity. }
  destruct r as [s|s|x s'].
  - destruct HI as [HI _]. exists s. auto.
  - destruct HI as (os1 & o & s1 & -> & [HQ _] & Hst). unfold topo_step in Hst. rewrite Htree in Hst. unfold topo_step_graph, topo_go_expand in Hst.
    destruct (t_pc s1) as [|v [|[n0 l] rest]]; [|discriminate|destruct (vs_mem _ _ _); [destruct (vs_mem _ _ _)|]; discriminate].
    destruct (t_stack s1) eqn:Hs; [|destruct (vs_mem _ _ _); [|destruct (_ && _); [|destruct (limit_check _)]]; discriminate].
    injection Hst as <- <-. exists s1. rewrite app_nil_r. do 5 (split; auto).
  - destruct HI as (os1 & o & s1 & -> & [HQ HL] & Hst).
    destruct (raise_cases vid VS PM LM next cfg Htree E Hnext starts Hstarts av os1 s1 o x s' HQ Hst) as (-> & E1 & E2 & E3 & Hc).
    exists s1. rewrite app_nil_r. simpl. do 4 (split; auto). destruct Hc as [(-> & Hc)|Hc]; auto. left. split; auto.
Qed.

Lemma Forall2_split {A B} (R : A -> B -> Prop) l1 a l2 m : Forall2 R (l1 ++ a :: l2) m ->
  exists m1 b m2, m = m1 ++ b :: m2 /\ Forall2 R l1 m1 /\ R a b /\ Forall2 R l2 m2.
Proof.
  intros H. apply Forall2_app_inv_l in H. destruct H as (m1 & m2 & H1 & H2 & ->). inversion H2; subst. exists m1, y, l'. auto.
Qed.

Lemma reported_ids F s os done : Forall2 (reported vid VS PM LM next cfg E starts av F s) os done -> map tr_vertex os = done.
Proof. induction 1; simpl; auto. destruct H as (<- & _). congruence. Qed.

Lemma ids_eq (os : list report) : ids os = map vid (map tr_vertex os).
Proof. rewrite map_map. reflexivity. Qed.

Lemma pre_dec i : {pre_ i} + {~ pre_ i}.
Proof. unfold in_already_visited. destruct av as [s|]; [|auto]. destruct (vs_mem VS i s); [left; auto|right; discriminate]. Qed.

(** Each vertex is reported at most once, and it is reachable. *)
Lemma topo_once lim n os r : trun lim n = (os, r) ->
  NoDup (ids os) /\ forall rep, In rep os -> reachable Eo St (vid (tr_vertex rep)).
Proof.
  intros HR. destruct (topo_any lim n os r HR) as (s & (done & fr & base & rest & F & HI & HF) & _).
  apply reported_ids in HF as Hd. rewrite ids_eq, Hd. split.
  - assert (N := ti_nodup _ _ _ _ _ _ _ _ _ _ _ _ _ _ _ HI). rewrite map_app in N.
    clear - N. induction (map vid done); simpl in *; [constructor|]. inversion N; subst. constructor; auto. rewrite in_app_iff in H1. tauto.
  - intros rep Hrep. assert (Hi : In (tr_vertex rep) done) by (rewrite <- Hd; now apply in_map). apply in_split in Hi. destruct Hi as (d1 & d2 & Hi).
    destruct (ti_order _ _ _ _ _ _ _ _ _ _ _ _ _ _ _ HI _ _ _ Hi) as (rt & p & Hrt & Hw & _). exists (vid rt), p. split; auto. now apply in_map.
Qed.

(** When a vertex is reported, all vertices it depends on have been reported, except start vertices on which another start vertex depends. *)
Lemma topo_order lim n os r : trun lim n = (os, r) -> forall o1 rep o2, os = o1 ++ rep :: o2 -> forall j, E (vid (tr_vertex rep)) j -> ~ pre_ j ->
  In j (ids o1) \/ (St j /\ exists i p, St i /\ i <> j /\ walk Eo i p j).
Proof.
  intros HR o1 rep o2 -> j Hj Hp. destruct (topo_any lim n _ r HR) as (s & (done & fr & base & rest & F & HI & HF) & _).
  apply Forall2_split in HF. destruct HF as (d1 & u & d2 & -> & H1 & (Hu & _) & _). subst u. apply reported_ids in H1.
  destruct (ti_order _ _ _ _ _ _ _ _ _ _ _ _ _ _ _ HI _ _ _ eq_refl) as (rt & p & Hrt & Hw & Hc).
  apply Hnext in Hj as Hj'. apply in_map_iff in Hj'. destruct Hj' as (e & He & Hin). specialize (Hc e Hin). rewrite He in Hc.
  destruct Hc as [Hc|[(Hs & Hne)|[Hc|[]]]]; [contradiction| |].
  - right. split; auto. exists (vid rt), (p ++ [j]). split; [now apply in_map|]. split; [congruence|]. apply walk_snoc with (vid (tr_vertex rep)); auto. split; auto.
  - left. rewrite ids_eq, H1. auto.
Qed.

(** At the end, exactly the reachable vertices have been reported. *)
Lemma topo_complete lim n os s : trun lim n = (os, Ended s) ->
  (forall i, reachable Eo St i -> In i (ids os)) /\ Permutation (map fst (t_calls s)) (map tr_vertex os).
Proof.
  intros HR. destruct (topo_any lim n os _ HR) as (s' & (done & fr & base & rest & F & HI & HF) & _ & _ & _ & -> & Hs).
  apply reported_ids in HF as Hd. rewrite (ti_stack _ _ _ _ _ _ _ _ _ _ _ _ _ _ _ HI) in Hs.
  assert (Hfr : fr = [] /\ base = []). { destruct fr as [|[p u] r]; simpl in Hs; [auto|]. destruct (map fst p); discriminate. } destruct Hfr as [-> ->].
  destruct (ti_used _ _ _ _ _ _ _ _ _ _ _ _ _ _ _ HI) as (used & U1 & U2 & _). rewrite app_nil_r in U1. subst used. simpl in U2. rewrite app_nil_r in U2. split.
  - rewrite ids_eq, Hd. assert (Hst : forall i, St i -> In i (map vid done)).
    { intros i Hi. apply in_map_iff in Hi. destruct Hi as (v & <- & Hv). apply in_map. apply U2. now apply in_rev in Hv. }
    intros i Hi. revert i Hi. apply reachable_ind'; [exact Hst|]. intros i j _ Hi [Hj Hp].
    apply in_map_iff in Hi. destruct Hi as (u & <- & Hu). apply in_split in Hu. destruct Hu as (d1 & d2 & Hu).
    destruct (ti_order _ _ _ _ _ _ _ _ _ _ _ _ _ _ _ HI _ _ _ Hu) as (rt & p & Hrt & Hw & Hc).
    apply Hnext in Hj. apply in_map_iff in Hj. destruct Hj as (e & <- & Hin). specialize (Hc e Hin).
    destruct Hc as [Hc|[(Hs' & Hne)|[Hc|[]]]]; [contradiction|auto|]. rewrite Hu, map_app, in_app_iff. auto.
  - rewrite Hd. destruct (ti_calls _ _ _ _ _ _ _ _ _ _ _ _ _ _ _ HI) as [H _]. simpl in H. rewrite app_nil_r in H. auto.
Qed.

Section Independent.
Hypothesis Hind : independent Eo St.

Lemma topo_sorted lim n os r : trun lim n = (os, r) -> forall o1 rep o2, os = o1 ++ rep :: o2 -> forall j, E (vid (tr_vertex rep)) j ->
  pre_ j \/ In j (ids o1).
Proof.
  intros HR o1 rep o2 He j Hj. destruct (pre_dec j) as [Hp|Hp]; auto. right.
  destruct (topo_order lim n os r HR o1 rep o2 He j Hj Hp) as [H|(Hs & i & p & Hi & Hne & Hw)]; auto. exfalso. exact (Hind i j p Hi Hs Hne Hw).
Qed.

Lemma walk_earlier lim n os r : trun lim n = (os, r) -> forall p o1 rep o2 j, os = o1 ++ rep :: o2 -> walk Eo (vid (tr_vertex rep)) p j -> p <> [] ->
  In j (ids o1).
Proof.
  intros HR. induction p as [|k p IH]; intros o1 rep o2 j He Hw Hne; [tauto|]. inversion Hw as [|? ? ? ? [Hk Hkp] Hw']; subst.
  destruct (topo_sorted lim n _ r HR o1 rep o2 eq_refl k Hk) as [C|Hin]; [contradiction|].
  destruct p as [|k' p]; [inversion Hw'; subst; auto|].
  apply in_map_iff in Hin. destruct Hin as (rep' & <- & Hr). apply in_split in Hr. destruct Hr as (a & b & ->).
  assert (H := IH a rep' (b ++ rep :: o2) j). rewrite <- app_assoc in H. specialize (H eq_refl Hw'). rewrite map_app, in_app_iff. left. apply H. discriminate.
Qed.

Lemma topo_acyclic lim n os s : trun lim n = (os, Ended s) -> forall i p, reachable Eo St i -> p <> [] -> ~ walk Eo i p i.
Proof.
  intros HR i p Hi Hp Hw. apply (topo_complete lim n os s HR) in Hi. apply in_map_iff in Hi. destruct Hi as (rep & <- & Hr).
  apply in_split in Hr. destruct Hr as (o1 & o2 & ->). destruct (topo_once lim n _ _ HR) as [N _].
  assert (Hin := walk_earlier lim n _ _ HR p o1 rep o2 _ eq_refl Hw Hp). rewrite map_app in N. simpl in N. apply NoDup_remove_2 in N. apply N.
  rewrite in_app_iff. auto.
Qed.
End Independent.

(** *** Cycles *)
Lemma topo_cycle lim n os s : trun lim n = (os, Raised RuntimeErrorCycle s) ->
  exists i p, reachable Eo St i /\ p <> [] /\ walk E i p i.
Proof.
  intros HR. destruct (topo_any lim n os _ HR) as (s' & _ & _ & _ & _ & [(C & _)|(_ & Hc)]); [discriminate|].
  destruct Hc as (p & k & _ & _ & _ & _ & _ & _ & Hr & q & Hq & Hw). exists (vid k), q. auto.
Qed.

Lemma topo_cycle_path lim n os s : trun lim n = (os, Raised RuntimeErrorCycle s) -> 
  exists p k, path_list (next_edge next) (fun u => In u starts) (p ++ [k]) k /\ In (vid k) (map vid p) /\ NoDup (map vid p) /\
    subseq (p ++ [k]) (t_cycle s) /\ (exists c, t_cycle s = c ++ [k] /\ forall w, In w c -> In (vid w) (map vid p)) /\
    hd_error (t_cycle s) = hd_error p.
Proof.
  intros HR. destruct (topo_any lim n os _ HR) as (s' & _ & _ & _ & _ & [(C & _)|(_ & Hc)]); [discriminate|].
  destruct Hc as (p & k & H1 & H2 & H3 & (s0 & r0 & -> & r1 & H4) & H5 & H6 & _). exists (s0 :: r0), k. do 5 (split; auto). now rewrite H4.
Qed.

Lemma subseq_length {A} (a b : list A) : subseq a b -> length a <= length b.
Proof. induction 1; simpl; lia. Qed.
Lemma subseq_eq {A} (a b : list A) : subseq a b -> length b <= length a -> a = b.
Proof.
  induction 1; simpl; intros Hl; auto.
  - f_equal. apply IHsubseq. lia.
  - apply subseq_length in H. lia.
Qed.

(** If no vertex occurs twice before the last one, the reported sequence is the path. *)
Lemma topo_cycle_exact lim n os s : trun lim n = (os, Raised RuntimeErrorCycle s) ->
  NoDup (map vid (removelast (t_cycle s))) -> exists k, path_list (next_edge next) (fun u => In u starts) (t_cycle s) k /\ In (vid k) (map vid (removelast (t_cycle s))).
Proof.
  intros HR HN. destruct (topo_cycle_path lim n os s HR) as (p & k & H1 & H2 & H3 & H4 & (c & H5 & H6) & _).
  assert (Hc : removelast (t_cycle s) = c) by (rewrite H5; apply removelast_last). rewrite Hc in HN. exists k. rewrite Hc.
  assert (He : p ++ [k] = t_cycle s).
  { apply subseq_eq; auto. rewrite H5, !app_length. assert (Hl : length (map vid c) <= length (map vid p)).
    { apply NoDup_incl_length; auto. intros i Hi. apply in_map_iff in Hi. destruct Hi as (w & <- & Hw). auto. }
    rewrite !map_length in Hl. lia. }
  rewrite <- He. split; auto. rewrite H5 in He. apply app_inj_tail in He. destruct He as [-> _]. auto.
Qed.

(** *** Paths and depth *)
Lemma topo_paths lim n os r : tc_build_paths cfg = true -> trun lim n = (os, r) -> forall rep, In rep os ->
  exists l, path_list (next_edge next) (fun u => In u starts) l (tr_vertex rep) /\ tr_depth rep = (Z.of_nat (length l) - 1)%Z /\
    delivers V_dec vid PM LM (tr_pred rep) (tr_labels rep) (tc_labeled cfg) (next_label next) (tr_vertex rep) l /\
    delivers V_dec vid PM LM (t_pred (outcome_state r)) (t_labels (outcome_state r)) (tc_labeled cfg) (next_label next) (tr_vertex rep) l.
Proof.
  intros Hb HR rep Hrep. destruct (topo_any lim n os r HR) as (s & (done & fr & base & rest & F & HI & HF) & -> & -> & _).
  apply in_split in Hrep. destruct Hrep as (o1 & o2 & ->). apply Forall2_split in HF. destruct HF as (d1 & v & d2 & -> & _ & HF & _).
  destruct HF as (<- & F1 & F2 & k & HFF & Hk & Hd & Hf & He).
  destruct (Forest_delivers_both vid VS PM LM next E (tc_build_paths cfg) (tc_labeled cfg) pre_ V_dec starts F1 _ _ _ (t_pred s) (t_labels s) (tr_vertex rep) k Hf He Hb (starts_inj vid starts Hstarts) Hk)
    as (l & L1 & L2 & _ & L3 & L4). exists l. split.
  - destruct L1 as (s0 & q & -> & L1 & L5). exists s0, q. split; auto. split; auto. eapply walk_mono; [|exact L5]. intros a b [Hab _]. exact Hab.
  - split; [rewrite Hd, L2; lia|]. auto.
Qed.

(** The depth is the length of a walk from a start vertex. *)
Lemma topo_depth lim n os r : trun lim n = (os, r) ->
  (forall rep, In rep os -> exists i p, St i /\ walk Eo i p (vid (tr_vertex rep)) /\ tr_depth rep = Z.of_nat (length p)) /\
  (forall v d, In (v, d) (t_calls (outcome_state r)) -> exists i p, St i /\ walk Eo i p (vid v) /\ d = Z.of_nat (length p)) /\
  NoDup (map vid (map fst (t_calls (outcome_state r)))).
Proof.
  intros HR. destruct (topo_any lim n os r HR) as (s & (done & fr & base & rest & F & HI & HF) & _ & _ & -> & _).
  assert (HK : forall F0 vis pred lab v k, Forest vid VS PM LM next E (tc_build_paths cfg) (tc_labeled cfg) pre_ starts F0 vis pred lab -> known starts F0 v k ->
     exists i p, St i /\ walk Eo i p (vid v) /\ k = length p).
  { intros F0 vis pred lab v k Hf [(Hv & ->)|Hv].
    - exists (vid v), []. split; [now apply in_map|]. split; [constructor|reflexivity].
    - apply (f_F _ _ _ _ _ _ _ _ _ _ _ _ _ _ Hf) in Hv. destruct Hv as (_ & _ & _ & s0 & p & K1 & K2 & K3). exists s0, p. auto. }
  split; [|split].
  - intros rep Hrep. apply in_split in Hrep. destruct Hrep as (o1 & o2 & ->). apply Forall2_split in HF. destruct HF as (d1 & v & d2 & -> & _ & HF & _).
    destruct HF as (<- & F1 & F2 & k & HFF & Hk & Hd & Hf & He). destruct (HK _ _ _ _ _ _ Hf Hk) as (i & p & K1 & K2 & K3). exists i, p. subst k. auto.
  - intros v d Hv. destruct (ti_calls _ _ _ _ _ _ _ _ _ _ _ _ _ _ _ HI) as [_ H]. destruct (H v d Hv) as (k & Hk & ->).
    destruct (HK _ _ _ _ _ _ (ti_forest _ _ _ _ _ _ _ _ _ _ _ _ _ _ _ HI) Hk) as (i & p & K1 & K2 & K3). exists i, p. subst k. auto.
  - destruct (ti_calls _ _ _ _ _ _ _ _ _ _ _ _ _ _ _ HI) as [H _]. eapply Permutation_NoDup; [|exact (ti_nodup _ _ _ _ _ _ _ _ _ _ _ _ _ _ _ HI)].
    apply Permutation_map. now apply Permutation_sym.
Qed.

(** *** Termination *)
Lemma topo_ends l lim : (forall i, reachable Eo St i -> In i l) -> exists n os r, trun lim n = (os, r) /\ forall s, r <> Running s.
Proof.
  intros Hl.
  apply (run_terminates_wf step (lex3 (fun s : state => length l - length (t_calls s))
      (fun s => match t_pc s with TWhile => 0 | TEdges _ rest => S (length rest) end) (fun s => length (t_stack s)))
      (fun s => exists done fr base rest F, TInv done fr base rest F s)).
  - apply lex3_wf.
  - intros s o s' (done & fr & base & rest & F & HI) Hst.
    destruct (TInv_step I_dec vid VS PM LM next cfg Htree E Hnext starts Hstarts av _ _ _ _ _ _ _ _ HI Hst) as (done' & fr' & base' & rest' & G & HI' & _).
    split; [exists done', fr', base', rest', (F ++ G); auto|].
    assert (Hlen : length (t_calls s') <= length l).
    { destruct (ti_calls _ _ _ _ _ _ _ _ _ _ _ _ _ _ _ HI') as [HP _]. rewrite <- (map_length fst), (Permutation_length HP), <- (map_length vid).
      apply NoDup_incl_length; [apply (ti_nodup _ _ _ _ _ _ _ _ _ _ _ _ _ _ _ HI')|]. intros i Hi. apply Hl.
      apply in_map_iff in Hi. destruct Hi as (v & <- & Hv). destruct (ti_known _ _ _ _ _ _ _ _ _ _ _ _ _ _ _ HI' v Hv) as (k & Hk).
      apply known_found with (vid := vid) in Hk. eapply Forest_reach; [exact (ti_forest _ _ _ _ _ _ _ _ _ _ _ _ _ _ _ HI')|exact Hk]. }
    unfold topo_step in Hst. rewrite Htree in Hst. unfold topo_step_graph, topo_go_expand in Hst. unfold lex3. destruct (t_pc s) as [|v [|[n0 l0] r0]] eqn:Hpc.
    + destruct (t_stack s) as [|v q] eqn:Hs; [discriminate|]. destruct (vs_mem _ _ _); [|destruct (_ && _)].
      * injection Hst as <- <-. simpl. right. split; auto.
      * injection Hst as <- <-. simpl. right. split; auto.
      * destruct (limit_check _); [|discriminate]. injection Hst as <- <-. simpl in *. left. lia.
    + injection Hst as <- <-. simpl. right. split; auto.
    + destruct (vs_mem _ _ _); [destruct (vs_mem _ _ _); [discriminate|]|]; injection Hst as <- <-; simpl; right; split; auto.
  - exists [], [], (rev starts), [], []. apply TInv_init; auto.
Qed.

Lemma topo_only_errors lim n os x s : trun lim n = (os, Raised x s) -> x = RuntimeErrorLimit /\ lim <> None \/ x = RuntimeErrorCycle.
Proof. intros HR. destruct (topo_any lim n os _ HR) as (s' & _ & _ & _ & _ & [H|(H & _)]); auto. Qed.

(** At the end, paths are available exactly for the reported vertices. *)
Lemma topo_paths_contain lim n os s : tc_build_paths cfg = true -> trun lim n = (os, Ended s) ->
  forall v, paths_contains vid PM (t_pred s) v = true <-> In (vid v) (ids os).
Proof.
  intros Hb HR v. split.
  - intros Hc. destruct (topo_complete lim n os s HR) as [Hall _].
    destruct (topo_any lim n os _ HR) as (s' & (done & fr & base & rest & F & HI & HF) & _ & _ & _ & -> & Hs).
    rewrite (ti_stack _ _ _ _ _ _ _ _ _ _ _ _ _ _ _ HI) in Hs.
    assert (Hfr : fr = []). { destruct fr as [|[p u] r]; simpl in Hs; [auto|]. destruct (map fst p); discriminate. } subst fr.
    unfold paths_contains in Hc. destruct (ti_dom _ _ _ _ _ _ _ _ _ _ _ _ _ _ _ HI Hb (vid v)) as [Hf|[]].
    { destruct (pm_get PM (vid v) (t_pred s')); [discriminate|discriminate Hc]. }
    apply Hall. eapply Forest_reach; [exact (ti_forest _ _ _ _ _ _ _ _ _ _ _ _ _ _ _ HI)|exact Hf].
  - intros Hin. apply in_map_iff in Hin. destruct Hin as (rep & He & Hr). destruct (topo_paths lim n os _ Hb HR rep Hr) as (l & _ & _ & _ & Hd).
    destruct Hd as (Hd & _). simpl in Hd. unfold paths_contains in *. now rewrite <- He.
Qed.
End TopoMore.

Section Finite.
Context {V I L : Type}.
Variable I_dec : forall a b : I, {a = b} + {a <> b}.
Variable vid : V -> I.
Variable VS : VSet I.
Variable PM : PMap I V.
Variable LM : PMap I L.
Variable next : V -> list (V * L).
Variable cfg : topo_cfg.
Hypothesis Htree : tc_is_tree cfg = false.
Variable E : I -> I -> Prop.
Hypothesis Hnext : presents vid next E.
Variable starts : list V.
Hypothesis Hstarts : NoDup (map vid starts).
Notation St := (is_start vid starts).
Notation trun := (topo_run vid VS PM LM next cfg starts None).
Notation Eo := (avoiding E (in_already_visited VS None)).

Lemma avoiding_none i j : Eo i j <-> E i j.
Proof. unfold avoiding, in_already_visited. tauto. Qed.

Lemma topo_decides l : independent E St -> (forall i, reachable E St i -> In i l) ->
  exists n os r, trun None n = (os, r) /\
    ((exists s, r = Ended s) /\ ~ cycle_reachable E St \/ (exists s, r = Raised RuntimeErrorCycle s) /\ cycle_reachable E St).
Proof.
  intros Hind Hl. destruct (topo_ends I_dec vid VS PM LM next cfg Htree E Hnext starts Hstarts None l None) as (n & os & r & HR & Hn).
  { intros i Hi. apply Hl. rewrite reachable_iff in Hi; [exact Hi|]. intros a b. apply avoiding_none. }
  exists n, os, r. split; auto. destruct r as [s|s|x s].
  - destruct (Hn s). reflexivity.
  - left. split; [eauto|]. intros (i & p & H1 & H2 & H3).
    apply (topo_acyclic I_dec vid VS PM LM next cfg Htree E Hnext starts Hstarts None) with (lim := None) (n := n) (os := os) (s := s) (i := i) (p := p); auto.
    + intros a b q Ha Hb Hab Hw. apply (Hind a b q Ha Hb Hab). eapply walk_mono; [|exact Hw]. intros c d. apply avoiding_none.
    + rewrite reachable_iff; [exact H1|]. intros a b. apply avoiding_none.
    + eapply walk_mono; [|exact H3]. intros c d. apply avoiding_none.
  - right. destruct (topo_only_errors I_dec vid VS PM LM next cfg Htree E Hnext starts Hstarts None None n os x s HR) as [(-> & C)| ->]; [congruence|].
    split; [eauto|]. destruct (topo_cycle I_dec vid VS PM LM next cfg Htree E Hnext starts Hstarts None None n os s HR) as (i & p & H1 & H2 & H3).
    exists i, p. split; auto. rewrite reachable_iff in H1; [exact H1|]. intros a b. apply avoiding_none.
Qed.

Lemma topo_cycle_none lim n os s : trun lim n = (os, Raised RuntimeErrorCycle s) -> cycle_reachable E St.
Proof.
  intros HR. destruct (topo_cycle I_dec vid VS PM LM next cfg Htree E Hnext starts Hstarts None lim n os s HR) as (i & p & H1 & H2 & H3).
  exists i, p. split; auto. rewrite reachable_iff in H1; [exact H1|]. intros a b. apply avoiding_none.
Qed.
End Finite.
