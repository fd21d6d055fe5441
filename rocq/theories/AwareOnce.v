(** Each id is asked for at most once, and what a pass depends on: for the strategies. *)
From Coq Require Import List Bool Arith ZArith Lia Permutation.
From Verif Require Import Machine Common CommonProofs GearSpec GearProofs Weight BFSModel NTDModel DFSModel TopoModel DijkstraModel MSTModel AwareModel AwareSpec AwareProofs.
Import ListNotations.

Lemma run_invariant {S O X} (step : S -> step_result S O X) (P : S -> Prop) : (forall s o s', P s -> step s = Go o s' -> P s') ->
  forall n s os s', P s -> run step n s = (os, Running s') -> P s'.
Proof.
  intros H. induction n as [|n IH]; simpl; intros s os s' HP HR; [inversion HR; now subst|].
  destruct (step s) as [o s1|o s1|o x s1] eqn:E; try discriminate. destruct (run step n s1) as [os1 r1] eqn:E1. simpl in HR. inversion HR; subst. eauto.
Qed.

Lemma NoDup_mid {A} (a : A) l r : NoDup (l ++ a :: r) <-> NoDup (a :: l ++ r).
Proof. split; intros H; (eapply Permutation_NoDup; [|exact H]); [apply Permutation_sym|]; apply Permutation_middle. Qed.

Lemma NoDup_before {A} (l r : list A) : NoDup (l ++ r) -> NoDup l.
Proof. induction l as [|a l IH]; simpl; intros H; [constructor|]. inversion H; subst. constructor; auto. intros Hi. apply H2. apply in_or_app. now left. Qed.

(** *** Breadth first *)
Section BFS.
Context {V I L : Type}.
Variable vid : V -> I.
Variable VS : VSet I.
Variable PM : PMap I V.
Variable LM : PMap I L.
Variable cfg : bfs_cfg.
Notation step := (bfs_step vid VS PM LM).

Lemma bfs_local f g s : (forall v, In v (bfs_asks s) -> f v = g v) -> step f cfg s = step g cfg s.
Proof.
  unfold bfs_step, bfs_asks. destruct (b_pc s); auto. destruct (b_to_expand s); auto. destruct (limit_check (b_limit s)); auto.
  intros H. rewrite (H v); [reflexivity|now left].
Qed.

Lemma bfs_called f s o s' : step f cfg s = Go o s' -> map vid (b_calls s') = rev (map vid (bfs_asks s)) ++ map vid (b_calls s).
Proof.
  unfold bfs_step, bfs_asks. intros H.
  repeat match type of H with context [match ?c with _ => _ end] => destruct c eqn:?; try discriminate end; inversion H; subst; reflexivity.
Qed.

Lemma bfs_asked_go f s : bfs_asks s <> [] -> exists o s', step f cfg s = Go o s'.
Proof.
  unfold bfs_step, bfs_asks. destruct (b_pc s); try tauto. destruct (b_to_expand s); try tauto. destruct (limit_check (b_limit s)); try tauto. eauto.
Qed.

Hypothesis Htree : bc_is_tree cfg = false.
Lemma bfs_once next starts av lim n os s : NoDup (map vid starts) ->
  run (step next cfg) n (bfs_init vid VS PM LM cfg starts av lim) = (os, Running s) -> NoDup (map vid (b_calls s)).
Proof.
  intros Hs HR.
  set (P := fun s : @bfs_state V I L VS PM LM => let l := map vid (b_calls s ++ b_to_expand s ++ b_next s) in
              NoDup l /\ forall i, In i l -> vs_mem VS i (b_visited s) = true).
  assert (HP : P s).
  { eapply (run_invariant (step next cfg) P); [|split|exact HR].
    - clear - Htree. intros s o s' [H1 H2] H. unfold bfs_step in H.
      destruct (b_pc s) as [| |v rest].
      + destruct (b_to_expand s) as [|v r] eqn:E; [discriminate|]. inversion H; subst. unfold P. simpl. rewrite E. exact (conj H1 H2).
      + destruct (b_to_expand s) as [|v r] eqn:E.
        * inversion H; subst. unfold P. simpl. rewrite app_nil_r. exact (conj H1 H2).
        * destruct (limit_check (b_limit s)); [|discriminate]. inversion H; subst. unfold P. cbn [b_calls b_to_expand b_next b_visited].
          cbv zeta.
          assert (HP : Permutation (map vid ((v :: b_calls s) ++ r ++ b_next s)) (map vid (b_calls s ++ (v :: r) ++ b_next s))).
          { apply Permutation_map. simpl. apply Permutation_middle. }
          split; [eapply Permutation_NoDup; [apply Permutation_sym; exact HP|exact H1]|].
          intros i Hi. apply H2. eapply Permutation_in; [exact HP|exact Hi].
      + destruct rest as [|[x l] rest]; [inversion H; subst; exact (conj H1 H2)|].
        rewrite Htree in H. simpl negb in H. rewrite andb_true_l in H.
        destruct (vs_mem VS (vid x) (b_visited s)) eqn:Em; inversion H; subst; [exact (conj H1 H2)|].
        unfold P. cbn [b_calls b_to_expand b_next b_visited bfs_mark]. rewrite Htree. cbv zeta.
        rewrite !app_assoc, map_app. simpl map. rewrite app_assoc in H1, H2.
        split.
        * rewrite NoDup_mid, app_nil_r. constructor; auto. intros Hi. apply H2 in Hi. congruence.
        * intros i Hi. apply vs_mem_add. apply in_app_or in Hi. destruct Hi as [Hi|[<-|[]]]; auto.
    - simpl. rewrite app_nil_r. exact Hs.
    - simpl. rewrite app_nil_r, Htree. intros i Hi. rewrite define_visited_mem. auto. }
  destruct HP as [HP _]. rewrite map_app in HP. exact (NoDup_before _ _ HP).
Qed.
End BFS.

(** *** Neighbors, then depth *)
Section NTD.
Context {V I L : Type}.
Variable vid : V -> I.
Variable VS : VSet I.
Variable PM : PMap I V.
Variable LM : PMap I L.
Variable cfg : ntd_cfg.
Notation step f := (ntd_step vid VS PM LM f cfg).
Notation cids s := (map vid (map fst (n_calls s))).

Lemma ntd_enter_keeps s r s1 : ntd_enter VS PM LM cfg s r = Some s1 -> n_calls s1 = n_calls s /\ n_to_expand s1 = r /\ n_visited s1 = n_visited s.
Proof.
  unfold ntd_enter. destruct (nc_compute_depth cfg); [destruct (ntd_leave _ _) as [[m d]|]; [|discriminate]|]; intros H; inversion H; subst; auto.
Qed.

Lemma ntd_local f g s : (forall v, In v (ntd_asks cfg s) -> f v = g v) -> step f s = step g s.
Proof.
  unfold ntd_step, ntd_asks. destruct (n_pc s); auto. destruct (n_to_expand s); auto. destruct (ntd_enter VS PM LM cfg s l); auto. destruct (limit_check (n_limit n)); auto.
  intros H. unfold ntd_expand. rewrite (H v); [reflexivity|now left].
Qed.

Lemma ntd_called f s o s' : step f s = Go o s' -> cids s' = rev (map vid (ntd_asks cfg s)) ++ cids s.
Proof.
  unfold ntd_step, ntd_asks. intros H. destruct (n_pc s).
  - destruct (n_to_expand s); [discriminate|]. destruct (ntd_enter VS PM LM cfg s l) as [s1|] eqn:E; [|discriminate]. destruct (limit_check (n_limit s1)); [|discriminate].
    inversion H; subst. destruct (ntd_enter_keeps _ _ _ E) as (E1 & _). simpl. now rewrite E1.
  - destruct rest as [|[x l] rest]; [inversion H; subst; reflexivity|]. destruct (negb _ && _); inversion H; subst; reflexivity.
Qed.

Lemma ntd_asked_go f s : ntd_asks cfg s <> [] -> exists o s', step f s = Go o s'.
Proof.
  unfold ntd_step, ntd_asks. destruct (n_pc s); try tauto. destruct (n_to_expand s); try tauto. destruct (ntd_enter VS PM LM cfg s l); try tauto.
  destruct (limit_check (n_limit n)); try tauto. eauto.
Qed.

Hypothesis Htree : nc_is_tree cfg = false.
Lemma ntd_once next starts av lim n os s : NoDup (map vid starts) ->
  run (step next) n (ntd_init vid VS PM LM cfg starts av lim) = (os, Running s) -> NoDup (cids s).
Proof.
  intros Hs HR.
  set (P := fun s : @ntd_state V I L VS PM LM => let l := cids s ++ map vid (n_to_expand s) in
              NoDup l /\ forall i, In i l -> vs_mem VS i (n_visited s) = true).
  assert (HP : P s).
  { eapply (run_invariant (step next) P); [|split|exact HR].
    - clear - Htree. intros s o s' [H1 H2] H. unfold ntd_step in H.
      destruct (n_pc s) as [|v rest].
      + destruct (n_to_expand s) as [|v r] eqn:E; [discriminate|]. destruct (ntd_enter VS PM LM cfg s r) as [s1|] eqn:E1; [|discriminate].
        destruct (limit_check (n_limit s1)); [|discriminate]. inversion H; subst. destruct (ntd_enter_keeps _ _ _ E1) as (K1 & K2 & K3).
        unfold P. simpl. rewrite K1, K2, K3. simpl map in H1, H2. rewrite NoDup_mid in H1. split; [exact H1|].
        intros i Hi. apply H2. apply in_or_app. simpl. destruct Hi as [->|Hi]; auto. apply in_app_or in Hi. tauto.
      + destruct rest as [|[x l] rest]; [inversion H; subst; exact (conj H1 H2)|].
        rewrite Htree in H. simpl negb in H. rewrite andb_true_l in H.
        destruct (vs_mem VS (vid x) (n_visited s)) eqn:Em; inversion H; subst; [exact (conj H1 H2)|].
        unfold P. cbn. rewrite Htree. split.
        * rewrite NoDup_mid. constructor; auto. intros Hi. apply H2 in Hi. congruence.
        * intros i Hi. apply vs_mem_add. apply in_app_or in Hi. simpl in Hi. destruct Hi as [Hi|[<-|Hi]]; auto; right; apply H2; apply in_or_app; auto.
    - simpl. rewrite map_rev. now apply NoDup_rev.
    - simpl. rewrite Htree. intros i Hi. rewrite define_visited_mem. right. rewrite map_rev in Hi. now apply in_rev. }
  destruct HP as [HP _]. exact (NoDup_before _ _ HP).
Qed.
End NTD.

(** *** Depth first *)
Section DFS.
Context {V I L : Type}.
Variable V_dec : forall a b : V, {a = b} + {a <> b}.
Variable vid : V -> I.
Variable VS : VSet I.
Variable PM : PMap I V.
Variable LM : PMap I L.
Variable XM : DMap I Z 0%Z.
Variable cfg : dfs_cfg.
Variable skip : nat -> bool.
Notation step f := (dfs_step V_dec vid VS PM LM XM f cfg skip).
Notation asks := (dfs_asks V_dec vid cfg skip).
Notation cids s := (map vid (map fst (f_calls s))).

Lemma dfs_pop_keeps s m v s1 : dfs_pop VS PM LM XM cfg s m = Some (v, s1) -> f_calls s1 = f_calls s /\ f_visited s1 = f_visited s.
Proof. unfold dfs_pop. intros H. repeat match type of H with context [match ?c with _ => _ end] => destruct c eqn:?; try discriminate end; inversion H; subst; auto. Qed.

Notation no_label s := (match f_trace s, DFSModel.dc_labeled cfg, f_var_labels s with _ :: _, true, None => true | _, _, _ => false end).
Notation skipped s v := (dc_report cfg (if is_current_start V_dec VS PM LM XM s v then ENTERING_START else ENTERING_SUCCESSOR) && skip (f_count s)).
Notation visit f := (dfs_visit V_dec vid VS PM LM XM f cfg skip).

(** How a vertex is visited. *)
Lemma dfs_visit_cases f s v :
  if no_label s || skipped s v then (forall g, visit g s v = visit f s v) /\ forall o s', visit f s v = Go o s' -> f_calls s' = f_calls s
  else match limit_check (f_limit s) with
       | None => (forall g, visit g s v = visit f s v) /\ forall o s', visit f s v <> Go o s'
       | Some _ => (forall g, g v = f v -> visit g s v = visit f s v) /\ exists o s', visit f s v = Go o s' /\ f_calls s' = (v, f_depth (dfs_enter V_dec vid VS PM LM XM cfg s v)) :: f_calls s
       end.
Proof.
  unfold dfs_visit.
  assert (H : match f_trace s, DFSModel.dc_labeled cfg, f_var_labels s with _ :: _, true, None => true | _, _, _ => false end = true \/
              match f_trace s, DFSModel.dc_labeled cfg, f_var_labels s with _ :: _, true, None => true | _, _, _ => false end = false) by (destruct (match f_trace s with [] => _ | _ => _ end); auto).
  destruct H as [H|H]; rewrite H; cbn [orb].
  - destruct (f_trace s); [discriminate|]. destruct (DFSModel.dc_labeled cfg); [|discriminate]. destruct (f_var_labels s); [discriminate|]. split; [reflexivity|discriminate].
  - assert (HE : forall (A : Type) (x y : A), match f_trace s, DFSModel.dc_labeled cfg, f_var_labels s with _ :: _, true, None => x | _, _, _ => y end = y).
    { intros A x y. destruct (f_trace s); auto. destruct (DFSModel.dc_labeled cfg); auto. destruct (f_var_labels s); auto. discriminate. }
    match goal with |- if ?c then _ else _ => destruct c eqn:Ec end.
    + split; [|intros o s'].
      * intros g. rewrite !(HE (step_result _ _ _)). reflexivity.
      * rewrite (HE (step_result _ _ _)). cbv zeta. rewrite ?Ec. intros HG. inversion HG; subst. reflexivity.
    + change (f_limit s) with (f_limit (dfs_enter V_dec vid VS PM LM XM cfg s v)) at 1. destruct (limit_check (f_limit (dfs_enter V_dec vid VS PM LM XM cfg s v))) as [lim|] eqn:El.
      * split; [|eexists _, _; split].
        -- intros g Hg. rewrite !(HE (step_result _ _ _)). cbv zeta. rewrite ?Ec. cbn [dfs_enter f_limit] in El. cbn [dfs_enter f_limit]. rewrite ?El. unfold dfs_expand. rewrite Hg. reflexivity.
        -- rewrite (HE (step_result _ _ _)). cbv zeta. rewrite ?Ec. cbn [dfs_enter f_limit] in El. cbn [dfs_enter f_limit]. rewrite ?El. reflexivity.
        -- reflexivity.
      * split; [|intros o s'].
        -- intros g. rewrite !(HE (step_result _ _ _)). cbv zeta. rewrite ?Ec. cbn [dfs_enter f_limit] in El. cbn [dfs_enter f_limit]. rewrite ?El. reflexivity.
        -- rewrite (HE (step_result _ _ _)). cbv zeta. rewrite ?Ec. cbn [dfs_enter f_limit] in El. cbn [dfs_enter f_limit]. rewrite ?El. discriminate.
Qed.

Lemma dfs_revisit_calls s v b o s' : dfs_revisit vid VS PM LM XM cfg s v b = Go o s' -> f_calls s' = f_calls s.
Proof. unfold dfs_revisit. intros H. repeat match type of H with context [match ?c with _ => _ end] => destruct c eqn:?; try discriminate end; inversion H; subst; reflexivity. Qed.
Lemma dfs_leave_calls s b m o s' : dfs_leave vid VS PM LM XM cfg s b m = Go o s' -> f_calls s' = f_calls s.
Proof. unfold dfs_leave. intros H. repeat match type of H with context [match ?c with _ => _ end] => destruct c eqn:?; try discriminate end; inversion H; subst; reflexivity. Qed.

Notation refused s v := (negb (DFSModel.dc_is_tree cfg) && negb (is_all_walks (dc_mode cfg)) && (if is_dfs_tree (dc_mode cfg) then vs_mem VS (vid v) (f_visited s) else vs_mem VS (vid v) (f_on_trace s))).

(** A pass in which a vertex is taken from the stack. *)
Lemma dfs_step_pop f s b m v s1 : f_pc s = FLoop b -> f_markers s = false :: m -> dfs_pop VS PM LM XM cfg s m = Some (v, s1) ->
  step f s = if refused s1 v then dfs_revisit vid VS PM LM XM cfg s1 v (negb (is_dfs_tree (dc_mode cfg))) else visit f s1 v.
Proof.
  intros H1 H2 H3. unfold dfs_step. rewrite H1, H2, H3. destruct (negb (DFSModel.dc_is_tree cfg) && negb (is_all_walks (dc_mode cfg))); [|reflexivity].
  destruct (is_dfs_tree (dc_mode cfg)); [destruct (vs_mem VS (vid v) (f_visited s1))|destruct (vs_mem VS (vid v) (f_on_trace s1))]; reflexivity.
Qed.

Lemma dfs_local f g s : (forall v, In v (asks s) -> f v = g v) -> step f s = step g s.
Proof.
  intros H. destruct (f_pc s) as [|b] eqn:E1; [unfold dfs_step; rewrite E1; reflexivity|].
  destruct (f_markers s) as [|[|] m] eqn:E2; try (unfold dfs_step; rewrite E1, E2; reflexivity).
  destruct (dfs_pop VS PM LM XM cfg s m) as [[v s1]|] eqn:E3; [|unfold dfs_step; rewrite E1, E2, E3; reflexivity].
  rewrite !(dfs_step_pop _ _ _ _ _ _ E1 E2 E3). unfold dfs_asks in H. rewrite E1, E2, E3 in H.
  destruct (refused s1 v); [reflexivity|]. cbn [orb] in H. pose proof (dfs_visit_cases g s1 v) as HC.
  destruct (no_label s1 || skipped s1 v); [now rewrite (proj1 HC)|].
  destruct (limit_check (f_limit s1)); [|now rewrite (proj1 HC)]. apply (proj1 HC). apply H. now left.
Qed.

Lemma dfs_called f s o s' : step f s = Go o s' -> cids s' = rev (map vid (asks s)) ++ cids s.
Proof.
  intros H. unfold dfs_asks. destruct (f_pc s) as [|b] eqn:E1.
  { unfold dfs_step in H. rewrite E1 in H. destruct (f_starts s); [discriminate|]. inversion H; subst. reflexivity. }
  destruct (f_markers s) as [|[|] m] eqn:E2.
  - unfold dfs_step in H. rewrite E1, E2 in H. inversion H; subst. reflexivity.
  - unfold dfs_step in H. rewrite E1, E2 in H. now rewrite (dfs_leave_calls _ _ _ _ _ H).
  - destruct (dfs_pop VS PM LM XM cfg s m) as [[v s1]|] eqn:E3; [|unfold dfs_step in H; rewrite E1, E2, E3 in H; discriminate].
    rewrite (dfs_step_pop _ _ _ _ _ _ E1 E2 E3) in H. destruct (dfs_pop_keeps _ _ _ _ E3) as [K1 _].
    destruct (refused s1 v); [rewrite (dfs_revisit_calls _ _ _ _ _ H), K1; reflexivity|]. cbn [orb].
    pose proof (dfs_visit_cases f s1 v) as HC.
    destruct (no_label s1 || skipped s1 v); [rewrite (proj2 HC _ _ H), K1; reflexivity|].
    destruct (limit_check (f_limit s1)); [|now elim (proj2 HC o s')]. destruct HC as [_ (o1 & s2 & H2 & HC)]. rewrite H2 in H. inversion H; subst. rewrite HC, K1. reflexivity.
Qed.

Lemma dfs_asked_go f s : asks s <> [] -> exists o s', step f s = Go o s'.
Proof.
  intros H. unfold dfs_asks in H. destruct (f_pc s) as [|b] eqn:E1; [tauto|]. destruct (f_markers s) as [|[|] m] eqn:E2; try tauto.
  destruct (dfs_pop VS PM LM XM cfg s m) as [[v s1]|] eqn:E3; [|tauto]. rewrite (dfs_step_pop _ _ _ _ _ _ E1 E2 E3).
  destruct (refused s1 v); [now elim H|]. cbn [orb] in H. pose proof (dfs_visit_cases f s1 v) as HC.
  destruct (no_label s1 || skipped s1 v); [now elim H|]. destruct (limit_check (f_limit s1)); [|now elim H]. destruct HC as [_ (o1 & s2 & H2 & _)]. eauto.
Qed.

Lemma dfs_visit_visited f s v o s' : DFSModel.dc_is_tree cfg = false -> dc_mode cfg = DFS_TREE -> visit f s v = Go o s' -> f_visited s' = vs_add VS (vid v) (f_visited s).
Proof.
  intros Ht Hm. unfold dfs_visit. intros H.
  assert (HG : forall (c : bool) a b d, (if c then Go o (dfs_count VS PM LM XM a b) else match d with None => Raise o RuntimeErrorLimit (dfs_count VS PM LM XM a b) | Some lim => Go o (dfs_expand VS PM LM XM f cfg a v lim b) end) = Go o s' -> f_visited s' = f_visited a).
  { intros c a b d HH. destruct c; [inversion HH; subst; reflexivity|]. destruct d; inversion HH; subst. reflexivity. }
  assert (HK : f_visited s' = f_visited (dfs_enter V_dec vid VS PM LM XM cfg s v)).
  { destruct (f_trace s); [|destruct (DFSModel.dc_labeled cfg); [destruct (f_var_labels s); [|discriminate]|]]; cbv zeta in H;
      match type of H with (if ?c then _ else _) = _ => destruct c end; try (inversion H; subst; reflexivity);
      match type of H with (match ?c with _ => _ end) = _ => destruct c end; inversion H; subst; reflexivity. }
  rewrite HK. simpl. rewrite Ht, Hm. reflexivity.
Qed.

Lemma dfs_revisit_visited s v b o s' : dfs_revisit vid VS PM LM XM cfg s v b = Go o s' -> f_visited s' = f_visited s.
Proof. unfold dfs_revisit. intros H. repeat match type of H with context [match ?c with _ => _ end] => destruct c eqn:?; try discriminate end; inversion H; subst; reflexivity. Qed.
Lemma dfs_leave_visited s b m o s' : dfs_leave vid VS PM LM XM cfg s b m = Go o s' -> f_visited s' = f_visited s.
Proof. unfold dfs_leave. intros H. repeat match type of H with context [match ?c with _ => _ end] => destruct c eqn:?; try discriminate end; inversion H; subst; reflexivity. Qed.

Lemma dfs_once next starts av lim n os s : DFSModel.dc_is_tree cfg = false -> dc_mode cfg = DFS_TREE ->
  run (step next) n (dfs_init vid VS PM LM XM cfg starts av lim) = (os, Running s) -> NoDup (cids s).
Proof.
  intros Ht Hm HR.
  set (P := fun s : @dfs_state V I L VS PM LM XM => NoDup (cids s) /\ forall i, In i (cids s) -> vs_mem VS i (f_visited s) = true).
  assert (HP : P s); [|exact (proj1 HP)].
  eapply (run_invariant (step next) P); [|split|exact HR].
  - clear - Ht Hm. intros s o s' [H1 H2] H. destruct (f_pc s) as [|b] eqn:E1.
    { unfold dfs_step in H. rewrite E1 in H. destruct (f_starts s); [discriminate|]. inversion H; subst. exact (conj H1 H2). }
    destruct (f_markers s) as [|[|] m] eqn:E2.
    + unfold dfs_step in H. rewrite E1, E2 in H. inversion H; subst. exact (conj H1 H2).
    + unfold dfs_step in H. rewrite E1, E2 in H. unfold P. rewrite (dfs_leave_calls _ _ _ _ _ H), (dfs_leave_visited _ _ _ _ _ H). exact (conj H1 H2).
    + destruct (dfs_pop VS PM LM XM cfg s m) as [[v s1]|] eqn:E3; [|unfold dfs_step in H; rewrite E1, E2, E3 in H; discriminate].
      pose proof (dfs_called _ _ _ _ H) as HC. rewrite (dfs_step_pop _ _ _ _ _ _ E1 E2 E3) in H. destruct (dfs_pop_keeps _ _ _ _ E3) as [K1 K2].
      unfold dfs_asks in HC. rewrite E1, E2, E3 in HC. rewrite Ht, Hm in H, HC. simpl negb in H, HC. simpl andb in H, HC. cbv iota in H, HC. rewrite K2 in H, HC.
      destruct (vs_mem VS (vid v) (f_visited s)) eqn:Em.
      * unfold P. simpl in HC. rewrite HC, (dfs_revisit_visited _ _ _ _ _ H), K2. exact (conj H1 H2).
      * pose proof (dfs_visit_visited _ _ _ _ _ Ht Hm H) as HV. rewrite K2 in HV. unfold P. rewrite HV. clear HV H. cbn [orb] in HC. rewrite HC.
        assert (HO : exists l, (l = [] \/ l = [vid v]) /\ cids s' = l ++ cids s).
        { rewrite HC. eexists. split; [|reflexivity]. destruct (_ || _); auto. destruct (limit_check (f_limit s1)); auto. }
        destruct HO as (l & Hl & HO). rewrite <- HC, HO. destruct Hl as [->| ->]; simpl.
        -- split; auto. intros i Hi. apply vs_mem_add. auto.
        -- split; [constructor; auto; intros Hi; apply H2 in Hi; congruence|]. intros i [<-|Hi]; apply vs_mem_add; auto.
  - constructor.
  - simpl. tauto.
Qed.

(** without trace *)
Notation wstep f := (dfw_step V_dec vid VS PM LM XM f cfg skip).
Notation wasks := (dfw_asks V_dec vid cfg skip).
Notation wcids s := (map vid (map fst (w_calls s))).

Lemma dfw_local f g s : (forall v, In v (wasks s) -> f v = g v) -> wstep f s = wstep g s.
Proof.
  intros H. unfold dfw_step, dfw_asks in *. destruct (w_pc s); auto.
  destruct (if DFSModel.dc_compute_depth cfg then _ else _) as [m d]. destruct (w_to_visit s) as [|v q]; auto.
  cbn [w_visited dfw_set]. destruct (negb (DFSModel.dc_is_tree cfg) && vs_mem VS (vid v) (w_visited s)); auto. cbn [orb] in H.
  unfold dfw_visit. cbv zeta. change (dfw_is_start V_dec VS PM LM (dfw_set VS PM LM s WLoop q m d) v) with (dfw_is_start V_dec VS PM LM s v).
  change (w_count (dfw_set VS PM LM s WLoop q m d)) with (w_count s).
  destruct (dc_report cfg _ && skip (w_count s)); auto. cbn [dfw_enter dfw_set w_limit]. destruct (limit_check (w_limit s)); auto.
  unfold dfw_expand. rewrite (H v); [reflexivity|now left].
Qed.

Lemma dfw_called f s o s' : wstep f s = Go o s' -> wcids s' = rev (map vid (wasks s)) ++ wcids s.
Proof.
  unfold dfw_step, dfw_asks. intros H. destruct (w_pc s) as [| |v rest].
  - destruct (w_starts s); [discriminate|]. inversion H; subst. reflexivity.
  - destruct (if DFSModel.dc_compute_depth cfg then _ else _) as [m d]. destruct (w_to_visit s) as [|v q]; [inversion H; subst; reflexivity|].
    cbn [w_visited dfw_set] in H. destruct (negb (DFSModel.dc_is_tree cfg) && vs_mem VS (vid v) (w_visited s)); [inversion H; subst; reflexivity|]. cbn [orb].
    unfold dfw_visit in H. cbv zeta in H. change (dfw_is_start V_dec VS PM LM (dfw_set VS PM LM s WLoop q m d) v) with (dfw_is_start V_dec VS PM LM s v) in H.
    change (w_count (dfw_set VS PM LM s WLoop q m d)) with (w_count s) in H.
    destruct (dc_report cfg _ && skip (w_count s)); [inversion H; subst; reflexivity|]. cbn [dfw_enter dfw_set w_limit] in H. destruct (limit_check (w_limit s)); [|discriminate].
    inversion H; subst. reflexivity.
  - destruct rest as [|[x l] rest]; [inversion H; subst; reflexivity|]. destruct ((_ || _) && _); inversion H; subst; reflexivity.
Qed.

Lemma dfw_asked_go f s : wasks s <> [] -> exists o s', wstep f s = Go o s'.
Proof.
  unfold dfw_step, dfw_asks. destruct (w_pc s) as [| |v rest]; try tauto.
  destruct (if DFSModel.dc_compute_depth cfg then _ else _) as [m d]. destruct (w_to_visit s) as [|v q]; try tauto.
  cbn [w_visited dfw_set]. destruct (negb (DFSModel.dc_is_tree cfg) && vs_mem VS (vid v) (w_visited s)); [intros H; now elim H|]. cbn [orb].
  unfold dfw_visit. cbv zeta. change (dfw_is_start V_dec VS PM LM (dfw_set VS PM LM s WLoop q m d) v) with (dfw_is_start V_dec VS PM LM s v).
  change (w_count (dfw_set VS PM LM s WLoop q m d)) with (w_count s).
  destruct (dc_report cfg _ && skip (w_count s)); [intros H; now elim H|]. cbn [dfw_enter dfw_set w_limit]. destruct (limit_check (w_limit s)); [eauto|intros H; now elim H].
Qed.

Lemma dfw_once next starts av lim n os s : DFSModel.dc_is_tree cfg = false ->
  run (wstep next) n (dfw_init vid VS PM LM cfg starts av lim) = (os, Running s) -> NoDup (wcids s).
Proof.
  intros Ht HR.
  set (P := fun s : @dfw_state V I L VS PM LM => NoDup (wcids s) /\ forall i, In i (wcids s) -> vs_mem VS i (w_visited s) = true).
  assert (HP : P s); [|exact (proj1 HP)].
  eapply (run_invariant (wstep next) P); [|split|exact HR].
  - clear - Ht. intros s o s' [H1 H2] H. unfold dfw_step in H. destruct (w_pc s) as [| |v rest].
    + destruct (w_starts s); [discriminate|]. inversion H; subst. exact (conj H1 H2).
    + destruct (if DFSModel.dc_compute_depth cfg then _ else _) as [m d]. destruct (w_to_visit s) as [|v q]; [inversion H; subst; exact (conj H1 H2)|].
      cbn [w_visited dfw_set] in H. rewrite Ht in H. simpl negb in H. simpl andb in H. destruct (vs_mem VS (vid v) (w_visited s)) eqn:Em; [inversion H; subst; exact (conj H1 H2)|].
      unfold dfw_visit in H. cbv zeta in H.
      match type of H with (if ?c then _ else _) = _ => destruct c end.
      * inversion H; subst. unfold P. simpl. rewrite Ht. split; auto. intros i Hi. apply vs_mem_add. auto.
      * match type of H with (match ?c with _ => _ end) = _ => destruct c end; [|discriminate]. inversion H; subst. unfold P. simpl. rewrite Ht. split.
        -- constructor; auto. intros Hi. apply H2 in Hi. congruence.
        -- intros i [<-|Hi]; apply vs_mem_add; auto.
    + destruct rest as [|[x l] rest]; [inversion H; subst; exact (conj H1 H2)|]. destruct ((_ || _) && _); inversion H; subst; exact (conj H1 H2).
  - constructor.
  - simpl. tauto.
Qed.
End DFS.
