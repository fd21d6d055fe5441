(** Depth-first search: when it makes no difference that the start vertex is recognized by comparing vertices, not ids. *)
From Coq Require Import List ZArith Bool Arith Lia.
From Verif Require Import Machine MachineSim GearSpec Spec TraversalSpec Common BFSSim DijkstraSim DFSProofs DFSModel DFSSim.
Import ListNotations.

Section Ids.
Context {V I L : Type}.
Variable V_dec : forall a b : V, {a = b} + {a <> b}.
Variable vid : V -> I.
Variable VS : VSet I.
Variable PM : PMap I V.
Variable LM : PMap I L.
Variable XM : DMap I Z 0%Z.
Variable next : V -> list (V * L).
Variable next_id : I -> list (I * L).
Hypothesis Hnext : forall v, next_id (vid v) = map (fun e => (vid (fst e), snd e)) (next v).
Variable cfg : dfs_cfg.
Variable skip : nat -> bool.
Variable starts : list V.

Definition by_visited : Prop := dc_is_tree cfg = false /\ dc_mode cfg = DFS_TREE.
Definition by_trace : Prop := dc_is_tree cfg = false /\ dc_mode cfg = ALL_PATHS /\ dc_compute_on_trace cfg = true.
Definition no_return : Prop := forall u p, In u starts -> walk (next_edge next_id) (vid u) p (vid u) -> p = [].
Hypothesis Hcase : (forall u v, vid u = vid v -> u = v) \/ by_visited \/ by_trace \/ no_return.

Definition further (u w : V) : Prop := exists p, p <> [] /\ walk (next_edge next_id) (vid u) p (vid w).
Definition reached (u w : V) : Prop := exists p, walk (next_edge next_id) (vid u) p (vid w).

Lemma reached_further u v n l : reached u v -> In (n, l) (next v) -> further u n.
Proof.
  intros [p Hp] Hn. exists (p ++ [vid n]). split; [intros E; apply app_eq_nil in E; destruct E; discriminate|].
  eapply walk_snoc; eauto. unfold next_edge. rewrite Hnext, map_map. apply in_map_iff. exists (n, l). auto.
Qed.
Lemma further_reached u v : further u v -> reached u v.
Proof. intros (p & _ & H). exists p. exact H. Qed.

Notation cnt := (count_occ Bool.bool_dec).
Lemma cnt_false_map {A} (l : list A) : cnt (map (fun _ => false) l) false = length l.
Proof. induction l; simpl; auto. Qed.
Lemma cnt_true_map {A} (l : list A) : cnt (map (fun _ => false) l) true = 0.
Proof. induction l; simpl; auto. Qed.

(** * With trace *)
Definition guard (u : V) (tv tr : list V) (on vis : vs_t VS) : Prop :=
  (by_visited -> vs_mem VS (vid u) vis = true) /\
  (by_trace -> (forall i, vs_mem VS i on = true <-> In i (map vid tr)) /\ NoDup (map vid tr)) /\
  (no_return -> (forall w, In w tv -> further u w) /\ (forall w, In w tr -> reached u w)).
Definition nothing (on : vs_t VS) : Prop := by_trace -> forall i, vs_mem VS i on = false.

Definition fresh (u : V) (tv : list V) (mk : list bool) (tr : list V) (on : vs_t VS) : Prop := tr = [] /\ nothing on /\ tv = [u] /\ mk = [false].
Definition over (tv : list V) (mk : list bool) (tr : list V) (on : vs_t VS) : Prop := tr = [] /\ nothing on /\ tv = [] /\ mk = [].
Definition inside (u : V) (tv : list V) (mk : list bool) (tr : list V) (on vis : vs_t VS) : Prop :=
  exists m t0, mk = m ++ [true] /\ tr = t0 ++ [u] /\ cnt m false = length tv /\ cnt m true = length t0 /\ guard u tv tr on vis.

Definition J (s : dfs_state VS PM LM XM) : Prop :=
  incl (f_starts s) starts /\
  match f_pc s with
  | FStarts => over (f_to_visit s) (f_markers s) (f_trace s) (f_on_trace s)
  | FLoop _ => exists u, f_start s = Some u /\ In u starts /\
      (fresh u (f_to_visit s) (f_markers s) (f_trace s) (f_on_trace s) \/
       over (f_to_visit s) (f_markers s) (f_trace s) (f_on_trace s) \/
       inside u (f_to_visit s) (f_markers s) (f_trace s) (f_on_trace s) (f_visited s))
  end.

Lemma pop_fields s m v t : dfs_pop VS PM LM XM cfg s m = Some (v, t) ->
  exists q, f_to_visit s = v :: q /\ f_to_visit t = q /\ f_markers t = m /\ f_start t = f_start s /\ f_starts t = f_starts s /\ f_trace t = f_trace s /\
    f_on_trace t = f_on_trace s /\ f_visited t = f_visited s /\ f_pc t = FLoop true.
Proof.
  unfold dfs_pop. destruct (f_to_visit s) as [|x q]; [discriminate|]. destruct (dc_labeled cfg), q as [|y q]; [| destruct (f_to_visit_labels s); [discriminate|] | |];
  intros [= <- <-]; simpl; eexists; repeat split; eauto.
Qed.

Lemma J_start : forall s b m v t, J s -> f_pc s = FLoop b -> f_markers s = false :: m -> dfs_pop VS PM LM XM cfg s m = Some (v, t) ->
  dfs_blocked vid VS PM LM XM cfg t v = false -> tells_start vid (f_start t) v.
Proof.
  intros s b m v t (_ & HJ) Epc Em Ep Hb u0 Hu0 Ev. rewrite Epc in HJ. destruct HJ as (u & Hu & Hin & HJ).
  destruct (pop_fields _ _ _ _ Ep) as (q & Etv & _ & _ & Es & _ & Etr & Eon & Evi & _). rewrite Es, Hu in Hu0. injection Hu0 as <-.
  destruct HJ as [(_ & _ & Htv & _)|[(_ & _ & Htv & _)|(m' & t0 & Hm & Htr & Hc1 & Hc2 & G1 & G2 & G3)]].
  - congruence.
  - congruence.
  - destruct Hcase as [Hi|[Hc|[Hc|Hc]]].
    + auto.
    + exfalso. specialize (G1 Hc). destruct Hc as [C1 C2]. unfold dfs_blocked in Hb. rewrite C1, C2 in Hb. simpl in Hb. rewrite Evi, Ev in Hb. congruence.
    + exfalso. specialize (G2 Hc). destruct Hc as (C1 & C2 & C3). unfold dfs_blocked in Hb. rewrite C1, C2 in Hb. simpl in Hb. rewrite Eon, Ev in Hb.
      destruct G2 as [G2 _]. assert (vs_mem VS (vid u) (f_on_trace s) = true); [|congruence]. apply G2. rewrite Htr, map_app. apply in_or_app. simpl. auto.
    + exfalso. destruct (G3 Hc) as [G _]. destruct (G v) as (p & Hp & Hw); [rewrite Etv; left; auto|]. rewrite Ev in Hw. apply Hp. exact (Hc u p Hin Hw).
Qed.

(** Entering a vertex *)
Lemma enter_inside u v q m tr on vis (edges : list V) :
  (tr = [] /\ nothing on /\ v = u /\ q = [] /\ m = [] \/ inside u (v :: q) (false :: m) tr on vis) ->
  (by_trace -> vs_mem VS (vid v) on = false) ->
  (no_return -> forall w, In w edges -> reached u v -> further u w) ->
  forall on' vis',
  (by_visited -> forall i, vs_mem VS i vis = true \/ i = vid v -> vs_mem VS i vis' = true) ->
  (by_trace -> forall i, vs_mem VS i on' = true <-> i = vid v \/ vs_mem VS i on = true) ->
  inside u (edges ++ q) (map (fun _ => false) edges ++ true :: m) (v :: tr) on' vis'.
Proof.
  intros H Hnon Hed on' vis' Hvis Hon. destruct H as [(-> & Hno & -> & -> & ->)|(m' & t0 & Hm & -> & Hc1 & Hc2 & G1 & G2 & G3)].
  - exists (map (fun _ => false) edges), []. rewrite cnt_false_map, cnt_true_map, app_nil_r. repeat split; auto.
    + intros Hmem. simpl. apply Hon in Hmem; auto. destruct Hmem as [->|Hmem]; auto. rewrite (Hno H) in Hmem. discriminate.
    + simpl. intros [<-|[]]. apply Hon; auto.
    + simpl. constructor; [simpl; tauto|constructor].
    + intros w Hw. apply Hed; auto. exists []. constructor.
    + intros w [<-|[]]. exists []. constructor.
  - destruct m' as [|x m']; simpl in Hm; [discriminate|]. injection Hm as <- ->. simpl in Hc1, Hc2.
    exists (map (fun _ => false) edges ++ true :: m'), (v :: t0). rewrite !count_occ_app, cnt_false_map, cnt_true_map, app_length. simpl.
    split; [now rewrite <- app_assoc|]. split; [reflexivity|]. split; [lia|]. split; [lia|]. split; [|split].
    + intros Hb. apply Hvis; auto.
    + intros Hb. destruct (G2 Hb) as [G2a G2b]. split.
      * intros i. rewrite (Hon Hb). simpl. rewrite G2a. intuition.
      * simpl. constructor; auto. intros Hi. apply G2a in Hi. rewrite (Hnon Hb) in Hi. discriminate.
    + intros Hn. destruct (G3 Hn) as [G3a G3b]. assert (Hrv : reached u v) by (apply further_reached, G3a; left; auto). split.
      * intros w Hw. apply in_app_or in Hw. destruct Hw as [Hw|Hw]; [now apply (Hed Hn)|apply G3a; right; auto].
      * intros w [<-|Hw]; auto.
Qed.

Lemma J_step : forall s o s', J s -> dfs_step V_dec vid VS PM LM XM next cfg skip s = Go o s' -> J s'.
Proof.
  intros s o s' [Hst HJ] E. unfold dfs_step in E. destruct (f_pc s) as [|b] eqn:Epc.
  - destruct (f_starts s) as [|v rest] eqn:Es; [discriminate|]. injection E as <- <-. destruct HJ as (H1 & H2 & H3 & H4). split; simpl.
    + intros x Hx. apply Hst. right. exact Hx.
    + exists v. split; auto. split; [apply Hst; left; auto|]. left. unfold fresh. rewrite H3, H4. auto.
  - destruct HJ as (u & Hu & Hin & HJ). destruct (f_markers s) as [|[|] m] eqn:Em.
    + injection E as <- <-. split; simpl; auto. destruct HJ as [(_ & _ & _ & H)|[H|(m' & t0 & Hm & _)]].
      * discriminate H.
      * rewrite Em. exact H.
      * destruct m'; discriminate Hm.
    + destruct HJ as [(_ & _ & _ & H)|[(_ & _ & _ & H)|(m' & t0 & Hm & Htr & Hc1 & Hc2 & G1 & G2 & G3)]]; [discriminate H..|].
      unfold dfs_leave in E. rewrite Htr in E.
      assert (Kb : m' = [] -> m = [] /\ t0 = [] /\ f_to_visit s = []).
      { intros ->. simpl in Hm, Hc1, Hc2. injection Hm as ->. repeat split; [destruct t0|destruct (f_to_visit s)]; auto; discriminate. }
      assert (K : forall s1 nl v t tl k, t0 ++ [u] = v :: t -> f_starts s1 = f_starts s -> f_start s1 = f_start s -> f_to_visit s1 = f_to_visit s -> f_on_trace s1 = f_on_trace s ->
                 f_visited s1 = f_visited s -> J (dfs_left vid VS PM LM XM cfg s1 nl v m t tl k)).
      { intros s1 nl v t tl k Et E1 E2 E3 E4 E5. split; cbn [dfs_left f_starts f_pc f_start f_to_visit f_markers f_trace f_on_trace f_visited]; [rewrite E1; exact Hst|].
        rewrite E2, E3, E4, E5. exists u. split; auto. split; auto. right. destruct m' as [|x m'].
        - destruct (Kb eq_refl) as (-> & -> & Htv). left. rewrite Htv. simpl in Et. injection Et as <- <-. split; auto. split; [|auto].
          intros Hb. destruct (G2 Hb) as [G2a _]. pose proof (proj2 (proj2 Hb)) as Hcot. rewrite Hcot. intros i.
          destruct (vs_mem VS i (vs_discard VS (vid u) (f_on_trace s))) eqn:Ei; auto. apply vs_mem_discard in Ei. destruct Ei as [Hne Ei]. apply G2a in Ei. rewrite Htr in Ei. simpl in Ei. intuition congruence.
        - right. simpl in Hm. injection Hm as <- ->. simpl in Hc1, Hc2. destruct t0 as [|y t0]; [discriminate|]. simpl in Et. injection Et as <- <-.
          exists m', t0. split; auto. split; auto. split; auto. split; [simpl in Hc2; lia|]. split; [exact G1|split].
          + intros Hb. destruct (G2 Hb) as [G2a G2b]. pose proof (proj2 (proj2 Hb)) as Hcot. rewrite Hcot. rewrite Htr in G2a, G2b. simpl in G2b. inversion G2b as [|? ? Hn Hd]; subst. split; auto.
            intros i. rewrite vs_mem_discard, G2a. simpl. split; [intros [Hne [Hi|Hi]]; [congruence|auto]|]. intros Hi. split; auto. intros ->. contradiction.
          + intros Hn. destruct (G3 Hn) as [G3a G3b]. split; auto. intros w Hw. apply G3b. rewrite Htr. right. exact Hw. }
      destruct t0 as [|v t0]; cbn [app] in E.
      * destruct m as [|x m].
        -- injection E as <- <-. destruct (dc_report cfg LEAVING_START); apply K; auto.
        -- destruct (dc_labeled cfg).
           ++ match type of E with context [match ?l with [] => _ | _ :: _ => _ end] => destruct l end; [discriminate|]. injection E as <- <-. destruct (_ && _); apply K; auto.
           ++ injection E as <- <-. destruct (dc_report cfg LEAVING_SUCCESSOR && b); apply K; auto.
      * destruct m as [|x m].
        -- injection E as <- <-. destruct (dc_report cfg LEAVING_START); apply K; auto.
        -- destruct (dc_labeled cfg).
           ++ match type of E with context [match ?l with [] => _ | _ :: _ => _ end] => destruct l end; [discriminate|]. injection E as <- <-. destruct (_ && _); apply K; auto.
           ++ injection E as <- <-. destruct (dc_report cfg LEAVING_SUCCESSOR && b); apply K; auto.
    + destruct (dfs_pop VS PM LM XM cfg s m) as [[v t]|] eqn:Ep; [|discriminate].
      destruct (pop_fields _ _ _ _ Ep) as (q & Etv & Etq & Emt & Ets & Ets2 & Ett & Eto & Etvi & Epct).
      assert (HJ' : f_trace s = [] /\ nothing (f_on_trace s) /\ v = u /\ q = [] /\ m = [] \/ inside u (v :: q) (false :: m) (f_trace s) (f_on_trace s) (f_visited s)).
      { destruct HJ as [(H1 & H2 & H3 & H4)|[(H1 & H2 & H3 & H4)|H]]; [left|congruence|right; rewrite <- Etv; exact H].
        rewrite Etv in H3. injection H3 as -> ->. injection H4 as ->. auto. }
      clear HJ.
      assert (Krev : forall s1, f_pc s1 = FLoop true -> f_starts s1 = f_starts t -> f_start s1 = f_start t -> f_to_visit s1 = f_to_visit t -> f_markers s1 = f_markers t -> f_trace s1 = f_trace t ->
                f_on_trace s1 = f_on_trace t -> f_visited s1 = f_visited t -> J s1).
      { intros s1 E0 E1 E2 E3 E4 E5 E6 E7. split; [rewrite E1, Ets2; exact Hst|]. rewrite E0, E2, E3, E4, E5, E6, E7, Ets, Etq, Emt, Ett, Eto, Etvi. exists u. split; auto. split; auto.
        destruct HJ' as [(H1 & H2 & -> & -> & ->)|(m' & t0 & Hm & Htr & Hc1 & Hc2 & G1 & G2 & G3)]; right; [left; split; auto|right].
        destruct m' as [|x m']; [discriminate|]. simpl in Hm. injection Hm as <- ->. simpl in Hc1, Hc2. exists m', t0. repeat split; auto; try lia; try (apply G2; auto); intros w Hw; apply G3; auto; right; auto. }
      assert (Hrev : forall bk, dfs_revisit vid VS PM LM XM cfg t v bk = Go o s' -> J s').
      { intros bk. unfold dfs_revisit. destruct (f_trace t) eqn:Etr.
        - destruct (dc_report cfg SKIPPING_START); intros [= <- <-]; apply Krev; simpl; auto.
        - destruct (dfs_classify _ _ _ _ _ _ _ _ _); [|intros [= <- <-]; apply Krev; auto]. destruct (dc_labeled cfg); [destruct (f_var_labels t); [|discriminate]|]; intros [= <- <-]; apply Krev; auto. }
      assert (Hvis : dfs_blocked vid VS PM LM XM cfg t v = false -> dfs_visit V_dec vid VS PM LM XM next cfg skip t v = Go o s' -> J s').
      { intros Hb Hv.
        assert (Hon : by_trace -> vs_mem VS (vid v) (f_on_trace s) = false).
        { intros (C1 & C2 & C3). unfold dfs_blocked in Hb. rewrite C1, C2, Eto in Hb. exact Hb. }
        assert (Kin : forall edges, (forall w, In w edges -> exists l, In (w, l) (next v)) ->
           inside u (edges ++ q) (map (fun _ => false) edges ++ true :: m) (v :: f_trace s)
             (f_on_trace (dfs_enter V_dec vid VS PM LM XM cfg t v)) (f_visited (dfs_enter V_dec vid VS PM LM XM cfg t v))).
        { intros edges Hed. apply (enter_inside u v q m (f_trace s) (f_on_trace s) (f_visited s) edges HJ' Hon).
          - intros Hn w Hw Hr. destruct (Hed w Hw) as [l Hl]. eapply reached_further; eauto.
          - intros (C1 & C2) i Hi. simpl. rewrite C1, C2. simpl. apply vs_mem_add. rewrite Etvi. tauto.
          - intros (C1 & C2 & C3) i. simpl. rewrite C1, C2, C3. simpl. rewrite vs_mem_add, Eto. tauto. }
        assert (Kgo : forall s1 edges, (forall w, In w edges -> exists l, In (w, l) (next v)) -> f_pc s1 = FLoop true -> f_starts s1 = f_starts t -> f_start s1 = f_start t ->
            f_to_visit s1 = edges ++ f_to_visit t -> f_markers s1 = map (fun _ => false) edges ++ true :: f_markers t -> f_trace s1 = v :: f_trace t ->
            f_on_trace s1 = f_on_trace (dfs_enter V_dec vid VS PM LM XM cfg t v) -> f_visited s1 = f_visited (dfs_enter V_dec vid VS PM LM XM cfg t v) -> J s1).
        { intros s1 edges Hed E0 E1 E2 E3 E4 E5 E6 E7. split; [rewrite E1, Ets2; exact Hst|]. rewrite E0, E2, E3, E4, E5, E6, E7, Ets, Etq, Emt, Ett. exists u. split; auto. }
        assert (Hmap : forall es : list (V * L), map (fun _ => false) es = map (fun _ => false) (rev (map fst es))).
        { intros es.
          assert (Hr : forall A (l : list A), map (fun _ => false) (rev l) = map (fun _ => false) l).
          { intros A l. induction l as [|a l IH]; simpl; auto. rewrite map_app, IH. simpl. clear. induction l; simpl; congruence. }
          rewrite Hr, map_map. reflexivity. }
        assert (Hcnt : forall k, J (dfs_count VS PM LM XM (dfs_enter V_dec vid VS PM LM XM cfg t v) k)).
        { intros k. apply (Kgo _ []); auto. intros w []. }
        assert (Hexp : forall lim k, J (dfs_expand VS PM LM XM next cfg (dfs_enter V_dec vid VS PM LM XM cfg t v) v lim k)).
        { intros lim k. apply (Kgo _ (rev (map fst (next v)))); auto.
          - intros w Hw. apply in_rev in Hw. apply in_map_iff in Hw. destruct Hw as ([w' l] & <- & Hw). eauto.
          - cbn [dfs_expand f_markers dfs_enter]. now rewrite Hmap. }
        unfold dfs_visit in Hv.
        assert (Hv' : (let s1 := dfs_enter V_dec vid VS PM LM XM cfg t v in
           let show := dc_report cfg (if is_current_start V_dec VS PM LM XM t v then ENTERING_START else ENTERING_SUCCESSOR) in
           let o := if show then [dfs_observe VS PM LM XM v s1] else [] in
           if show && skip (f_count t) then Go o (dfs_count VS PM LM XM s1 (length o))
           else match limit_check (f_limit s1) with
                | None => Raise o RuntimeErrorLimit (dfs_count VS PM LM XM s1 (length o))
                | Some lim => Go o (dfs_expand VS PM LM XM next cfg s1 v lim (length o))
                end) = Go o s').
        { destruct (f_trace t); auto. destruct (dc_labeled cfg); auto. destruct (f_var_labels t); auto. discriminate. }
        clear Hv. cbv zeta in Hv'. match type of Hv' with (if ?c then _ else _) = _ => destruct c end; [injection Hv' as _ <-; apply Hcnt|]. destruct (limit_check _); [|discriminate]. injection Hv' as _ <-. apply Hexp. }
      unfold dfs_blocked in Hvis.
      destruct (negb (dc_is_tree cfg) && negb (is_all_walks (dc_mode cfg))); cbn [andb] in Hvis; [|auto].
      destruct (is_dfs_tree (dc_mode cfg)); [destruct (vs_mem VS (vid v) (f_visited t))|destruct (vs_mem VS (vid v) (f_on_trace t))]; eauto.
Qed.

Lemma J_init av lim : J (dfs_init vid VS PM LM XM cfg starts av lim).
Proof. split; simpl; [apply incl_refl|]. split; auto. split; auto. intros _ i. apply vs_mem_empty. Qed.

(** * Without trace *)
Definition entered (u : V) (tv : list V) (vis : vs_t VS) : Prop :=
  (dc_is_tree cfg = false -> vs_mem VS (vid u) vis = true) /\ (no_return -> forall w, In w tv -> further u w).
Definition expanding (u v : V) (rest : list (V * L)) : Prop :=
  (vid v = vid u -> v = u) /\ (no_return -> reached u v) /\ incl rest (next v).
Definition Jw (s : dfw_state VS PM LM) : Prop :=
  incl (w_starts s) starts /\
  match w_pc s with
  | WStarts => w_to_visit s = []
  | WLoop => exists u, w_start s = Some u /\ In u starts /\ (w_to_visit s = [u] \/ w_to_visit s = [] \/ entered u (w_to_visit s) (w_visited s))
  | WEdges v rest => exists u, w_start s = Some u /\ In u starts /\ entered u (w_to_visit s) (w_visited s) /\ expanding u v rest
  end.

Hypothesis Hmode : dc_mode cfg = DFS_TREE.

Lemma entered_tells u v q vis : In u starts -> entered u (v :: q) vis -> negb (dc_is_tree cfg) && vs_mem VS (vid v) vis = false -> vid v = vid u -> v = u.
Proof.
  intros Hin [H1 H2] Hb Ev. destruct Hcase as [Hi|[Hc|[Hc|Hc]]].
  - auto.
  - destruct Hc as [C1 C2]. rewrite C1, Ev, (H1 C1) in Hb. discriminate.
  - destruct Hc as (C1 & C2 & C3). congruence.
  - destruct (H2 Hc v (or_introl eq_refl)) as (p & Hp & Hw). rewrite Ev in Hw. exfalso. apply Hp. exact (Hc u p Hin Hw).
Qed.

Lemma Jw_start : forall s, Jw s ->
  match w_pc s with
  | WStarts => True
  | WLoop => forall v q, w_to_visit s = v :: q -> negb (dc_is_tree cfg) && vs_mem VS (vid v) (w_visited s) = false -> tells_start vid (w_start s) v
  | WEdges v _ => tells_start vid (w_start s) v
  end.
Proof.
  intros s [_ HJ]. destruct (w_pc s) as [| |v rest]; auto.
  - destruct HJ as (u & Hu & Hin & HJ). intros v q Etv Hb u0 Hu0 Ev. rewrite Hu in Hu0. injection Hu0 as <-. rewrite Etv in HJ. destruct HJ as [H|[H|H]]; [congruence|discriminate|].
    eapply entered_tells; eauto.
  - destruct HJ as (u & Hu & Hin & _ & H & _). intros u0 Hu0 Ev. rewrite Hu in Hu0. injection Hu0 as <-. auto.
Qed.

Lemma Jw_step : forall s o s', Jw s -> dfw_step V_dec vid VS PM LM XM next cfg skip s = Go o s' -> Jw s'.
Proof.
  intros s o s' HJ0 E. pose proof (Jw_start s HJ0) as Hts. destruct HJ0 as [Hst HJ]. unfold dfw_step in E. destruct (w_pc s) as [| |v [|[n l] rest]] eqn:Epc.
  - destruct (w_starts s) as [|v rest] eqn:Es; [discriminate|]. injection E as <- <-. split; simpl.
    + intros x Hx. apply Hst. right. exact Hx.
    + exists v. split; auto. split; [apply Hst; left; auto|]. left. now rewrite HJ.
  - destruct HJ as (u & Hu & Hin & HJ). destruct (if dc_compute_depth cfg then _ else _) as [m d]. destruct (w_to_visit s) as [|v q] eqn:Etv.
    + injection E as <- <-. split; simpl; auto.
    + specialize (Hts v q eq_refl). change (w_visited (dfw_set VS PM LM s WLoop q m d)) with (w_visited s) in E.
      destruct (negb (dc_is_tree cfg) && vs_mem VS (vid v) (w_visited s)) eqn:Eb.
      * injection E as <- <-. split; simpl; auto. exists u. split; auto. split; auto. right. destruct HJ as [H|[H|[H1 H2]]]; [injection H as -> ->; auto|discriminate|].
        right. split; auto. intros Hn w Hw. apply H2; auto. right. exact Hw.
      * specialize (Hts eq_refl u Hu). unfold dfw_visit in E. set (s1 := dfw_set VS PM LM s WLoop q m d) in *.
        assert (Hen : entered u q (w_visited (dfw_enter V_dec vid VS PM LM cfg s1 v))).
        { split; simpl.
          - intros Ht. rewrite Ht. apply vs_mem_add. destruct HJ as [H|[H|[H1 H2]]]; [injection H as -> ->; auto|discriminate|auto].
          - intros Hn w Hw. destruct HJ as [H|[H|[H1 H2]]]; [injection H as -> ->; destruct Hw|discriminate|]. apply H2; auto. right. exact Hw. }
        match type of E with (if ?c then _ else _) = _ => destruct c end.
        -- injection E as _ <-. split; simpl; auto. exists u. split; auto.
        -- destruct (limit_check _); [|discriminate]. injection E as _ <-. split; simpl; auto. exists u. split; auto. split; auto. split; auto.
           split; [exact Hts|]. split; [|apply incl_refl]. intros Hn. destruct HJ as [H|[H|[H1 H2]]]; [injection H as -> ->; exists []; constructor|discriminate|].
           apply further_reached, H2; auto. left; auto.
  - injection E as <- <-. destruct HJ as (u & Hu & Hin & Hen & Hex). split; simpl; auto. exists u. auto.
  - destruct HJ as (u & Hu & Hin & [Hen1 Hen2] & Hx1 & Hx2 & Hx3). destruct (_ && _).
    + injection E as <- <-. split; simpl; auto. exists u. split; auto. split; auto. split; [split; auto|]. split; auto. split; auto. intros x Hx. apply Hx3. right. exact Hx.
    + injection E as <- <-. split; simpl; auto. exists u. split; auto. split; auto. split; [split; auto|].
      * intros Hn w [<-|Hw]; [|auto]. eapply reached_further; [apply Hx2; auto|]. apply Hx3. left. reflexivity.
      * split; auto. split; auto. intros x Hx. apply Hx3. right. exact Hx.
Qed.

Lemma Jw_init av lim : Jw (dfw_init vid VS PM LM cfg starts av lim).
Proof. split; simpl; [apply incl_refl|reflexivity]. Qed.
End Ids.

Lemma dfs_ids {V I L : Type} (V_dec : forall a b : V, {a = b} + {a <> b}) (I_dec : forall a b : I, {a = b} + {a <> b}) (vid : V -> I)
    (VS : VSet I) (PM : PMap I V) (PMI : PMap I I) (LM : PMap I L) (XM : DMap I Z 0%Z)
    (next : V -> list (V * L)) (next_id : I -> list (I * L)) (cfg : dfs_cfg) (skip : nat -> bool) (starts : list V) av lim n :
  (dc_build_paths cfg = true -> marks_gaps PM /\ marks_gaps PMI) ->
  (forall u v, vid u = vid v -> u = v) \/ by_visited cfg \/ by_trace cfg \/ no_return vid next_id starts ->
  (forall v, next_id (vid v) = map (fun e => (vid (fst e), snd e)) (next v)) ->
  let p1 := dfs_traverse V_dec vid VS PM LM XM next cfg skip starts av lim n in
  let p2 := dfs_traverse I_dec (fun i => i) VS PMI LM XM next_id cfg skip (map vid starts) av lim n in
  Forall2 (dfs_same_report vid VS VS PM PMI LM LM XM XM) (fst p1) (fst p2) /\ snd p2 = outcome_map (map (fun x => (vid (fst x), snd x))) (snd p1).
Proof.
  intros Hgaps Hcase Hn.
  assert (Hav : match av, av with None, None => True | Some a, Some b => same_set VS VS a b | _, _ => False end) by (destruct av; auto; intros i; reflexivity).
  destruct (dfs_uses_trace cfg) eqn:Eu.
  - apply (dfs_sim V_dec I_dec vid vid (fun i : I => i) (fun v => eq_refl) VS VS PM PMI LM LM XM XM next next_id Hn cfg Hgaps skip
      (J vid VS PM LM XM next_id cfg starts)
      (J_step V_dec vid VS PM LM XM next next_id Hn cfg skip starts Hcase)
      (J_start vid VS PM LM XM next_id cfg starts Hcase) (fun _ => False) (fun _ _ _ F _ => F) (fun _ F => match F with end)); auto.
    + intros _. apply J_init.
    + congruence.
  - assert (Hm : dc_mode cfg = DFS_TREE).
    { unfold dfs_uses_trace in Eu. apply orb_false_iff in Eu. destruct Eu as [_ Eu]. destruct (dc_mode cfg); auto; discriminate. }
    apply (dfs_sim V_dec I_dec vid vid (fun i : I => i) (fun v => eq_refl) VS VS PM PMI LM LM XM XM next next_id Hn cfg Hgaps skip
      (fun _ => False) (fun _ _ _ F _ => F) (fun _ _ _ _ _ F => match F with end)
      (Jw vid VS PM LM next next_id cfg starts)
      (Jw_step V_dec vid VS PM LM XM next next_id Hn cfg skip starts Hcase Hm)
      (Jw_start vid VS PM LM next next_id cfg starts Hcase Hm)); auto.
    + congruence.
    + intros _. apply Jw_init.
Qed.

Lemma dfs_ids_options {V I L : Type} (V_dec : forall a b : V, {a = b} + {a <> b}) (I_dec : forall a b : I, {a = b} + {a <> b}) (vid : V -> I)
    (VS : VSet I) (PM : PMap I V) (PMI : PMap I I) (LM : PMap I L) (XM : DMap I Z 0%Z)
    (next : V -> list (V * L)) (next_id : I -> list (I * L)) (options cfg : dfs_cfg) (skip : nat -> bool) (starts : list V) (av : option (vs_t VS)) lim n :
  dfs_options options (match av with Some _ => true | None => false end) = inl cfg ->
  (dc_build_paths cfg = true -> marks_gaps PM /\ marks_gaps PMI) ->
  (forall u v, vid u = vid v -> u = v) \/
  (dc_is_tree options = false /\ dc_mode options <> ALL_WALKS) \/
  (forall u p, In u starts -> walk (next_edge next_id) (vid u) p (vid u) -> p = []) ->
  (forall v, next_id (vid v) = map (fun e => (vid (fst e), snd e)) (next v)) ->
  let p1 := dfs_traverse V_dec vid VS PM LM XM next cfg skip starts av lim n in
  let p2 := dfs_traverse I_dec (fun i => i) VS PMI LM XM next_id cfg skip (map vid starts) av lim n in
  Forall2 (dfs_same_report vid VS VS PM PMI LM LM XM XM) (fst p1) (fst p2) /\
  snd p2 = DFSModel.outcome_map (map (fun x => (vid (fst x), snd x))) (snd p1).
Proof.
  intros Ho Hg Hi H. apply dfs_ids; auto.
  destruct Hi as [Hi|[[Ht Hm]|Hi]]; [auto| |auto].
  assert (Hc : dc_is_tree cfg = dc_is_tree options /\ dc_mode cfg = dc_mode options /\ (dc_is_tree options = false -> dc_mode options = ALL_PATHS -> dc_compute_on_trace cfg = true)).
  { unfold dfs_options in Ho. repeat match type of Ho with (if ?c then _ else _) = _ => destruct c; try discriminate end.
    injection Ho as <-. simpl. repeat split; auto. intros -> ->. simpl. rewrite !orb_true_r. reflexivity. }
  destruct Hc as (C1 & C2 & C3). right. destruct (dc_mode options) eqn:Em; [left|right; left|congruence]; unfold by_visited, by_trace; rewrite C1, C2; auto.
Qed.
