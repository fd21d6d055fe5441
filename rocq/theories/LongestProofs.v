(** The program longest_weighted_path (LongestModel) finds a longest simple path if it sees the right labels. *)
From Coq Require Import List Bool Arith ZArith Lia.
From Verif Require Import Machine GearSpec Common Spec TraversalSpec DFSModel DFSSpec DFSLog DFSLogMore DFSReports DFSProofs DFSMore DFSTree DFSTerm DFSPaths LongestSpec LongestModel.
Import ListNotations.
Open Scope Z_scope.

Section LongestProofs.
Context {V : Type}.
Variable V_dec : forall a b : V, {a = b} + {a <> b}.
Variable VS : VSet V.
Variable PM : PMap V V.
Variable LM : PMap V Z.
Variable XM : DMap V Z 0.
Variable next : V -> list (V * Z).
Variables start goal : V.
Notation report := (@dfs_report V V Z VS PM LM XM).
Notation state := (@dfs_state V V Z VS PM LM XM).
Notation vid := (fun v : V => v).
Notation step := (dfs_step V_dec vid VS PM LM XM next lwp_options).
Notation dfs_log := (dfs_log vid next [start] PPaths).
Notation log_t := (log_t V).
Notation node := (node V).
Notation lwp_step := (lwp_step V_dec VS PM LM XM next goal).
Notation lwp_all := (lwp_all V_dec VS PM LM XM goal).
Notation lwp_run := (lwp_run V_dec VS PM LM XM next start goal).
Notation prunes := (lwp_prunes V_dec VS PM LM XM goal).
Notation init := (dfs_init vid VS PM LM XM lwp_options [start] None None).

Lemma lwp_options_ok : dfs_options lwp_asked false = inl lwp_options. Proof. reflexivity. Qed.

(** ** The decisions of the program, by the number of the report *)
Definition regular (r : (nat -> bool) -> step_result state report exn) (s : state) : Prop := forall f,
  (forall g, (outputs (r f) = [] \/ f (f_count s) = g (f_count s) -> r f = r g) /\ outputs (r f) = outputs (r g)) /\
  (outputs (r f) = [] \/ exists rep, outputs (r f) = [rep]) /\
  match r f with Go o s' => f_count s' = (f_count s + length o)%nat /\ (f_limit s = None -> f_limit s' = None) | Halt _ _ => True | Raise _ x _ => f_limit s = None -> x <> RuntimeErrorLimit end.
Lemma regular_const r s : (outputs r = [] \/ exists rep, outputs r = [rep]) ->
  match r with Go o s' => f_count s' = (f_count s + length o)%nat /\ (f_limit s = None -> f_limit s' = None) | Halt _ _ => True | Raise _ x _ => f_limit s = None -> x <> RuntimeErrorLimit end ->
  regular (fun _ => r) s.
Proof. intros H1 H2 f. auto. Qed.
Lemma visit_regular s v : regular (fun f => dfs_visit V_dec vid VS PM LM XM next lwp_options f s v) s.
Proof.
  assert (G : regular (fun f => let s1 := dfs_enter V_dec vid VS PM LM XM lwp_options s v in
      let show := dc_report lwp_options (if is_current_start V_dec VS PM LM XM s v then ENTERING_START else ENTERING_SUCCESSOR) in
      let o := if show then [dfs_observe VS PM LM XM v s1] else [] in
      if show && f (f_count s) then Go o (dfs_count VS PM LM XM s1 (length o))
      else match limit_check (f_limit s1) with
           | None => Raise o RuntimeErrorLimit (dfs_count VS PM LM XM s1 (length o))
           | Some lim => Go o (dfs_expand VS PM LM XM next lwp_options s1 v lim (length o))
           end) s).
  { intros f. cbn zeta. change (f_limit (dfs_enter V_dec vid VS PM LM XM lwp_options s v)) with (f_limit s).
    destruct (dc_report lwp_options (if is_current_start V_dec VS PM LM XM s v then ENTERING_START else ENTERING_SUCCESSOR)); cbn [andb].
    - split; [intros g; split; [intros [K|K]; [destruct (f (f_count s)); [|destruct (limit_check (f_limit s))]; discriminate K|rewrite K; reflexivity]|
        destruct (f (f_count s)), (g (f_count s)), (limit_check (f_limit s)); reflexivity]|].
      split; [right; eexists; destruct (f (f_count s)); [|destruct (limit_check (f_limit s))]; reflexivity|].
      destruct (f (f_count s)); [split; [reflexivity|auto]|]. destruct (f_limit s) as [z|] eqn:El; cbn.
      + destruct (z =? 0)%Z; cbn; [split; [lia|discriminate]|]. destruct (z - 1 =? 0)%Z; cbn; [discriminate|split; [lia|discriminate]].
      + split; auto.
    - split; [intros g; split; reflexivity|]. destruct (f_limit s) as [z|] eqn:El; cbn.
      + destruct (z =? 0)%Z; cbn; [split; [now left|split; [lia|discriminate]]|]. destruct (z - 1 =? 0)%Z; cbn; (split; [now left|]); [discriminate|split; [lia|discriminate]].
      + split; [now left|split; [lia|auto]]. }
  unfold dfs_visit. change (dc_labeled lwp_options) with true. destruct (f_trace s); [exact G|]. destruct (f_var_labels s); [exact G|]. apply regular_const; [now left|discriminate].
Qed.
Lemma step_regular s : regular (fun f => step f s) s.
Proof.
  destruct s as [pc sts st tv tvl mk vl tr trl ont ix0 tm dp ev vis pr lb lm ct cl]. unfold dfs_step. cbn [f_pc f_starts f_markers].
  destruct pc as [|no_leaving].
  - destruct sts; apply regular_const; cbn; auto; rewrite ?Nat.add_0_r; auto.
  - destruct mk as [|[|] m]; [apply regular_const; cbn; auto; rewrite ?Nat.add_0_r; auto| |].
    + unfold dfs_leave. cbn. destruct tr as [|v t]; [apply regular_const; cbn; [now left|discriminate]|]. destruct m as [|b m]; cbn.
      * apply regular_const; cbn; auto.
      * destruct no_leaving; cbn; (destruct trl as [|l tl]; apply regular_const; cbn; eauto; discriminate).
    + assert (G : forall q tvl' vl' v,
        regular (fun f => let s := {| f_pc := FLoop true; f_starts := sts; f_start := st; f_to_visit := q; f_to_visit_labels := tvl'; f_markers := m; f_var_labels := vl'; f_trace := tr; f_trace_labels := trl; f_on_trace := ont; f_index := ix0; f_time := tm; f_depth := dp; f_event := ev; f_visited := vis; f_pred := pr; f_labels := lb; f_limit := lm; f_count := ct; f_calls := cl |} in
          if vs_mem VS v ont then dfs_revisit vid VS PM LM XM lwp_options s v true else dfs_visit V_dec vid VS PM LM XM next lwp_options f s v)
        {| f_pc := FLoop no_leaving; f_starts := sts; f_start := st; f_to_visit := tv; f_to_visit_labels := tvl; f_markers := false :: m; f_var_labels := vl; f_trace := tr; f_trace_labels := trl; f_on_trace := ont; f_index := ix0; f_time := tm; f_depth := dp; f_event := ev; f_visited := vis; f_pred := pr; f_labels := lb; f_limit := lm; f_count := ct; f_calls := cl |}).
      { intros q tvl' vl' v. cbn zeta. destruct (vs_mem VS v ont).
        - apply regular_const; unfold dfs_revisit; cbn; destruct tr as [|u t]; cbn; rewrite ?Nat.add_0_r; auto.
        - exact (visit_regular {| f_pc := FLoop true; f_starts := sts; f_start := st; f_to_visit := q; f_to_visit_labels := tvl'; f_markers := m; f_var_labels := vl'; f_trace := tr; f_trace_labels := trl; f_on_trace := ont; f_index := ix0; f_time := tm; f_depth := dp; f_event := ev; f_visited := vis; f_pred := pr; f_labels := lb; f_limit := lm; f_count := ct; f_calls := cl |} v). }
      unfold dfs_pop. cbn [f_to_visit]. destruct tv as [|v [|q0 q]]; [apply regular_const; cbn; [now left|discriminate]|exact (G [] tvl vl v)|].
      cbn. destruct tvl as [|l0 tvl]; [apply regular_const; cbn; [now left|discriminate]|]. exact (G (q0 :: q) tvl (Some l0) v).
Qed.

Lemma lwp_step_regular s : exists b, lwp_step s = step (fun _ => b) s /\ b = existsb prunes (outputs (lwp_step s)).
Proof.
  unfold LongestModel.lwp_step. eexists. split; [reflexivity|]. f_equal. apply (step_regular s (fun _ => false)).
Qed.
Lemma lwp_same skip n : forall s (pre : list report), f_count s = length pre ->
  (forall m rep, nth_error (pre ++ fst (run lwp_step n s)) m = Some rep -> skip m = prunes rep) -> run (step skip) n s = run lwp_step n s.
Proof.
  induction n as [|n IH]; intros s pre Hc Hs; [reflexivity|]. cbn [run] in *. destruct (lwp_step_regular s) as (b & Hb & Eb).
  destruct (step_regular s (fun _ => b)) as (H1 & H2 & H3). rewrite <- Hb in H1, H2, H3.
  assert (K : step skip s = lwp_step s).
  { symmetry. apply (proj1 (H1 skip)). destruct H2 as [H2|(rep & H2)]; [now left|right]. rewrite Hc. rewrite Eb, H2. cbn. rewrite orb_false_r. symmetry. apply Hs.
    assert (Ho : exists rest, fst (run lwp_step (S n) s) = rep :: rest) by (cbn [run]; destruct (lwp_step s) as [o s'|o s'|o x s']; cbn in H2; subst o; cbn; eauto).
    destruct Ho as (rest & Ho). cbn [run] in Ho. rewrite Ho, nth_error_app2, Nat.sub_diag by lia. reflexivity. }
  rewrite K. destruct (lwp_step s) as [o s'|o s'|o x s']; [|reflexivity|reflexivity]. cbn [fst] in Hs. rewrite (IH s' (pre ++ o)); [reflexivity|rewrite app_length; lia|]. rewrite <- app_assoc. exact Hs.
Qed.

(** The decisions in a run of the program *)
Definition decisions (os : list report) (m : nat) : bool := match nth_error os m with Some rep => prunes rep | None => false end.
Lemma lwp_decisions n os r : run lwp_step n init = (os, r) -> run (step (decisions os)) n init = (os, r).
Proof. intros H. rewrite <- H. apply lwp_same with (pre := []); [reflexivity|]. rewrite H. cbn. intros m rep Hm. unfold decisions. rewrite Hm. reflexivity. Qed.

Lemma lwp_unlimited n : forall s, f_limit s = None -> match snd (run lwp_step n s) with Raised x _ => x <> RuntimeErrorLimit | _ => True end.
Proof.
  induction n as [|n IH]; intros s Hs; [exact I|]. cbn [run]. destruct (lwp_step_regular s) as (b & Hb & _). destruct (step_regular s (fun _ => b)) as (_ & _ & H3). rewrite <- Hb in H3.
  destruct (lwp_step s) as [o s'|o s'|o x s']; [|exact I|exact (H3 Hs)]. apply IH. apply H3. exact Hs.
Qed.

(** ** All labels that appear are labels of edges *)
Section Labels.
Variable P : Z -> Prop.
Hypothesis HP : forall u v l, In (v, l) (next u) -> P l.
Definition labels_in (s : state) : Prop := Forall P (f_to_visit_labels s) /\ Forall P (f_trace_labels s) /\ forall l, f_var_labels s = Some l -> P l.
Definition labels_ok (rep : report) : Prop := Forall P (fr_trace_labels rep).

Lemma next_labels v : Forall P (rev (map snd (next v))).
Proof. apply Forall_forall. intros l Hl. apply in_rev in Hl. apply in_map_iff in Hl. destruct Hl as ((w & l') & E & Hl). cbn in E. subst l'. exact (HP _ _ _ Hl). Qed.
Lemma step_labels f s : labels_in s -> Forall labels_ok (outputs (step f s)) /\ match step f s with Go _ s' => labels_in s' | _ => True end.
Proof.
  destruct s as [pc sts st tv tvl mk vl tr trl ont ix0 tm dp ev vis pr lb lm ct cl]. unfold labels_in, dfs_step. cbn [f_pc f_starts f_markers f_to_visit_labels f_trace_labels f_var_labels]. intros (H1 & H2 & H3).
  assert (R : forall l, Forall P l -> Forall P (rev l)).
  { intros l Hl. apply Forall_forall. intros x Hx. apply in_rev in Hx. revert x Hx. apply Forall_forall. exact Hl. }
  destruct pc as [|no_leaving].
  - destruct sts; cbn; auto.
  - destruct mk as [|[|] m]; [cbn; auto| |].
    + unfold dfs_leave. cbn. destruct tr as [|v t]; [cbn; auto|]. destruct m as [|b m]; cbn; [auto|].
      assert (K : Forall P (tl trl)) by (destruct H2; cbn; auto).
      destruct no_leaving; cbn; (destruct trl as [|l tl]; cbn; (split; [constructor; [unfold labels_ok; cbn; try (apply (R [] H2)); exact (R _ H2)|constructor]|]); auto).
    + assert (G : forall q tvl' vl' v, Forall P tvl' -> (forall l, vl' = Some l -> P l) ->
        let s := {| f_pc := FLoop true; f_starts := sts; f_start := st; f_to_visit := q; f_to_visit_labels := tvl'; f_markers := m; f_var_labels := vl'; f_trace := tr; f_trace_labels := trl; f_on_trace := ont; f_index := ix0; f_time := tm; f_depth := dp; f_event := ev; f_visited := vis; f_pred := pr; f_labels := lb; f_limit := lm; f_count := ct; f_calls := cl |} in
        let r := if vs_mem VS v ont then dfs_revisit vid VS PM LM XM lwp_options s v true else dfs_visit V_dec vid VS PM LM XM next lwp_options f s v in
        Forall labels_ok (outputs r) /\ match r with Go _ s' => labels_in s' | _ => True end).
      { intros q tvl' vl' v T1 T2. cbn zeta. destruct (vs_mem VS v ont).
        - unfold dfs_revisit. cbn. destruct tr as [|u t]; cbn; unfold labels_in; cbn; auto.
        - set (s := {| f_pc := FLoop true; f_starts := sts; f_start := st; f_to_visit := q; f_to_visit_labels := tvl'; f_markers := m; f_var_labels := vl'; f_trace := tr; f_trace_labels := trl; f_on_trace := ont; f_index := ix0; f_time := tm; f_depth := dp; f_event := ev; f_visited := vis; f_pred := pr; f_labels := lb; f_limit := lm; f_count := ct; f_calls := cl |}).
          assert (K1 : Forall P (f_trace_labels (dfs_enter V_dec vid VS PM LM XM lwp_options s v))).
          { unfold s. cbn. destruct tr; [exact H2|]. destruct vl'; [constructor; auto|exact H2]. }
          assert (K2 : forall show : bool, Forall labels_ok (if show then [dfs_observe VS PM LM XM v (dfs_enter V_dec vid VS PM LM XM lwp_options s v)] else [])).
          { intros [|]; [constructor; [apply R; exact K1|constructor]|constructor]. }
          assert (K3 : forall c, labels_in (dfs_count VS PM LM XM (dfs_enter V_dec vid VS PM LM XM lwp_options s v) c)) by (intros c; split; [exact T1|split; [exact K1|exact T2]]).
          assert (K4 : forall lim c, labels_in (dfs_expand VS PM LM XM next lwp_options (dfs_enter V_dec vid VS PM LM XM lwp_options s v) v lim c)).
          { intros lim c. split; [cbn; apply Forall_app; split; [apply next_labels|exact T1]|]. split; [exact K1|]. cbn. intros l. destruct (rev (next v)) as [|(w & l') x] eqn:Er; [apply T2|]. intros E. injection E as <-.
            apply (HP v w). apply in_rev. rewrite Er. now left. }
          assert (K5 : let r := (let s1 := dfs_enter V_dec vid VS PM LM XM lwp_options s v in
              let show := dc_report lwp_options (if is_current_start V_dec VS PM LM XM s v then ENTERING_START else ENTERING_SUCCESSOR) in
              let o := if show then [dfs_observe VS PM LM XM v s1] else [] in
              if show && f (f_count s) then Go o (dfs_count VS PM LM XM s1 (length o))
              else match limit_check (f_limit s1) with
                   | None => Raise o RuntimeErrorLimit (dfs_count VS PM LM XM s1 (length o))
                   | Some lim => Go o (dfs_expand VS PM LM XM next lwp_options s1 v lim (length o))
                   end) in Forall labels_ok (outputs r) /\ match r with Go _ s' => labels_in s' | _ => True end).
          { cbn zeta. set (show := dc_report lwp_options _). destruct (show && f (f_count s)); [exact (conj (K2 show) (K3 _))|]. destruct (limit_check _); [exact (conj (K2 show) (K4 _ _))|exact (conj (K2 show) I)]. }
          unfold dfs_visit. change (dc_labeled lwp_options) with true. destruct (f_trace s); [exact K5|]. destruct (f_var_labels s); [exact K5|]. split; [constructor|exact I]. }
      unfold dfs_pop. cbn [f_to_visit]. destruct tv as [|v [|q0 q]]; [cbn; auto|exact (G [] tvl vl v H1 H3)|].
      cbn. destruct tvl as [|l0 tvl]; [cbn; auto|]. inversion H1; subst. apply (G (q0 :: q) tvl (Some l0) v); [assumption|]. intros l E. injection E as <-. assumption.
Qed.
Lemma run_labels f n : forall s, labels_in s -> Forall labels_ok (fst (run (step f) n s)).
Proof.
  induction n as [|n IH]; intros s Hs; [constructor|]. cbn [run]. destruct (step_labels f s Hs) as (H1 & H2). destruct (step f s) as [o s'|o s'|o x s']; cbn in *; [|exact H1|exact H1]. apply Forall_app. auto.
Qed.
Lemma init_labels : labels_in init. Proof. split; [constructor|split; [constructor|discriminate]]. Qed.
End Labels.

(** ** The program along the log *)
Definition label_at (u : V) (i : nat) : Z := match nth_error (next u) i with Some (_, l) => l | None => 0 end.
Fixpoint nweight (p : node) : Z :=
  match p with
  | (i, _) :: q => match q with (_, u) :: _ => label_at u i + nweight q | [] => 0 end
  | [] => 0
  end.
Definition goal_node (p : node) : Prop := exists j y q, p = (j, goal) :: y :: q.

Lemma node_trail p : dnode next [start] p -> forall j v q, p = (j, v) :: q -> trail next start (rev (verts p)) v (nweight p).
Proof.
  induction 1 as [k s Hk|i n l j u p Hd IH Hn]; intros j' v' q' E.
  - injection E as <- <- <-. destruct k as [|[|k]]; [|discriminate|discriminate]. injection Hk as <-. cbn. constructor.
  - injection E as <- <- <-. specialize (IH _ _ _ eq_refl). cbn [nweight verts map snd rev]. replace (label_at u i) with l by (unfold label_at; rewrite Hn; reflexivity). rewrite Z.add_comm.
    apply tr_edge with (u := u); [exact IH|]. eapply nth_error_In. exact Hn.
Qed.
Lemma trail_node vs v w : trail next start vs v w -> exists j q, dnode next [start] ((j, v) :: q) /\ rev (verts ((j, v) :: q)) = vs /\ nweight ((j, v) :: q) = w.
Proof.
  induction 1 as [|vs u w v l Ht (j & q & H1 & H2 & H3) Hin].
  - exists O, []. split; [constructor; reflexivity|auto].
  - apply In_nth_error in Hin. destruct Hin as (i & Hi). exists i, ((j, u) :: q). split; [econstructor; eassumption|]. split.
    + rewrite <- H2. reflexivity.
    + change (label_at u i + nweight ((j, u) :: q) = w + l). rewrite H3. unfold label_at. rewrite Hi. lia.
Qed.

Section Main.
Hypothesis Hpos : forall u v l, In (v, l) (next u) -> 0 <= l.
Variable P : Z -> Prop.
Hypothesis Hright : forall i n j u p l ls, dnode next [start] ((i, n) :: (j, u) :: p) -> NoDup (ids vid ((i, n) :: (j, u) :: p)) ->
  trace_labels_ok next ((i, n) :: (j, u) :: p) (l :: ls) -> P l -> nth_error (next u) i = Some (n, l).
Variable skip : nat -> bool.
Notation good_reports := (reports V_dec VS PM LM XM lwp_options skip (fun lg e p r => sees vid VS PM LM XM next [start] lwp_options None false lg e p r /\
  sees_trace vid VS PM LM XM next lwp_options None lg e p r)).

Lemma nweight_pos p : 0 <= nweight p.
Proof.
  induction p as [|(i & n) p IH]; cbn; [lia|]. destruct p as [|(j & u) p]; [lia|]. unfold label_at. destruct (nth_error (next u) i) as [(w & l)|] eqn:E; [|lia]. apply nth_error_In in E. apply Hpos in E. lia.
Qed.

Record LI (log : log_t) (p : node) (st : lwp_state) : Prop := {
  li_length : lw_length st = nweight p;
  li_best : (lw_best st = -1 /\ lw_longest st = [] /\ forall q, entered log q -> ~ goal_node q) \/
            (exists q, entered log q /\ goal_node q /\ lw_longest st = rev (verts q) /\ lw_best st = nweight q /\ forall q', entered log q' -> goal_node q' -> nweight q' <= nweight q);
  li_pruned : forall q, In (LEnter false, q) log -> goal_node q
}.

Lemma lwp_all_app a b st : lwp_all (a ++ b) st = match lwp_all a st with None => None | Some st' => lwp_all b st' end.
Proof. revert st. induction a as [|rep a IH]; intros st; cbn [app LongestModel.lwp_all]; [reflexivity|]. destruct (lwp_handle V_dec goal (fr_event rep) (fr_vertex rep) (fr_trace rep) (fr_trace_labels rep) st); [apply IH|reflexivity]. Qed.

Lemma entered_snoc (log : log_t) b p q : entered ((LEnter b, p) :: log) q <-> q = p \/ entered log q.
Proof. split; [intros (b' & [K|K]); [injection K as _ ->; now left|right; exists b'; exact K]|intros [->|(b' & K)]; [exists b; now left|exists b'; now right]]. Qed.
Lemma entered_other (log : log_t) e p q : (forall b, e <> LEnter b) -> entered ((e, p) :: log) q <-> entered log q.
Proof. intros He. split; [intros (b & [K|K]); [injection K as -> _; destruct (He b eq_refl)|exists b; exact K]|intros (b & K); exists b; now right]. Qed.
Lemma LI_keep log e x p q st st' : (forall b, e <> LEnter b) -> LI log p st -> lw_length st' = nweight q -> lw_longest st' = lw_longest st -> lw_best st' = lw_best st -> LI ((e, x) :: log) q st'.
Proof.
  intros He [H1 H2 H3] E1 E2 E3. constructor; [exact E1| |intros q' [K|K]; [injection K as K _; destruct (He _ K)|exact (H3 _ K)]]. rewrite E2, E3.
  destruct H2 as [(K1 & K2 & K3)|(y & K1 & K2 & K3 & K4 & K5)]; [left|right].
  - split; [exact K1|]. split; [exact K2|]. intros y Hy. apply K3. apply (entered_other log e x y He). exact Hy.
  - exists y. split; [apply entered_other; assumption|]. split; [exact K2|]. split; [exact K3|]. split; [exact K4|]. intros z Hz. apply K5. apply (entered_other log e x z He). exact Hz.
Qed.
Lemma own_start_simple i n j u p : dnode next [start] ((i, n) :: (j, u) :: p) -> NoDup (ids vid ((i, n) :: (j, u) :: p)) -> is_own_start V_dec ((i, n) :: (j, u) :: p) = false.
Proof.
  intros _ Hnd. unfold is_own_start. cbn [verts map snd rev]. unfold ids in Hnd. cbn [map snd] in Hnd. inversion Hnd as [|a b Hn _]; subst.
  destruct ((rev (map snd p) ++ [u]) ++ [n]) as [|s rest] eqn:E; [reflexivity|]. destruct (V_dec n s) as [->|]; [|reflexivity]. exfalso. apply Hn.
  assert (K : In s (rev (map snd p) ++ [u])). { destruct (rev (map snd p)) as [|a l]; cbn in E; injection E as -> _; now left. }
  apply in_app_or in K. destruct K as [K|[<-|[]]]; [right; apply in_rev; exact K|now left].
Qed.
(** The label that the program sees is the label of the last edge. *)
Lemma last_right i n j u p (rep : report) : dnode next [start] ((i, n) :: (j, u) :: p) -> NoDup (ids vid ((i, n) :: (j, u) :: p)) -> trace_labels_ok next ((i, n) :: (j, u) :: p) (rev (fr_trace_labels rep)) ->
  Forall P (fr_trace_labels rep) -> last_label (fr_trace_labels rep) = Some (label_at u i).
Proof.
  intros H1 H2 H3 H4. unfold last_label. inversion H3; subst. match goal with K : _ :: _ = rev _ |- _ => rename K into E end.
  assert (Hl : P l). { rewrite Forall_forall in H4. apply H4. apply in_rev. rewrite <- E. now left. }
  rewrite <- E in *. pose proof (Hright _ _ _ _ _ _ _ H1 H2 H3 Hl) as K. unfold label_at. rewrite K. reflexivity.
Qed.

Theorem lwp_log log k open : dfs_log log k open -> forall os, good_reports log os -> (forall m rep, nth_error (rev os) m = Some rep -> skip m = prunes rep) -> Forall (fun rep => Forall P (fr_trace_labels rep)) os ->
  exists st, lwp_all (rev os) lwp_init = Some st /\ LI log (top open) st.
Proof.
  induction 1 as [|log k s b Hl IH Hs Hm|log k s Hl IH Hs Hm|log k j u p r open n l b Hl IH Hn Hm|log k j u p r open n l kind Hl IH Hn Hm Hk|log k p open Hl IH]; intros os Hg Hd HF.
  - inversion Hg; subst. exists lwp_init. split; [reflexivity|]. constructor; [reflexivity| |intros q []]. left. split; [reflexivity|]. split; [reflexivity|]. intros q (b & []).
  - assert (Es : shown V_dec lwp_options (LEnter b) [(k, s)] = None). { unfold shown, event_of, is_own_start. cbn. destruct (V_dec s s); [reflexivity|congruence]. }
    inversion Hg as [|log' os' e' p' Hg' Hs' Hb'|log' os' e' j' v' p' rep' Hg' Hs' Hne]; subst; [|congruence].
    destruct (IH os Hg' Hd HF) as (st & K1 & K2). exists st. split; [exact K1|]. destruct K2 as [L1 L2 L3]. constructor; [exact L1| |intros q [K|K]; [injection K as -> _; specialize (Hb' false eq_refl); discriminate|exact (L3 q K)]].
    assert (G : forall q, entered ((LEnter b, [(k, s)]) :: log) q -> goal_node q -> entered log q).
    { intros q Hq (j & y & q' & ->). apply entered_snoc in Hq. destruct Hq as [Hq|Hq]; [discriminate|exact Hq]. }
    destruct L2 as [(T1 & T2 & T3)|(y & T1 & T2 & T3 & T4 & T5)]; [left|right].
    + split; [exact T1|]. split; [exact T2|]. intros y Hy Hy'. exact (T3 y (G y Hy Hy') Hy').
    + exists y. split; [apply entered_snoc; now right|]. split; [exact T2|]. split; [exact T3|]. split; [exact T4|]. intros z Hz Hz'. exact (T5 z (G z Hz Hz') Hz').
  - inversion Hg as [|log' os' e' p' Hg' Hs' Hb'|log' os' e' j' v' p' rep' Hg' Hs' Hne]; subst; [|cbn in Hs'; congruence].
    destruct (IH os Hg' Hd HF) as (st & K1 & K2). exists st. split; [exact K1|]. eapply LI_keep; [discriminate|exact K2| | |]; try reflexivity. exact (li_length _ _ _ K2).
  - assert (Hl' : dfs_log ((LEnter b, (r, n) :: (j, u) :: p) :: log) k (((r, n) :: (j, u) :: p, if b then edge_count next n else O) :: ((j, u) :: p, r) :: open)) by (econstructor; eassumption).
    assert (He : entered ((LEnter b, (r, n) :: (j, u) :: p) :: log) ((r, n) :: (j, u) :: p)) by (apply entered_snoc; now left).
    pose proof (entered_dnode _ _ _ _ _ _ _ Hl' _ He) as Hdn. pose proof (paths_simple _ _ _ _ _ _ Hl' _ He) as Hnd.
    assert (Es : shown V_dec lwp_options (LEnter b) ((r, n) :: (j, u) :: p) = Some ENTERING_SUCCESSOR). { unfold shown, event_of. rewrite (own_start_simple _ _ _ _ _ Hdn Hnd). reflexivity. }
    inversion Hg as [|log' os' e' p' Hg' Hs' Hb'|log' os' e' j' v' p' rep' Hg' Hs' Hne Hv Hsee Hb']; subst; [congruence|].
    inversion HF as [|x y HF1 HF2]; subst. cbn [rev] in Hd.
    destruct (IH os' Hg') as (st & K1 & K2); [|exact HF2|].
    { intros m rep Hm'. apply Hd. rewrite nth_error_app1; [exact Hm'|]. apply nth_error_Some. congruence. }
    assert (Hsk : skip (length os') = prunes rep'). { apply Hd. rewrite nth_error_app2 by (rewrite rev_length; lia). rewrite rev_length, Nat.sub_diag. reflexivity. }
    cbn [rev]. rewrite lwp_all_app, K1. cbn [LongestModel.lwp_all]. unfold lwp_handle. destruct Hsee as (_ & Hsee).
    rewrite (last_right _ _ _ _ _ rep' Hdn Hnd (st_labels _ _ _ _ _ _ _ _ _ _ _ _ Hsee eq_refl) HF1), <- Hs', Es, (st_trace _ _ _ _ _ _ _ _ _ _ _ _ Hsee). cbn [is_entering].
    destruct K2 as [L1 L2 L3]. cbn [top] in L1 |- *. assert (Ew : lw_length st + label_at u r = nweight ((r, fr_vertex rep') :: (j, u) :: p)) by (rewrite L1; cbn [nweight]; lia). rewrite Ew.
    pose proof (nweight_pos ((r, fr_vertex rep') :: (j, u) :: p)) as Hp0.
    assert (Hpr : prunes rep' = if V_dec (fr_vertex rep') goal then true else false) by (unfold lwp_prunes; rewrite <- Hs', Es; reflexivity).
    assert (Hfalse : forall q, In (LEnter false, q) ((LEnter b, (r, fr_vertex rep') :: (j, u) :: p) :: log) -> goal_node q).
    { intros q [K|K]; [|exact (L3 q K)]. injection K as -> <-. specialize (Hb' false eq_refl). rewrite Hsk, Hpr in Hb'. destruct (V_dec (fr_vertex rep') goal) as [->|]; [|discriminate]. do 3 eexists. reflexivity. }
    destruct (V_dec (fr_vertex rep') goal) as [Eg|Eg].
    + assert (Hgn : goal_node ((r, fr_vertex rep') :: (j, u) :: p)) by (rewrite Eg; do 3 eexists; reflexivity).
      destruct (lw_best st <? nweight ((r, fr_vertex rep') :: (j, u) :: p)) eqn:Elt; (eexists; split; [reflexivity|]); constructor; cbn; auto.
      * right. exists ((r, fr_vertex rep') :: (j, u) :: p). split; [exact He|]. split; [exact Hgn|]. split; [reflexivity|]. split; [reflexivity|]. intros q' Hq' Hgq'. apply entered_snoc in Hq'. apply Z.ltb_lt in Elt.
        destruct Hq' as [->|Hq']; [lia|]. destruct L2 as [(T1 & T2 & T3)|(y & T1 & T2 & T3 & T4 & T5)]; [destruct (T3 q' Hq' Hgq')|]. specialize (T5 q' Hq' Hgq'). lia.
      * apply Z.ltb_ge in Elt. destruct L2 as [(T1 & T2 & T3)|(y & T1 & T2 & T3 & T4 & T5)]; [lia|]. right. exists y. split; [apply entered_snoc; now right|]. split; [exact T2|]. split; [exact T3|]. split; [exact T4|].
        intros q' Hq' Hgq'. apply entered_snoc in Hq'. destruct Hq' as [->|Hq']; [lia|exact (T5 q' Hq' Hgq')].
    + eexists. split; [reflexivity|]. constructor; cbn; auto.
      assert (G : forall q, entered ((LEnter b, (r, fr_vertex rep') :: (j, u) :: p) :: log) q -> goal_node q -> entered log q).
      { intros q Hq (j0 & y & q' & ->). apply entered_snoc in Hq. destruct Hq as [Hq|Hq]; [injection Hq as _ Hq _ _; congruence|exact Hq]. }
      destruct L2 as [(T1 & T2 & T3)|(y & T1 & T2 & T3 & T4 & T5)]; [left|right].
      * split; [exact T1|]. split; [exact T2|]. intros y Hy Hy'. exact (T3 y (G y Hy Hy') Hy').
      * exists y. split; [apply entered_snoc; now right|]. split; [exact T2|]. split; [exact T3|]. split; [exact T4|]. intros z Hz Hz'. exact (T5 z (G z Hz Hz') Hz').
  - assert (Es : shown V_dec lwp_options (LNonTree kind) ((r, n) :: (j, u) :: p) = None) by (unfold shown, event_of; cbn; destruct kind; reflexivity).
    inversion Hg as [|log' os' e' p' Hg' Hs' Hb'|log' os' e' j' v' p' rep' Hg' Hs' Hne]; subst; [|congruence].
    destruct (IH os Hg' Hd HF) as (st & K1 & K2). exists st. split; [exact K1|]. eapply LI_keep; [discriminate|exact K2| | |]; try reflexivity. exact (li_length _ _ _ K2).
  - pose proof (open_entered _ _ _ _ _ _ _ Hl p O (or_introl eq_refl)) as He. pose proof (entered_dnode _ _ _ _ _ _ _ Hl _ He) as Hdn. pose proof (paths_simple _ _ _ _ _ _ Hl _ He) as Hnd.
    pose proof (dl_chain _ _ _ _ _ _ _ Hl) as Hch.
    assert (Ht : top open = tl p).
    { destruct p as [|x [|y p]]; [inversion Hdn| |].
      - pose proof (chain_length _ Hch _ _ _ eq_refl) as K. destruct open as [|(q & m) open]; [reflexivity|discriminate].
      - pose proof (chain_length _ Hch _ _ _ eq_refl) as K. destruct open as [|(q & m) open]; [discriminate|]. cbn [top tl]. inversion Hch; subst. congruence. }
    destruct p as [|(i & n) [|(j & u) p]]; [inversion Hdn| |].
    + inversion Hg as [|log' os' e' p' Hg' Hs' Hb'|log' os' e' j' v' p' rep' Hg' Hs' Hne]; subst; [|cbn in Hs'; congruence].
      destruct (IH os Hg' Hd HF) as (st & K1 & K2). exists st. split; [exact K1|]. rewrite Ht. eapply LI_keep; [discriminate|exact K2| | |]; try reflexivity. exact (li_length _ _ _ K2).
    + assert (Es : shown V_dec lwp_options LLeave ((i, n) :: (j, u) :: p) = Some LEAVING_SUCCESSOR) by reflexivity.
      inversion Hg as [|log' os' e' p' Hg' Hs' Hb'|log' os' e' j' v' p' rep' Hg' Hs' Hne Hv Hsee Hb']; subst; [congruence|].
      inversion HF as [|x y HF1 HF2]; subst. cbn [rev] in Hd.
      destruct (IH os' Hg') as (st & K1 & K2); [|exact HF2|].
      { intros m rep Hm'. apply Hd. rewrite nth_error_app1; [exact Hm'|]. apply nth_error_Some. congruence. }
      cbn [rev]. rewrite lwp_all_app, K1. cbn [LongestModel.lwp_all]. unfold lwp_handle. destruct Hsee as (_ & Hsee).
      rewrite (last_right _ _ _ _ _ rep' Hdn Hnd (st_labels _ _ _ _ _ _ _ _ _ _ _ _ Hsee eq_refl) HF1), <- Hs', Es. cbn [is_entering]. eexists. split; [reflexivity|]. rewrite Ht.
      eapply LI_keep; [discriminate|exact K2| | |]; try reflexivity. cbn [lw_length tl]. rewrite (li_length _ _ _ K2). cbn [top nweight]. lia.
Qed.

Lemma pruned_complete log : dfs_log log 1%nat [] -> (forall q, In (LEnter false, q) log -> goal_node q) ->
  forall p, dnode next [start] p -> NoDup (ids vid p) -> (forall d q, p = d ++ q -> d <> [] -> ~ goal_node q) -> entered log p.
Proof.
  intros Hl Hpr. induction 1 as [i s Hs|i m l j u p Hd IH Hn]; intros ND Hsk.
  - eapply paths_arrivals; eauto. apply (complete_starts vid next [start] PPaths log Hl i s Hs).
  - eapply paths_arrivals; eauto.
    destruct IH as ([|] & Hb); [inversion ND; auto|intros d q E Hne; apply (Hsk ((i, m) :: d) q); [rewrite E; reflexivity|discriminate]| |].
    + eapply closed_children; eauto.
    + exfalso. apply (Hsk [(i, m)] ((j, u) :: p)); [reflexivity|discriminate|auto].
Qed.
Lemma goal_path log k open q : dfs_log log k open -> entered log q -> goal_node q -> simple_path next start goal (rev (verts q)) (nweight q).
Proof.
  intros Hl Hq (j & y & q' & ->). pose proof (entered_dnode _ _ _ _ _ _ _ Hl _ Hq) as Hd. pose proof (paths_simple _ _ _ _ _ _ Hl _ Hq) as ND.
  split; [eapply node_trail; [exact Hd|reflexivity]|]. split; [apply NoDup_rev; exact ND|]. intros <-.
  assert (G : forall p, dnode next [start] p -> In start (verts p)).
  { induction 1 as [i s Hs|i m l j1 u p Hd' IH Hn]; [destruct i as [|[|i]]; [injection Hs as <-; now left|discriminate|discriminate]|right; exact IH]. }
  inversion ND as [|a b Hn _]; subst. apply Hn. apply (G (y :: q')). inversion Hd; subst. assumption.
Qed.
Lemma simple_complete log st vs w : dfs_log log 1%nat [] -> LI log [] st -> simple_path next start goal vs w -> exists q, entered log q /\ goal_node q /\ nweight q = w.
Proof.
  intros Hl HL (Ht & ND & Hne). destruct (trail_node vs goal w Ht) as (j & q & H1 & H2 & H3). exists ((j, goal) :: q).
  assert (ND' : NoDup (ids vid ((j, goal) :: q))). { change (ids vid ((j, goal) :: q)) with (verts ((j, goal) :: q)). rewrite <- (rev_involutive (verts _)), H2. apply NoDup_rev. exact ND. }
  split; [|split; [|exact H3]].
  - apply (pruned_complete log Hl (li_pruned _ _ _ HL) _ H1 ND'). intros d q' E Hd (j' & y & q'' & ->). destruct d as [|x d]; [congruence|]. injection E as <- E. cbn in ND'. inversion ND' as [|a b Hn _]; subst. apply Hn.
    change (In goal (map (fun e => snd e) (d ++ (j', goal) :: y :: q''))). rewrite map_app. apply in_or_app. right. now left.
  - destruct q as [|y q]; [|do 3 eexists; reflexivity]. inversion H1 as [k s Hk|]; subst. destruct j as [|[|j]]; [injection Hk as E; congruence|discriminate|discriminate].
Qed.
End Main.

(** ** The results of the program *)
Lemma lwp_cfg_ok : cfg_ok lwp_options false. Proof. exact (dfs_options_ok _ _ _ lwp_options_ok). Qed.

Theorem lwp_correct (P : Z -> Prop) : (forall u v l, In (v, l) (next u) -> 0 <= l) -> (forall u v l, In (v, l) (next u) -> P l) ->
  (forall i n j u p l ls, dnode next [start] ((i, n) :: (j, u) :: p) -> NoDup (ids vid ((i, n) :: (j, u) :: p)) ->
     trace_labels_ok next ((i, n) :: (j, u) :: p) (l :: ls) -> P l -> nth_error (next u) i = Some (n, l)) ->
  forall n out r, lwp_run n = (out, r) ->
  exists answer, out = Some answer /\ (answer = (-1, []) \/ simple_path next start goal (snd answer) (fst answer)) /\
  match r with Running _ => True | Ended _ => longest_answer next start goal answer | Raised _ _ => False end.
Proof.
  intros Hpos HP Hright n out r. unfold LongestModel.lwp_run. destruct (run lwp_step n init) as (os & r') eqn:HR. intros E. injection E as <- <-.
  pose proof (lwp_decisions n os r' HR) as HR'. pose proof (lwp_unlimited n init eq_refl) as Hu. rewrite HR in Hu. cbn [snd] in Hu.
  pose proof (dfs_any V_dec vid VS PM LM XM next [start] lwp_options (decisions os) None lwp_cfg_ok None n os r' HR') as H.
  pose proof (run_labels P HP (decisions os) n init (init_labels P)) as HF. rewrite HR' in HF. cbn [fst] in HF.
  assert (G : forall log k open, dfs_log log k open -> reports V_dec VS PM LM XM lwp_options (decisions os) (fun lg e p r => sees vid VS PM LM XM next [start] lwp_options None false lg e p r /\ sees_trace vid VS PM LM XM next lwp_options None lg e p r) log (rev os) ->
     exists st, lwp_all os lwp_init = Some st /\ LI log (top open) st).
  { intros log k open H1 H2. destruct (lwp_log Hpos P Hright (decisions os) log k open H1 (rev os) H2) as (st & K1 & K2).
    - rewrite rev_involutive. intros m rep Hm. unfold decisions. rewrite Hm. reflexivity.
    - apply Forall_rev. exact HF.
    - rewrite rev_involutive in K1. eauto. }
  assert (G' : forall log k open st, dfs_log log k open -> LI log (top open) st -> (lw_best st, lw_longest st) = (-1, []) \/ simple_path next start goal (lw_longest st) (lw_best st)).
  { intros log k open st H1 [_ [(K1 & K2 & _)|(q & K1 & K2 & K3 & K4 & _)] _]; [left; congruence|right]. rewrite K3, K4. eapply goal_path; eassumption. }
  destruct r' as [d|d|x d].
  - destruct H as (log & k & open & pend & H1 & H2). destruct (G log k open H1 (sm_reports _ _ _ _ _ _ _ _ _ _ _ _ _ _ _ _ _ H2)) as (st & K1 & K2). rewrite K1. exists (lw_best st, lw_longest st). split; [reflexivity|]. split; [eapply G'; eassumption|exact I].
  - destruct H as (log & H1 & H2). destruct (G log _ _ H1 (sm_reports _ _ _ _ _ _ _ _ _ _ _ _ _ _ _ _ _ H2)) as (st & K1 & K2). rewrite K1. exists (lw_best st, lw_longest st). split; [reflexivity|]. split; [eapply G'; eassumption|]. cbn [top] in K2.
    destruct (li_best _ _ _ K2) as [(T1 & T2 & T3)|(q & T1 & T2 & T3 & T4 & T5)].
    + left. split; [congruence|]. intros vs w Hs. destruct (simple_complete log st vs w H1 K2 Hs) as (q & Q1 & Q2 & _). exact (T3 q Q1 Q2).
    + right. cbn [fst snd]. rewrite T3, T4. split; [eapply goal_path; eassumption|]. intros vs w Hs. destruct (simple_complete log st vs w H1 K2 Hs) as (q' & Q1 & Q2 & <-). exact (T5 q' Q1 Q2).
  - destruct H as (Hx & _). destruct (Hu Hx).
Qed.

(** All edges have the same weight. *)
Theorem lwp_equal_weights c : 0 <= c -> (forall u v l, In (v, l) (next u) -> l = c) -> forall n out r, lwp_run n = (out, r) ->
  exists answer, out = Some answer /\ (answer = (-1, []) \/ simple_path next start goal (snd answer) (fst answer)) /\
  match r with Running _ => True | Ended _ => longest_answer next start goal answer | Raised _ _ => False end.
Proof.
  intros Hc Hw. apply (lwp_correct (fun l => l = c)); [intros u v l Hl; rewrite (Hw _ _ _ Hl); exact Hc|exact Hw|]. intros i n j u p l ls Hd _ _ ->. apply dnode_edge_inv in Hd. destruct Hd as (_ & l & Hl).
  rewrite Hl. apply nth_error_In in Hl. rewrite (Hw _ _ _ Hl). reflexivity.
Qed.
(** The first edge of the start vertex leads to the start vertex itself. *)
Theorem lwp_first_loop l0 rest : (forall u v l, In (v, l) (next u) -> 0 <= l) -> next start = (start, l0) :: rest -> forall n out r, lwp_run n = (out, r) ->
  exists answer, out = Some answer /\ (answer = (-1, []) \/ simple_path next start goal (snd answer) (fst answer)) /\
  match r with Running _ => True | Ended _ => longest_answer next start goal answer | Raised _ _ => False end.
Proof.
  intros Hpos Hf. apply (lwp_correct (fun _ => True)); [exact Hpos|auto|]. intros i n j u p l ls Hd Hnd Ht _. inversion Ht; subst. match goal with K : safe_edge _ _ -> _ |- _ => apply K end. right.
  clear - Hd Hnd Hf. revert i n j u Hd Hnd. induction p as [|(k & w) p IH]; intros i n j u Hd Hnd.
  - exists (i, n). split; [now left|]. cbn. intros ->. inversion Hd as [|? ? ? ? ? ? Hd' Hn]; subst. inversion Hd' as [k' s Hk|]; subst. destruct j as [|[|j]]; [injection Hk as ->|discriminate|discriminate].
    rewrite Hf in Hn. injection Hn as <- _. cbn in Hnd. inversion Hnd as [|a b Ha _]; subst. apply Ha. now left.
  - inversion Hd; subst. inversion Hnd; subst. destruct (IH j u k w) as (x & X1 & X2); [assumption|assumption|]. exists x. split; [right; exact X1|exact X2].
Qed.

(** *** Termination *)
Lemma ends_within skip B : (forall log k open, dfs_log log k open -> (length log <= B)%nat) -> forall s, snd (run (step skip) (S (3 * B + 2)) init) <> Running s.
Proof.
  intros HB.
  assert (Hgo : forall m s os log k open pend, Sim V_dec vid VS PM LM XM next [start] lwp_options skip None os log k open pend s -> (3 * (B - length log) + rank VS PM LM XM s <= m)%nat ->
     forall s', snd (run (step skip) (S m) s) <> Running s').
  { induction m as [m IH] using lt_wf_ind. intros s os log k open pend Hs Em s'.
    assert (Hx := sim_step V_dec vid VS PM LM XM next [start] lwp_options skip None lwp_cfg_ok _ _ _ _ _ _ Hs). cbn [run].
    destruct (step skip s) as [o s1|o s1|o x s1] eqn:E; [|discriminate|discriminate]. cbn [snd].
    destruct Hx as (log' & k' & open' & pend' & Hs' & Hc).
    assert (Hl : (length log <= B)%nat) by (destruct Hs as (Hl & _); eapply HB; eauto).
    assert (Hl' : (length log' <= B)%nat) by (destruct Hs' as (Hl' & _); eapply HB; eauto).
    assert (Hr : forall t : state, (rank VS PM LM XM t <= 2)%nat) by (intros t; unfold rank; destruct (f_pc t); auto; destruct (f_markers t); auto).
    assert (Hlt : (3 * (B - length log') + rank VS PM LM XM s1 < m)%nat).
    { pose proof (Hr s1). destruct Hc as [(e & ->)|(-> & Hc)]; [cbn [length] in *; lia|lia]. }
    destruct m as [|m]; [lia|]. apply (IH m (Nat.lt_succ_diag_r m) s1 _ _ _ _ _ Hs'). lia. }
  intros s. apply (Hgo (3 * B + 2)%nat init [] [] O [] None).
  - exact (sim_init V_dec vid VS PM LM XM next [start] lwp_options skip None lwp_cfg_ok None).
  - cbn [length]. assert (rank VS PM LM XM init <= 2)%nat by (unfold rank; destruct (f_pc init); auto; destruct (f_markers init); auto). lia.
Qed.

Theorem lwp_terminates l : (forall vs v w, trail next start vs v w -> In v l) -> exists n out r, lwp_run n = (out, r) /\ forall s, r <> Running s.
Proof.
  intros Hf. set (B := (2 * length (positions next [start] (S (length l))))%nat). exists (S (3 * B + 2)). unfold LongestModel.lwp_run. destruct (run lwp_step (S (3 * B + 2)) init) as (os & r) eqn:HR.
  do 2 eexists. split; [reflexivity|]. intros s. apply lwp_decisions in HR. pose proof (ends_within (decisions os) B) as K. rewrite HR in K. apply K. clear K HR.
  intros log k open Hl. eapply log_bound; eauto. eapply arrival_length; eauto. intros p Hp. eapply simple_length; [eapply paths_simple; eauto|]. intros i Hi.
  assert (Hd : dnode next [start] p) by (eapply entered_dnode; eauto). clear - Hi Hd Hf. induction Hd as [k s Hk|i0 n l0 j u p Hd IH Hn].
  - apply (Hf [start] i 0). destruct Hi as [<-|[]]. destruct k as [|[|k]]; [injection Hk as <-; constructor|discriminate|discriminate].
  - destruct Hi as [<-|Hi]; [|auto]. eapply Hf. eapply node_trail; [econstructor; [exact Hd|exact Hn]|reflexivity].
Qed.
End LongestProofs.
