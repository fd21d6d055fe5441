(** The program iterative_deepening_dfs with a single search does the same as the program with one search per depth limit. *)
From Coq Require Import List Bool Arith ZArith Lia.
From Verif Require Import Machine GearSpec Common Spec DFSModel DFSSpec DFSProofs SCCSpec IddfsSpec PruneModel PruneProofs IddfsModel IddfsProofs IddfsOneModel.
Import ListNotations.

Section IddfsOneProofs.
Context {V L : Type}.
Variable V_dec : forall a b : V, {a = b} + {a <> b}.
Variable VS : VSet V.
Variable PM : PMap V V.
Variable LM : PMap V L.
Variable XM : DMap V Z 0%Z.
Variable next : V -> list (V * L).
Variable mode : dfs_mode.
Variables starts goals : list V.
Hypothesis Hmode : mode <> DFS_TREE.
Notation report := (@dfs_report V V L VS PM LM XM).
Notation search_state := (@dfs_state V V L VS PM LM XM).
Notation vid := (fun v : V => v).
Notation cfg := (iddfs_options mode).
Notation at_limit := (@at_limit V L VS PM LM XM).
Notation scan := (iddfs_scan V_dec VS PM LM XM next goals).
Notation search := (iddfs_search V_dec VS PM LM XM next mode starts goals).
Notation iddfs := (iddfs V_dec VS PM LM XM next mode starts goals).
Notation one_step := (one_step V_dec VS PM LM XM next mode starts).
Notation one_init := (one_init VS PM LM XM mode).
Notation iddfs_one := (iddfs_one V_dec VS PM LM XM next mode starts goals).
Notation pstep D := (prune_step V_dec vid VS PM LM XM next cfg (at_limit D)).
Notation init := (dfs_init vid VS PM LM XM cfg starts None None).

(** What the two searches have in common *)
Definition alike (d1 d2 : search_state) : Prop :=
  f_pc d1 = f_pc d2 /\ f_starts d1 = f_starts d2 /\ f_to_visit d1 = f_to_visit d2 /\ f_markers d1 = f_markers d2 /\ f_trace d1 = f_trace d2 /\ f_limit d1 = None /\ f_limit d2 = None /\
  forall i, vs_mem VS i (f_on_trace d1) = vs_mem VS i (f_on_trace d2).
Definition good (d : search_state) : Prop :=
  length (filter (fun b => b) (f_markers d)) = length (f_trace d) /\ length (filter negb (f_markers d)) = length (f_to_visit d) /\
  (mode = ALL_PATHS -> NoDup (f_trace d)) /\ (forall i, vs_mem VS i (f_on_trace d) = true <-> mode = ALL_PATHS /\ In i (f_trace d)) /\ (f_pc d = FStarts -> f_markers d = []).
Definition same_reports : list report -> list report -> Prop := Forall2 (fun r1 r2 => fr_vertex r1 = fr_vertex r2 /\ fr_trace r1 = fr_trace r2).
Definition over_after (D : nat) (os : list report) (over : bool) : bool := fold_left (fun b rep => if at_limit D rep then b || has_successor VS PM LM XM next rep else b) os over.

Lemma mem_ext s1 s2 : (forall i, vs_mem VS i s1 = true <-> vs_mem VS i s2 = true) -> forall i, vs_mem VS i s1 = vs_mem VS i s2.
Proof. intros H i. specialize (H i). destruct (vs_mem VS i s1), (vs_mem VS i s2); intuition congruence. Qed.
Lemma falses {A} (l : list A) : length (filter (fun b => b) (map (fun _ => false) l)) = 0 /\ length (filter negb (map (fun _ => false) l)) = length l.
Proof. induction l as [|x l (I1 & I2)]; cbn; auto. Qed.
Lemma mode_on : (is_all_walks mode = false /\ is_dfs_tree mode = false /\ is_all_paths mode = true /\ mode = ALL_PATHS) \/ (is_all_walks mode = true /\ is_dfs_tree mode = false /\ is_all_paths mode = false /\ mode = ALL_WALKS).
Proof. destruct mode; [congruence|left; auto|right; auto]. Qed.

Definition one (d : search_state) (D : nat) (over begun : bool) : one_state VS PM LM XM := {| o_search := d; o_limit := D; o_over := over; o_begun := begun |}.

Lemma visit_alike D d1 d2 v over :
  f_pc d1 = f_pc d2 -> f_starts d1 = f_starts d2 -> f_to_visit d1 = f_to_visit d2 -> f_markers d1 = f_markers d2 -> f_trace d1 = f_trace d2 -> f_limit d1 = None -> f_limit d2 = None ->
  (forall i, vs_mem VS i (f_on_trace d1) = vs_mem VS i (f_on_trace d2)) ->
  length (filter (fun b => b) (f_markers d2)) = length (f_trace d2) -> length (filter negb (f_markers d2)) = length (f_to_visit d2) ->
  (mode = ALL_PATHS -> NoDup (f_trace d2)) -> (forall i, vs_mem VS i (f_on_trace d2) = true <-> mode = ALL_PATHS /\ In i (f_trace d2)) ->
  (mode = ALL_PATHS -> ~ In v (f_trace d2)) -> length (f_trace d2) <= D ->
  exists o1 d1' o2 d2', dfs_visit V_dec vid VS PM LM XM (one_next VS PM LM XM next d1 D) cfg (fun _ => false) d1 v = Go o1 d1' /\
    dfs_visit V_dec vid VS PM LM XM next cfg (fun _ => existsb (at_limit D) (step_reports (dfs_visit V_dec vid VS PM LM XM next cfg (fun _ => false) d2 v))) d2 v = Go o2 d2' /\
    alike d1' d2' /\ good d2' /\ same_reports o1 o2 /\ match one_called VS PM LM XM d1 d1' with Some x => one_found VS PM LM XM next d1 D over x | None => over end = over_after D o2 over.
Proof.
  intros H1 H2 H3 H4 H5 H6 H7 H8 G1 G2 G3 G4 Hv Hd.
  assert (Sh : forall d, dc_report cfg (if is_current_start V_dec VS PM LM XM d v then ENTERING_START else ENTERING_SUCCESSOR) = true) by (intros d; destruct (is_current_start V_dec VS PM LM XM d v); reflexivity).
  assert (F : forall nx f d, f_limit d = None -> dfs_visit V_dec vid VS PM LM XM nx cfg f d v =
    let s1 := dfs_enter V_dec vid VS PM LM XM cfg d v in let o := [dfs_observe VS PM LM XM v s1] in
    if f (f_count d) then Go o (dfs_count VS PM LM XM s1 1) else Go o (dfs_expand VS PM LM XM nx cfg s1 v None 1)).
  { intros nx f d Hl. unfold dfs_visit. rewrite Sh. cbn [dc_labeled iddfs_options]. cbn [dfs_enter f_limit]. rewrite Hl. cbn [limit_check andb length]. destruct (f_trace d), (f (f_count d)); reflexivity. }
  rewrite !F by assumption. cbv zeta.
  assert (A : existsb (at_limit D) (step_reports (Go [dfs_observe VS PM LM XM v (dfs_enter V_dec vid VS PM LM XM cfg d2 v)] (dfs_expand VS PM LM XM next cfg (dfs_enter V_dec vid VS PM LM XM cfg d2 v) v None 1) : step_result _ _ exn)) = (length (f_trace d2) =? D)).
  { unfold step_reports, existsb, IddfsModel.at_limit. cbn [dfs_observe dfs_enter fr_trace f_trace rev]. rewrite app_length, rev_length. cbn [length]. rewrite Nat.add_sub, orb_false_r. reflexivity. }
  change (if (fun _ : nat => false) (f_count d2) then ?a else ?b) with b. rewrite A.
  assert (C : forall nx, one_called VS PM LM XM d1 (dfs_expand VS PM LM XM nx cfg (dfs_enter V_dec vid VS PM LM XM cfg d1 v) v None 1) = Some v).
  { intros nx. unfold one_called. cbn [dfs_expand f_calls dfs_enter length]. assert (K : length (f_calls d1) <? S (length (f_calls d1)) = true) by (apply Nat.ltb_lt; lia). rewrite K. reflexivity. }
  assert (Dp : one_depth VS PM LM XM d1 v = length (f_trace d2)) by (unfold one_depth; rewrite H5; cbn; lia).
  assert (O : over_after D [dfs_observe VS PM LM XM v (dfs_enter V_dec vid VS PM LM XM cfg d2 v)] over = one_found VS PM LM XM next d1 D over v).
  { unfold over_after, one_found. cbn [fold_left]. rewrite Dp. unfold IddfsModel.at_limit, has_successor. cbn [dfs_observe dfs_enter fr_trace f_trace rev fr_vertex]. rewrite app_length, rev_length. cbn [length]. rewrite Nat.add_sub.
    destruct (length (f_trace d2) =? D) eqn:E1.
    - apply Nat.eqb_eq in E1. assert (K : length (f_trace d2) <? D = false) by (apply Nat.ltb_ge; lia). rewrite K. destruct over, (next v); reflexivity.
    - apply Nat.eqb_neq in E1. assert (K : length (f_trace d2) <? D = true) by (apply Nat.ltb_lt; lia). rewrite K. reflexivity. }
  assert (M : forall nx, alike (dfs_expand VS PM LM XM nx cfg (dfs_enter V_dec vid VS PM LM XM cfg d1 v) v None 1) (dfs_expand VS PM LM XM nx cfg (dfs_enter V_dec vid VS PM LM XM cfg d2 v) v None 1)).
  { intros nx. unfold alike. cbn [dfs_expand dfs_enter f_pc f_starts f_to_visit f_markers f_trace f_limit f_on_trace]. rewrite H2, H3, H4, H5. repeat (split; [reflexivity|]). apply mem_ext. intros i.
    destruct (_ && _); [rewrite !vs_mem_add|]; rewrite (H8 i); reflexivity. }
  assert (G : forall nx, good (dfs_expand VS PM LM XM nx cfg (dfs_enter V_dec vid VS PM LM XM cfg d2 v) v None 1)).
  { intros nx. unfold good. cbn [dfs_expand dfs_enter f_pc f_starts f_to_visit f_markers f_trace f_limit f_on_trace]. destruct (falses (nx v)) as (F1 & F2).
    rewrite !filter_app, !app_length, F1, F2, rev_length, map_length. cbn [filter negb length]. split; [lia|]. split; [lia|]. split; [intros Hm; constructor; auto|]. split; [|discriminate].
    intros i. cbn [iddfs_options dc_is_tree dc_mode dc_compute_on_trace negb andb]. destruct mode_on as [(M1 & M2 & M3 & M4)|(M1 & M2 & M3 & M4)]; rewrite M1, M3; cbn [negb andb orb].
    - rewrite vs_mem_add, G4. cbn [In]. intuition auto.
    - rewrite G4. intuition congruence. }
  destruct (length (f_trace d2) =? D) eqn:E1.
  - apply Nat.eqb_eq in E1. do 4 eexists. split; [reflexivity|]. split; [reflexivity|]. rewrite C. split; [|split; [|split]].
    + specialize (M (fun _ => [])). unfold alike in M |- *. cbn [dfs_expand dfs_count dfs_enter f_pc f_starts f_to_visit f_markers f_trace f_limit f_on_trace] in M |- *.
      unfold one_next. rewrite Dp. assert (K : length (f_trace d2) <? D = false) by (apply Nat.ltb_ge; lia). rewrite K, H7. exact M.
    + exact (G (fun _ => [])).
    + constructor; [|constructor]. cbn. rewrite H5. auto.
    + symmetry. exact O.
  - apply Nat.eqb_neq in E1. do 4 eexists. split; [reflexivity|]. split; [reflexivity|]. rewrite C. split; [|split; [|split]].
    + specialize (M next). unfold alike in M |- *. cbn [dfs_expand dfs_enter f_pc f_starts f_to_visit f_markers f_trace f_limit f_on_trace] in M |- *.
      unfold one_next. rewrite Dp. assert (K : length (f_trace d2) <? D = true) by (apply Nat.ltb_lt; lia). rewrite K. exact M.
    + exact (G next).
    + constructor; [|constructor]. cbn. rewrite H5. auto.
    + symmetry. exact O.
Qed.

Lemma not_called d1 d1' : f_calls d1' = f_calls d1 -> one_called VS PM LM XM d1 d1' = None.
Proof. intros H. unfold one_called. rewrite H, Nat.ltb_irrefl. reflexivity. Qed.

Definition popped (d : search_state) (q : list V) (m : list bool) : search_state :=
  {| f_pc := FLoop true; f_starts := f_starts d; f_start := f_start d; f_to_visit := q; f_to_visit_labels := f_to_visit_labels d; f_markers := m; f_var_labels := f_var_labels d;
     f_trace := f_trace d; f_trace_labels := f_trace_labels d; f_on_trace := f_on_trace d; f_index := f_index d; f_time := f_time d; f_depth := f_depth d; f_event := f_event d; f_visited := f_visited d;
     f_pred := f_pred d; f_labels := f_labels d; f_limit := f_limit d; f_count := f_count d; f_calls := f_calls d |}.
Lemma pop_popped d v q m : f_to_visit d = v :: q -> dfs_pop VS PM LM XM cfg d m = Some (v, popped d q m).
Proof. intros H. unfold dfs_pop. rewrite H. reflexivity. Qed.

(** One pass, except when the start vertices are used up *)
Lemma pass_alike D d1 d2 over begun : alike d1 d2 -> good d2 -> (f_pc d2 = FStarts -> f_starts d2 <> []) -> (forall rep, In rep (step_reports (pstep D d2)) -> length (fr_trace rep) <= S D) ->
  exists o1 d1' o2 d2', one_step (one d1 D over begun) = Go o1 (one d1' D (over_after D o2 over) begun) /\ pstep D d2 = Go o2 d2' /\ alike d1' d2' /\ good d2' /\ same_reports o1 o2.
Proof.
  intros (H1 & H2 & H3 & H4 & H5 & H6 & H7 & H8) (G1 & G2 & G3 & G4 & G5) Hs Hb.
  unfold IddfsOneModel.one_step. cbn [one o_search o_limit o_over o_begun]. unfold prune_step in *. unfold dfs_step in *. rewrite H1, H2. rewrite H4.
  destruct (f_pc d2) as [|nl] eqn:Epc.
  - destruct (f_starts d2) as [|v rest] eqn:Est; [destruct (Hs eq_refl eq_refl)|]. specialize (G5 eq_refl). exists []; eexists; exists []; eexists.
    split; [unfold one; rewrite not_called by reflexivity; reflexivity|]. split; [reflexivity|]. split; [|split; [|constructor]].
    + unfold alike. cbn. rewrite H3, H4, H5. auto 10.
    + unfold good. cbn. rewrite G5 in *. cbn in G1, G2 |- *. split; [exact G1|]. split; [lia|]. split; [exact G3|]. split; [exact G4|]. discriminate.
  - destruct (f_markers d2) as [|[|] m] eqn:Em.
    + exists []; eexists; exists []; eexists. split; [unfold one; rewrite not_called by reflexivity; reflexivity|]. split; [reflexivity|]. split; [|split; [|constructor]].
      * unfold alike. cbn. rewrite H3, H4, H5, H2, Em. auto 10.
      * unfold good. cbn. rewrite Em. auto.
    + (* leaving *)
      cbn [filter negb length] in G1, G2. unfold dfs_leave. rewrite H5. destruct (f_trace d2) as [|v t] eqn:Et; [cbn in G1; discriminate|]. cbn [length] in G1.
      assert (N : mode = ALL_PATHS -> NoDup t /\ ~ In v t) by (intros Hm; specialize (G3 Hm); inversion G3; auto).
      assert (K : forall d, f_on_trace (dfs_left vid VS PM LM XM cfg d nl v m t (f_trace_labels d) 0) = if is_all_paths mode then vs_discard VS v (f_on_trace d) else f_on_trace d) by reflexivity.
      assert (R : forall nl', exists o1 d1' o2 d2', Go [] (one (dfs_left vid VS PM LM XM cfg d1 nl' v m t (f_trace_labels d1) 0) D over begun) = (Go o1 (one d1' D (over_after D o2 over) begun) : step_result _ report exn) /\
        Go [] (dfs_left vid VS PM LM XM cfg d2 nl' v m t (f_trace_labels d2) 0) = (Go o2 d2' : step_result _ report exn) /\ alike d1' d2' /\ good d2' /\ same_reports o1 o2).
      { intros nl'. exists []; eexists; exists []; eexists. split; [reflexivity|]. split; [reflexivity|]. split; [|split; [|constructor]].
        - unfold alike. cbn [dfs_left f_pc f_starts f_to_visit f_markers f_trace f_limit f_on_trace]. rewrite H2, H3. repeat (split; [assumption||reflexivity|]). apply mem_ext. intros i.
          destruct (dc_compute_on_trace cfg); [rewrite !vs_mem_discard|]; rewrite (H8 i); reflexivity.
        - unfold good. cbn [dfs_left f_pc f_starts f_to_visit f_markers f_trace f_limit f_on_trace]. split; [lia|]. split; [exact G2|]. split; [intros Hm; apply N, Hm|]. split; [|discriminate].
          intros i. cbn [iddfs_options dc_compute_on_trace]. destruct mode_on as [(M1 & M2 & M3 & M4)|(M1 & M2 & M3 & M4)]; rewrite M3.
          + rewrite vs_mem_discard, G4. cbn [In]. destruct (N M4) as (N1 & N2). split; [intros (A1 & A2 & [A3|A3]); [congruence|auto]|]. intros (_ & A). split; [intros ->; contradiction|auto].
          + rewrite G4. intuition congruence. }
      destruct m as [|b m]; cbn [iddfs_options dc_report iddfs_asked dc_labeled andb length negb].
      * rewrite not_called by reflexivity. apply R.
      * rewrite not_called by reflexivity. apply R.
    + (* the next vertex *)
      cbn [filter negb length] in G1, G2. destruct (f_to_visit d2) as [|v q] eqn:Eq; [cbn in G2; discriminate|]. cbn [length] in G2.
      rewrite (pop_popped d1 v q m H3). rewrite (pop_popped d2 v q m Eq) in *. cbn [iddfs_options dc_is_tree negb dc_mode andb] in *.
      set (e1 := popped d1 q m) in *. set (e2 := popped d2 q m) in *.
      assert (Vis : (mode = ALL_PATHS -> ~ In v (f_trace d2)) -> length (f_trace d2) <= D -> exists o1 d1' o2 d2',
        match dfs_visit V_dec vid VS PM LM XM (one_next VS PM LM XM next d1 D) cfg (fun _ => false) e1 v with
        | Go o d' => Go o {| o_search := d'; o_limit := D; o_over := match one_called VS PM LM XM d1 d' with Some x => one_found VS PM LM XM next d1 D over x | None => over end; o_begun := begun |}
        | Halt o d' => Halt o {| o_search := d'; o_limit := D; o_over := match one_called VS PM LM XM d1 d' with Some x => one_found VS PM LM XM next d1 D over x | None => over end; o_begun := begun |}
        | Raise o x d' => Raise o x {| o_search := d'; o_limit := D; o_over := match one_called VS PM LM XM d1 d' with Some x => one_found VS PM LM XM next d1 D over x | None => over end; o_begun := begun |}
        end = (Go o1 (one d1' D (over_after D o2 over) begun) : step_result _ report exn) /\
        dfs_visit V_dec vid VS PM LM XM next cfg (fun _ => existsb (at_limit D) (step_reports (dfs_visit V_dec vid VS PM LM XM next cfg (fun _ => false) e2 v))) e2 v = Go o2 d2' /\ alike d1' d2' /\ good d2' /\ same_reports o1 o2).
      { intros Hv Hl. destruct (visit_alike D e1 e2 v over eq_refl H2 eq_refl eq_refl H5 H6 H7 H8 G1 ltac:(cbn; lia) G3 G4 Hv Hl) as (o1 & d1' & o2 & d2' & V1 & V2 & V3 & V4 & V5 & V6).
        exists o1, d1', o2, d2'. change (one_next VS PM LM XM next d1 D) with (one_next VS PM LM XM next e1 D). rewrite V1.
        change (one_called VS PM LM XM d1 d1') with (one_called VS PM LM XM e1 d1'). change (one_found VS PM LM XM next d1 D over) with (one_found VS PM LM XM next e1 D over). rewrite V6. auto. }
      assert (Dep : forall r, existsb (at_limit D) (step_reports (dfs_visit V_dec vid VS PM LM XM next cfg (fun _ => false) e2 v)) = r ->
        (forall rep, In rep (step_reports (dfs_visit V_dec vid VS PM LM XM next cfg (fun _ => r) e2 v)) -> length (fr_trace rep) <= S D) -> length (f_trace d2) <= D).
      { intros r _ Hr. specialize (Hr (dfs_observe VS PM LM XM v (dfs_enter V_dec vid VS PM LM XM cfg e2 v))).
        assert (In (dfs_observe VS PM LM XM v (dfs_enter V_dec vid VS PM LM XM cfg e2 v)) (step_reports (dfs_visit V_dec vid VS PM LM XM next cfg (fun _ => r) e2 v))) as Hi.
        { unfold dfs_visit. cbn [iddfs_options dc_labeled]. assert (Hlim : f_limit (dfs_enter V_dec vid VS PM LM XM cfg e2 v) = None) by exact H7. unfold iddfs_options in Hlim at 1. cbn [dc_report iddfs_options].
          destruct (is_current_start V_dec VS PM LM XM e2 v); cbn [iddfs_asked dc_report andb]; rewrite ?H7; destruct r, (f_trace e2); cbn; rewrite ?H7; cbn; auto. }
        specialize (Hr Hi). cbn in Hr. rewrite app_length, rev_length in Hr. cbn in Hr. lia. }
      destruct mode_on as [(M1 & M2 & M3 & M4)|(M1 & M2 & M3 & M4)]; rewrite M1, ?M2 in Hb |- *; cbn [negb] in Hb |- *.
      * change (f_on_trace e1) with (f_on_trace d1). change (f_on_trace e2) with (f_on_trace d2) in Hb |- *. rewrite H8. destruct (vs_mem VS v (f_on_trace d2)) eqn:Emem.
        { assert (Rv : forall d, dfs_revisit vid VS PM LM XM cfg d v true = Go [] d) by (intros d; unfold dfs_revisit; cbn; destruct (f_trace d); reflexivity).
          rewrite !Rv. exists []; exists e1; exists []; exists e2. split; [rewrite not_called by reflexivity; reflexivity|]. split; [reflexivity|]. split; [|split; [|constructor]].
          - unfold alike. cbn. auto 10.
          - unfold good. cbn. split; [exact G1|]. split; [lia|]. split; [exact G3|]. split; [exact G4|]. discriminate. }
        apply Vis; [|eapply Dep; [reflexivity|exact Hb]]. intros _ Hi. assert (vs_mem VS v (f_on_trace d2) = true) by (apply G4; auto). congruence.
      * apply Vis; [congruence|]. eapply Dep; [reflexivity|exact Hb].
Qed.

(** ** One round: the part of the single search with one depth limit *)
Lemma over_app D os1 os2 over : over_after D (os1 ++ os2) over = over_after D os2 (over_after D os1 over).
Proof. apply fold_left_app. Qed.
Lemma pstep_halt D d2 : f_pc d2 = FStarts -> f_starts d2 = [] -> pstep D d2 = Halt [] d2.
Proof. intros H1 H2. unfold prune_step, dfs_step. rewrite H1, H2. reflexivity. Qed.
Lemma pc_cases (d : search_state) : (f_pc d = FStarts /\ f_starts d = []) \/ (f_pc d = FStarts -> f_starts d <> []).
Proof. destruct (f_pc d); [destruct (f_starts d); [left; auto|right; discriminate]|right; discriminate]. Qed.

Lemma round D n : forall d1 d2 over begun os r, alike d1 d2 -> good d2 -> run (pstep D) n d2 = (os, r) -> (forall rep, In rep os -> length (fr_trace rep) <= S D) ->
  match r with
  | Running _ => exists os1 d1', run one_step n (one d1 D over begun) = (os1, Running (one d1' D (over_after D os over) begun)) /\ same_reports os1 os
  | Ended d2' => exists m os1 d1', run one_step m (one d1 D over begun) = (os1, Running (one d1' D (over_after D os over) begun)) /\ same_reports os1 os /\ alike d1' d2' /\ good d2' /\ f_pc d2' = FStarts /\ f_starts d2' = []
  | Raised _ _ => False
  end.
Proof.
  induction n as [|n IH]; intros d1 d2 over begun os r Ha Hg HR Hb; cbn [run] in HR.
  - injection HR as <- <-. exists [], d1. split; [reflexivity|constructor].
  - destruct (pc_cases d2) as [(P1 & P2)|P].
    + rewrite (pstep_halt D d2 P1 P2) in HR. injection HR as <- <-. exists 0, [], d1. split; [reflexivity|]. split; [constructor|]. auto.
    + destruct (pass_alike D d1 d2 over begun Ha Hg P) as (o1 & d1' & o2 & d2' & S1 & S2 & Ha' & Hg' & Sr).
      { intros rep Hi. apply Hb. destruct (pstep D d2) as [o s|o s|o x s]; cbn [step_reports] in Hi; injection HR as <- _; [apply in_or_app; auto|exact Hi|exact Hi]. }
      rewrite S2 in HR. destruct (run (pstep D) n d2') as (os' & r') eqn:HR'. injection HR as <- <-. cbn [fst snd] in *.
      specialize (IH d1' d2' (over_after D o2 over) begun os' r' Ha' Hg' HR' ltac:(intros rep Hi; apply Hb, in_or_app; auto)). destruct r' as [e|e|x e].
      * destruct IH as (os1 & e1 & I1 & I2). exists (o1 ++ os1), e1. cbn [run]. rewrite S1, I1, over_app. split; [reflexivity|]. apply Forall2_app; assumption.
      * destruct IH as (m & os1 & e1 & I1 & I2 & I3). exists (S m), (o1 ++ os1), e1. cbn [run]. rewrite S1, I1, over_app. split; [reflexivity|]. split; [apply Forall2_app; assumption|exact I3].
      * exact IH.
Qed.

Lemma good_init : good init.
Proof.
  unfold good. cbn. split; [reflexivity|]. split; [reflexivity|]. split; [constructor|]. split; [|reflexivity]. intros i. rewrite vs_mem_empty. intuition congruence.
Qed.
Lemma alike_init : alike init init.
Proof. unfold alike. cbn. auto 10. Qed.
(** After a round, the search is as at the begin. *)
Lemma alike_again d1 d2 : alike d1 d2 -> good d2 -> f_pc d2 = FStarts -> alike (with_starts VS PM LM XM starts d1) init.
Proof.
  intros (H1 & H2 & H3 & H4 & H5 & H6 & H7 & H8) (G1 & G2 & G3 & G4 & G5) P. specialize (G5 P). rewrite G5 in *. cbn in G1, G2. symmetry in G1, G2. apply length_zero_iff_nil in G1, G2.
  unfold alike. cbn. rewrite H1, H3, H4, H5, H6, G1, G2, P. repeat (split; [reflexivity|]). intros i. rewrite H8, vs_mem_empty. specialize (G4 i). rewrite G1 in G4. destruct (vs_mem VS i (f_on_trace d2)); [destruct (proj1 G4 eq_refl) as (_ & [])|reflexivity].
Qed.

Lemma run_short D n os r : run (pstep D) n init = (os, r) -> forall rep, In rep os -> length (fr_trace rep) <= S D.
Proof.
  intros HR rep Hi. destruct (prune_any V_dec vid VS PM LM XM next cfg (at_limit D) starts None (iddfs_cfg_ok mode Hmode) n os r HR) as (skip & log & k & open & Hc & Hl & Hg & Hr).
  destruct (proj1 (os_entries V_dec VS PM LM XM next mode starts D skip os log Hc Hg) rep Hi) as (p & P1 & P2 & _).
  pose proof (entered_short V_dec VS PM LM XM next mode starts D skip os log k open Hc Hl Hg p P1) as Hs. rewrite P2, rev_length. unfold verts. rewrite map_length. exact Hs.
Qed.

Notation gfind := (find (fun rep : report => is_goal V_dec goals (fr_vertex rep))).
Lemma scan_find D os : forall over, match gfind os with Some rep => scan D os over = inl (fr_trace rep) | None => scan D os over = inr (over_after D os over) end.
Proof.
  induction os as [|rep os IH]; intros over; cbn [find iddfs_scan]; [reflexivity|]. destruct (is_goal V_dec goals (fr_vertex rep)); [reflexivity|].
  change (over_after D (rep :: os) over) with (over_after D os (if at_limit D rep then over || has_successor VS PM LM XM next rep else over)).
  destruct (IddfsModel.at_limit VS PM LM XM D rep); apply IH.
Qed.
Lemma find_same os1 os : same_reports os1 os -> option_map fr_trace (gfind os1) = option_map fr_trace (gfind os).
Proof. induction 1 as [|r1 r2 os1 os (E1 & E2) H IH]; [reflexivity|]. cbn [find]. rewrite E1. destruct (is_goal V_dec goals (fr_vertex r2)); [cbn; congruence|exact IH]. Qed.
Lemma find_app os1 os2 : gfind (os1 ++ os2) = match gfind os1 with Some r => Some r | None => gfind os2 end.
Proof. induction os1 as [|r os1 IH]; [reflexivity|]. cbn [app find]. destruct (is_goal V_dec goals (fr_vertex r)); [reflexivity|exact IH]. Qed.

(** One round gives what one search of the other program gives. *)
Lemma round_search D n d1 : alike d1 init ->
  match search D n with
  | Found t => exists N os r rep, run one_step N (one d1 D false true) = (os, r) /\ gfind os = Some rep /\ fr_trace rep = t
  | NotFound => exists N os s, run one_step N (one d1 D false true) = (os, Ended s) /\ gfind os = None
  | GoOn => exists N os d, run one_step (S N) (one d1 D false true) = (os, Running (one d (S D) false true)) /\ gfind os = None /\ alike d init
  | Unfinished => True
  | Failed _ => False
  end.
Proof.
  intros Ha. unfold iddfs_search. destruct (run (pstep D) n init) as (os & r) eqn:HR. pose proof (round D n d1 init false true os r Ha good_init HR (run_short D n os r HR)) as Hr.
  pose proof (scan_find D os false) as Hs. destruct (gfind os) as [rep|] eqn:Ef; rewrite Hs.
  - assert (K : exists N os1 r1, run one_step N (one d1 D false true) = (os1, r1) /\ same_reports os1 os).
    { destruct r as [d|d|x d]; [destruct Hr as (os1 & e & R1 & R2)|destruct Hr as (m & os1 & e & R1 & R2 & _)|destruct Hr]; do 3 eexists; split; eassumption. }
    destruct K as (N & os1 & r1 & K1 & K2). apply find_same in K2. rewrite Ef in K2. destruct (gfind os1) as [rep1|] eqn:Ef1; [|discriminate]. injection K2 as K2. exists N, os1, r1, rep1. auto.
  - destruct r as [d|d|x d]; [exact Logic.I| |exact Hr]. destruct Hr as (m & os1 & e & R1 & R2 & R3 & R4 & R5 & R6). apply find_same in R2. rewrite Ef in R2. destruct (gfind os1) as [rep1|] eqn:Ef1; [discriminate|].
    destruct R3 as (A1 & A2 & A3). pose proof (conj A1 (conj A2 A3)) as R3.
    assert (St : one_step (one e D (over_after D os false) true) = one_resume VS PM LM XM starts (one e D (over_after D os false) true)) by (unfold IddfsOneModel.one_step; cbn [one o_search]; rewrite A1, A2, R5, R6; reflexivity).
    destruct (over_after D os false) eqn:Eo.
    + exists m, os1, (with_starts VS PM LM XM starts e). split; [|split; [exact Ef1|exact (alike_again e d R3 R4 R5)]].
      replace (S m) with (m + 1) by lia. rewrite (run_add_running _ _ _ _ _ _ R1). cbn [run]. rewrite St. cbn. rewrite app_nil_r. reflexivity.
    + exists (m + 1), os1. eexists. split; [|exact Ef1]. rewrite (run_add_running _ _ _ _ _ _ R1). cbn [run]. rewrite St. cbn. rewrite app_nil_r. reflexivity.
Qed.

(** ** The program *)
Lemma rounds_run n : forall rounds D d1, alike d1 init ->
  match iddfs rounds n D with
  | Found t => exists N os r rep, run one_step N (one d1 D false true) = (os, r) /\ gfind os = Some rep /\ fr_trace rep = t
  | NotFound => exists N os s, run one_step N (one d1 D false true) = (os, Ended s) /\ gfind os = None
  | Unfinished => (forall i, i < rounds -> search (D + i) n <> Unfinished) -> exists N os s, rounds <= N /\ run one_step N (one d1 D false true) = (os, Running s) /\ gfind os = None
  | GoOn | Failed _ => False
  end.
Proof.
  induction rounds as [|rounds IH]; intros D d1 Ha; cbn [IddfsModel.iddfs].
  - intros _. exists 0, []. eexists. split; [lia|]. split; reflexivity.
  - pose proof (round_search D n d1 Ha) as Hs. destruct (search D n) as [t| | | |x] eqn:Es; [exact Hs|exact Hs| |intros K; specialize (K 0 ltac:(lia)); rewrite Nat.add_0_r in K; congruence|exact Hs].
    destruct Hs as (N & os & d & R1 & R2 & R3). specialize (IH (S D) d R3). destruct (iddfs rounds n (S D)) as [t| | | |x].
    + destruct IH as (N' & os' & r & rep & I1 & I2 & I3). exists (S N + N'), (os ++ os'), r, rep. rewrite (run_add_running _ _ _ _ _ _ R1), I1, find_app, R2. auto.
    + destruct IH as (N' & os' & s & I1 & I2). exists (S N + N'), (os ++ os'), s. rewrite (run_add_running _ _ _ _ _ _ R1), I1, find_app, R2. auto.
    + exact IH.
    + intros K. destruct IH as (N' & os' & s & I0 & I1 & I2). { intros i Hi. specialize (K (S i) ltac:(lia)). rewrite Nat.add_succ_r in K. exact K. }
      exists (S N + N'), (os ++ os'), s. split; [lia|]. rewrite (run_add_running _ _ _ _ _ _ R1), I1, find_app, R2. auto.
    + exact IH.
Qed.

Lemma one_mono n m : n <= m -> iddfs_one n <> Unfinished -> iddfs_one m = iddfs_one n.
Proof.
  intros Hle. unfold IddfsOneModel.iddfs_one. destruct goals as [|g gs] eqn:Eg; [reflexivity|]. rewrite <- Eg. destruct (run one_step n one_init) as (os & r) eqn:HR.
  destruct r as [d|d|x d].
  - destruct (run_prefix one_step n m one_init Hle) as (ext & He). rewrite HR in He. cbn [fst] in He. destruct (run one_step m one_init) as (os' & r'). cbn [fst] in He. subst os'. rewrite find_app. destruct (gfind os); [reflexivity|congruence].
  - intros _. rewrite (run_ended_mono one_step n m one_init os d HR Hle). reflexivity.
  - intros _. rewrite (run_raised_mono one_step n m one_init os x d HR Hle). reflexivity.
Qed.
Hypothesis Hgoals : goals <> [].
Lemma one_start n : run one_step (S n) one_init = run one_step n (one init 0 false true).
Proof. cbn [run]. change (one_step one_init) with (Go [] (one init 0 false true) : step_result _ report exn). cbn iota zeta. destruct (run one_step n (one init 0 false true)); reflexivity. Qed.
Lemma one_reads n os r : run one_step n (one init 0 false true) = (os, r) -> iddfs_one (S n) = match gfind os with Some rep => Found (fr_trace rep) | None => match r with Running _ => Unfinished | Raised x _ => Failed x | Ended _ => NotFound end end.
Proof. intros H. unfold IddfsOneModel.iddfs_one. rewrite one_start, H. destruct goals; [congruence|reflexivity]. Qed.

Theorem one_same (res : @iddfs_result V) : res <> Unfinished -> (exists n, iddfs_one n = res) <-> (exists rounds n, iddfs rounds n 0 = res).
Proof.
  intros Hres.
  assert (B : forall rounds n, iddfs rounds n 0 <> Unfinished -> exists N, iddfs_one N = iddfs rounds n 0).
  { intros rounds n Hu. pose proof (rounds_run n rounds 0 init alike_init) as H. destruct (iddfs rounds n 0) as [t| | | |x].
    - destruct H as (N & os & r & rep & R1 & R2 & R3). exists (S N). rewrite (one_reads N os r R1), R2, R3. reflexivity.
    - destruct H as (N & os & s & R1 & R2). exists (S N). rewrite (one_reads N os _ R1), R2. reflexivity.
    - destruct H.
    - congruence.
    - destruct H. }
  split; [intros (n1 & H1)|intros (rounds & n & <-); exact (B rounds n Hres)].
  destruct (searches_end V_dec VS PM LM XM next mode starts goals Hmode n1 0) as (n & Hn). exists n1, n.
  assert (U : iddfs n1 n 0 <> Unfinished).
  { intros E. pose proof (rounds_run n n1 0 init alike_init) as H. rewrite E in H. destruct (H Hn) as (N & os & s & K1 & K2 & K3). pose proof (one_reads N os _ K2) as K4. rewrite K3 in K4.
    rewrite (one_mono n1 (S N)) in K4; [congruence|lia|congruence]. }
  destruct (B n1 n U) as (N & HN). rewrite <- HN. rewrite <- H1. destruct (le_ge_dec N n1) as [Hle|Hle].
  - symmetry. apply (one_mono N n1 Hle). rewrite HN. exact U.
  - apply (one_mono n1 N Hle). congruence.
Qed.
End IddfsOneProofs.

Section IddfsOneCorrect.
Context {V L : Type}.
Variable V_dec : forall a b : V, {a = b} + {a <> b}.
Variable VS : VSet V.
Variable PM : PMap V V.
Variable LM : PMap V L.
Variable XM : DMap V Z 0%Z.
Variable next : V -> list (V * L).
Variable mode : dfs_mode.
Variables starts goals : list V.
Hypothesis Hmode : mode <> DFS_TREE.
Notation E := (edge_of next).
Notation iddfs_one := (iddfs_one V_dec VS PM LM XM next mode starts goals).

Theorem one_sound n : match iddfs_one n with
  | Found t => way E starts goals t /\ forall t', way E starts goals t' -> length t <= length t'
  | NotFound => forall t, ~ way E starts goals t
  | Unfinished => True
  | GoOn | Failed _ => False
  end.
Proof.
  destruct goals as [|g gs] eqn:Eg.
  - cbn. intros t (s & w & v & _ & _ & _ & []).
  - rewrite <- Eg in *. assert (Hg : goals <> []) by congruence. assert (D : iddfs_one n = Unfinished \/ iddfs_one n <> Unfinished) by (destruct (iddfs_one n); auto; right; discriminate).
    destruct D as [->|D]; [exact Logic.I|]. destruct (proj1 (one_same V_dec VS PM LM XM next mode starts goals Hmode Hg (iddfs_one n) D) (ex_intro _ n eq_refl)) as (rounds & m & <-).
    exact (iddfs_sound V_dec VS PM LM XM next mode starts goals Hmode rounds m).
Qed.
Theorem one_finds t : way E starts goals t -> exists n t', iddfs_one n = Found t'.
Proof.
  intros Hw. assert (Hg : goals <> []) by (intros Eg; destruct Hw as (s & w & v & _ & _ & _ & H); rewrite Eg in H; exact H).
  destruct (iddfs_finds V_dec VS PM LM XM next mode starts goals Hmode t Hw) as (rounds & m & t' & H).
  destruct (proj2 (one_same V_dec VS PM LM XM next mode starts goals Hmode Hg (Found t') ltac:(discriminate)) (ex_intro _ rounds (ex_intro _ m H))) as (n & Hn). exists n, t'. exact Hn.
Qed.
Theorem one_ends l : (forall s w v, In s starts -> walk E s w v -> In v l) -> (mode = ALL_WALKS -> no_cycles E) -> exists n, iddfs_one n <> Unfinished.
Proof.
  intros Hl Hc. destruct goals as [|g gs] eqn:Eg; [exists 0; discriminate|]. rewrite <- Eg in *. assert (Hg : goals <> []) by congruence.
  destruct (iddfs_ends V_dec VS PM LM XM next mode starts goals Hmode l Hl Hc) as (rounds & m & H).
  destruct (proj2 (one_same V_dec VS PM LM XM next mode starts goals Hmode Hg _ H) (ex_intro _ rounds (ex_intro _ m eq_refl))) as (n & Hn). exists n. rewrite Hn. exact H.
Qed.
End IddfsOneCorrect.
