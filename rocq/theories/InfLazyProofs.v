(** Infinite branching with iterators that look at the traversal: the traversal is the one for the graph that the answers form. *)
From Coq Require Import List ZArith Bool Lia Arith Sorted.
From Verif Require Import Machine GearSpec Common TraversalSpec Weight WeightSpec HeapModel DijkstraModel DijkstraProofs DijkstraPaths DijkstraPlain AwareModel AwareMore
  InfModel InfSpec InfGraph InfRun InfMore InfReads InfLazyModel.
Import ListNotations.

Section InfLazy.
Context {V : Type}.
Variable V_dec : forall a b : V, {a = b} + {a <> b}.
Variable DM : DMap V (option Z) None.
Variable PM : PMap V V.
Variable DMi : DMap (V * nat) (option Z) None.
Variable PMi : PMap (V * nat) (V * nat).
Variable LMi : PMap (V * nat) unit.
Variables build_paths store_distances : bool.
Variable starts : list V.
Hypothesis Hnd : NoDup starts.
Variable lim : option Z.

Notation ZI := ZInfWeights.
Notation cfg := (inf_inner_cfg build_paths).
Notation sid := (fun s : V * nat => s).
Notation nstate := (@inf_state V DM PM DMi PMi LMi).
Notation sstarts := (map (fun v : V => (v, 0)) starts).
Notation nstep e := (inf_step V_dec e DM PM DMi PMi LMi build_paths store_distances).
Notation Rel e := (Rel e DM PM DMi PMi LMi build_paths store_distances starts).
Notation SD := (@state_dec V V_dec).
Notation ninit := (inf_init DM PM DMi PMi LMi build_paths store_distances starts lim).
Notation irun e n := (run (nstep e) n ninit).
Notation asks s := (dij_asks sid ZI cfg (n_in s)).
Notation edges := (V -> nat -> option (V * option Z)).

Definition laws (e : edges) : Prop := edge_sequences e /\ edges_sorted e /\ edges_nonnegative e.

Lemma run_snoc {S O X} (step : S -> step_result S O X) n s :
  run step (Datatypes.S n) s = match run step n s with
    | (os, Running s1) => match step s1 with Go o s' => (os ++ o, Running s') | Halt o s' => (os ++ o, Ended s') | Raise o x s' => (os ++ o, Raised x s') end
    | p => p end.
Proof using.
  replace (Datatypes.S n) with (n + 1) by lia. rewrite run_add. destruct (run step n s) as [os [s1|s1|x s1]]; try reflexivity. cbn [run]. destruct (step s1); cbn [fst snd]; rewrite ?app_nil_r; reflexivity.
Qed.

(** A pass uses the answers for the state that is expanded only. *)
Lemma step_local (e1 e2 : edges) s :
  (forall st, In st (asks s) -> next_state_edges V_dec e1 DMi (n_iters s) (d_distances (n_in s)) st = next_state_edges V_dec e2 DMi (n_iters s) (d_distances (n_in s)) st) -> nstep e1 s = nstep e2 s.
Proof using.
  intros H. unfold inf_step. cbv zeta.
  match goal with |- match ?a with _ => _ end = match ?b with _ => _ end => assert (HS : a = b) end.
  { apply (dij_local sid ZI DMi PMi LMi cfg). intros st Hst. now rewrite (H st Hst). }
  rewrite HS. clear HS. match goal with |- match ?b with _ => _ end = _ => destruct b as [o i|o i|o x i] eqn:Hst end; try reflexivity.
  match goal with |- match ?b with _ => _ end = _ => destruct b as [[out s1]|x] end; [|reflexivity].
  destruct (inf_expanded DMi PMi LMi (n_in s) i) as [st|] eqn:He; [|reflexivity].
  rewrite H; [reflexivity|]. clear - Hst He.
  unfold inf_expanded in He. destruct (d_pc (n_in s)) eqn:Hpc; [|discriminate]. unfold dij_step in Hst. rewrite Hpc in Hst. unfold dij_asks. rewrite Hpc.
  destruct (d_heap (n_in s)) as [|[[w no] [v k]] h]; [discriminate|].
  match goal with |- In _ (match _ with Some _ => if ?c then _ else _ | None => _ end) => destruct c eqn:Hc end; fold (w_ltb ZI) in *.
  - inversion Hst; subst. cbn in He. rewrite Hpc in He. discriminate.
  - cbv zeta in Hst.
    change (d_limit (dij_settle sid ZI DMi PMi LMi cfg (d_set_heap ZI DMi PMi LMi (n_in s) h) v w k)) with (d_limit (n_in s)) in Hst.
    destruct (limit_check (d_limit (n_in s))); [|discriminate]. inversion Hst; subst. cbn in He. injection He as <-. now left.
Qed.

Lemma handle_keeps s o out s' : inf_handle V_dec DM PM DMi PMi LMi build_paths store_distances s o = inl (out, s') -> n_iters s' = n_iters s /\ n_reads s' = n_reads s.
Proof using.
  unfold inf_handle. destruct o as [|rep o]; [intros [= _ <-]; auto|]. destruct (dr_vertex rep) as [v k]. destruct (negb (k =? 0)); [intros [= _ <-]; auto|]. cbv zeta.
  match goal with |- match ?m with _ => _ end = _ -> _ => destruct m end; [|discriminate]. intros [= _ <-]. auto.
Qed.

(** What a pass reads *)
Lemma step_reads (e : edges) pre s i : laws e -> Rel e pre s i ->
  (asks s = [] /\ (forall e1 e2, nstep e1 s = nstep e2 s) /\ match nstep e s with Go _ s' | Halt _ s' | Raise _ _ s' => n_reads s' = n_reads s end) \/
  (exists v k o s', asks s = [(v, k)] /\ (forall e1 e2 : edges, e1 v k = e2 v k -> nstep e1 s = nstep e2 s) /\
     nstep e s = Go o s' /\ n_reads s' = (v, k) :: n_reads s /\ ~ In (v, k) (n_reads s) /\ (forall j, k = S j -> e v j <> None) /\
     forall e1 : edges, exists o1 s1, nstep e1 s = Go o1 s1 /\ n_reads s1 = (v, k) :: n_reads s).
Proof using Hnd.
  intros (Hseq & Hsort & Hnn) HR. pose proof (step_sim V_dec e Hseq Hsort Hnn DM PM DMi PMi LMi build_paths store_distances starts pre s i HR) as Hsim.
  destruct (asks s) as [|st l] eqn:Ha.
  - left. split; [reflexivity|]. split; [intros e1 e2; apply step_local; rewrite Ha; intros st []|].
    destruct HR as [HS HB HK HJ]. pose proof (s_in _ _ _ _ _ _ _ _ _ _ _ HS) as Hi. pose proof (s_reads _ _ _ _ _ _ _ _ _ _ _ HS) as Hr. rewrite Hi in Ha.
    assert (Hc : match dij_step sid ZI DMi PMi LMi (snext e) cfg i with Go _ i' | Halt _ i' | Raise _ _ i' => d_calls i' = d_calls i end).
    { clear - Ha. unfold dij_asks in Ha. unfold dij_step. destruct (d_pc i) as [|v0 w0 k0 rest0].
      - destruct (d_heap i) as [|[[w no] [v k]] h]; [reflexivity|]. cbv zeta.
        destruct (limit_check (d_limit i)) eqn:Hl.
        + destruct (negb (dc_is_tree cfg) && w_ltb ZI (dm_get DMi v (d_distances i)) w) eqn:Hc.
          * match goal with |- context [if ?c then Go _ _ else _] => replace c with true by (symmetry; exact Hc) end. reflexivity.
          * exfalso. match type of Ha with ?l = [] => assert (Hl2 : l = [v]) end; [|rewrite Hl2 in Ha; discriminate].
            match goal with |- ?l = _ => change l with (if negb (dc_is_tree cfg) && w_ltb ZI (dm_get DMi v (d_distances i)) w then [] else [v]) end. now rewrite Hc.
        + match goal with |- context [if ?c then Go _ _ else _] => destruct c eqn:Hc end; [reflexivity|].
          change (d_limit (dij_settle sid ZI DMi PMi LMi cfg (d_set_heap ZI DMi PMi LMi i h) v w k)) with (d_limit i). rewrite Hl. reflexivity.
      - destruct rest0 as [|[[u ew] lb] rest]; [reflexivity|]. repeat match goal with |- context [if ?c then _ else _] => destruct c end; reflexivity. }
    destruct (dij_step sid ZI DMi PMi LMi (snext e) cfg i) as [o i'|o i'|o x i']; destruct Hsim as (s' & -> & HR').
    + destruct HR' as [HS' _ _ _]. rewrite (s_reads _ _ _ _ _ _ _ _ _ _ _ HS'), Hr, Hc. reflexivity.
    + rewrite (s_reads _ _ _ _ _ _ _ _ _ _ _ HR'), Hr, Hc. reflexivity.
    + rewrite (s_reads _ _ _ _ _ _ _ _ _ _ _ HR'), Hr, Hc. reflexivity.
  - right. destruct HR as [HS HB HK HJ]. pose proof (s_in _ _ _ _ _ _ _ _ _ _ _ HS) as Hi. pose proof (s_reads _ _ _ _ _ _ _ _ _ _ _ HS) as Hr.
    pose proof (b_inv _ _ _ _ _ _ _ _ _ _ _ _ _ _ _ _ _ HB) as HI. subst i. pose proof Ha as Ha0.
    unfold dij_asks in Ha. destruct (d_pc (n_in s)) eqn:Hpc; [|discriminate]. destruct (d_heap (n_in s)) as [|[[w no] [v k]] h] eqn:Hh; [discriminate|].
    destruct (limit_check (d_limit (n_in s))) as [lm|] eqn:Hl; [|discriminate]. cbn [dc_is_tree inf_inner_cfg negb andb] in Ha.
    destruct (w_ltb ZI (dm_get DMi v (d_distances (n_in s))) w) eqn:Hlt.
    + exfalso. match type of Ha with (if ?c then _ else _) = _ => assert (Hc : c = true) by exact Hlt; rewrite Hc in Ha end. discriminate.
    + match type of Ha with (if ?c then _ else _) = _ => assert (Hc : c = false) by exact Hlt; rewrite Hc in Ha end. injection Ha as <- <-.
      destruct (expand_ok V_dec e Hseq Hsort Hnn DMi PMi LMi build_paths starts (d_calls (n_in s)) (w, no, (v, k)) h (d_distances (n_in s)) (n_iters s) HI HK HJ Hlt) as (it & Hne & _ & Hrd).
      change (ev ZI (w, no, (v, k))) with v in *.
      destruct v as [v j]. cbn [fst snd] in Hrd.
      assert (HG : exists o i', dij_step sid ZI DMi PMi LMi (snext e) cfg (n_in s) = Go o i' /\ d_calls i' = ((v, j), w, k) :: d_calls (n_in s)).
      { unfold dij_step. rewrite Hpc, Hh. cbv zeta. cbn [dc_is_tree inf_inner_cfg negb andb]. rewrite Hc.
        change (d_limit (dij_settle sid ZI DMi PMi LMi cfg (d_set_heap ZI DMi PMi LMi (n_in s) h) (v, j) w k)) with (d_limit (n_in s)). rewrite Hl. eexists. eexists. split; reflexivity. }
      destruct HG as (o & i' & HG & Hcalls). rewrite HG in Hsim. destruct Hsim as (s' & Hs' & HR'). destruct HR' as [HS' _ _ _].
      pose proof (s_reads _ _ _ _ _ _ _ _ _ _ _ HS') as Hr'. pose proof (s_nodup _ _ _ _ _ _ _ _ _ _ _ HS') as Hn'. rewrite Hcalls in Hr', Hn'. cbn [map] in Hr', Hn'. rewrite <- Hr in Hr', Hn'.
      exists v, j. eexists. exists s'. split; [reflexivity|]. split.
      { intros e1 e2 He. apply step_local. intros st Hst. rewrite Ha0 in Hst. destruct Hst as [<-|[]]. unfold next_state_edges. rewrite Hrd, He. reflexivity. }
      split; [exact Hs'|]. split; [exact Hr'|]. split; [now inversion Hn'|]. split.
      2: { intros e1. clear Hr' HS' Hne HK HJ HB Hn'. unfold inf_step in Hs' |- *. cbv zeta in *. unfold dij_step in Hs' |- *. rewrite Hpc, Hh in *. cbv zeta in *. cbn [dc_is_tree inf_inner_cfg negb andb] in *. rewrite Hc in *.
        change (d_limit (dij_settle sid ZI DMi PMi LMi cfg (d_set_heap ZI DMi PMi LMi (n_in s) h) (v, j) w k)) with (d_limit (n_in s)) in *. rewrite Hl in *.
        match goal with |- exists o1 s1, match ?m with _ => _ end = _ /\ _ => destruct m as [[out s2]|xx] eqn:Hx end; [|discriminate].
        unfold inf_expanded in *. rewrite Hpc in *. cbn [d_pc dij_expand] in *. clear Hs'. unfold next_state_edges. rewrite Hrd. destruct (e1 v j) as [[u lb]|]; eexists; eexists; (split; [reflexivity|]); cbn [n_reads inf_note n_set_in fst snd n_iters];
          (assert (Hi2 : n_iters s2 = n_iters s /\ n_reads s2 = n_reads s); [|destruct Hi2 as [-> ->]; rewrite Hrd; reflexivity]); exact (handle_keeps _ _ _ _ Hx). }
      intros t ->. destruct (k_H _ _ _ HK (w, no, ((v, S t), k)) (or_introl eq_refl) v t eq_refl) as (u & b & a & w' & He & _). rewrite He. discriminate.
Qed.

Lemma rel_run (e : edges) n os s : laws e -> irun e n = (os, Running s) -> exists pre i, Rel e pre s i.
Proof using Hnd.
  intros (Hseq & Hsort & Hnn). revert os s. induction n as [|n IH]; intros os s HR.
  - cbn [run] in HR. injection HR as <- <-. eexists. eexists. apply Rel_init; auto.
  - rewrite run_snoc in HR. destruct (irun e n) as [os1 [s1|s1|x s1]]; try discriminate. destruct (IH _ _ eq_refl) as (pre & i & H).
    pose proof (step_sim V_dec e Hseq Hsort Hnn DM PM DMi PMi LMi build_paths store_distances starts pre s1 i H) as Hsim.
    destruct (dij_step _ _ _ _ _ _ _ i) as [o i'|o i'|o x i']; destruct Hsim as (s' & Hs' & HR'); rewrite Hs' in HR; try discriminate. injection HR as <- <-. eauto.
Qed.

(** A run depends on the answers that it reads only. *)
Lemma run_reads (e e' : edges) n : laws e -> (forall v k, In (v, k) (n_reads (outcome_state (snd (irun e n)))) -> e' v k = e v k) -> irun e' n = irun e n.
Proof using Hnd.
  intros HL. induction n as [|n IH]; intros H; [reflexivity|]. rewrite !run_snoc in *. destruct (irun e n) as [os [s|s|x s]] eqn:HR.
  - destruct (rel_run e n os s HL HR) as (pre & i & HRel).
    destruct (step_reads e pre s i HL HRel) as [(_ & Hloc & Hrd)|(v & k & o & s' & _ & Hloc & Hs' & Hrd & _)].
    + rewrite IH.
      * now rewrite (Hloc e' e).
      * intros v k Hin. apply H. destruct (nstep e s); cbn [snd outcome_state]; rewrite Hrd; exact Hin.
    + rewrite Hs' in *. cbn [snd outcome_state] in *. rewrite Hrd in H. rewrite IH; [|intros a b Hin; apply H; now right]. rewrite (Hloc e' e), Hs' by (apply H; now left). reflexivity.
  - rewrite IH; auto.
  - rewrite IH; auto.
Qed.

Variable g : nstate -> V -> nat -> option (V * option Z).
Notation lstep := (linf_step V_dec DM PM DMi PMi LMi g build_paths store_distances).
Notation lrun n := (run lstep n ninit).
Notation answer := (linf_answer V_dec DM PM DMi PMi LMi g build_paths store_distances).
Notation answers := (linf_answers V_dec DM PM DMi PMi LMi g build_paths store_distances).

Lemma answers_snoc n : forall s, answers (S n) s = answers n s ++ match run lstep n s with (_, Running s1) => answer s1 | _ => [] end.
Proof using.
  induction n as [|n IH]; intros s.
  - cbn [linf_answers run]. destruct (lstep s); now rewrite app_nil_r.
  - change (answers (S (S n)) s) with (answer s ++ match lstep s with Go _ s' => answers (S n) s' | _ => [] end).
    change (answers (S n) s) with (answer s ++ match lstep s with Go _ s' => answers n s' | _ => [] end).
    cbn [run]. destruct (lstep s) as [o s'|o s'|o x s']; [|now rewrite !app_nil_r|now rewrite !app_nil_r]. rewrite IH, <- app_assoc. do 2 f_equal.
    destruct (run lstep n s') as [os r]. destruct r; reflexivity.
Qed.

Lemma answers_ok_app (A B : list ((V * nat) * option (V * option Z))) : answers_ok (A ++ B) -> answers_ok A.
Proof using. intros [H1 H2]. split; intros; [eapply H1|eapply H2]; apply in_or_app; left; eauto. Qed.

Lemma lazy_graph n : answers_ok (answers n ninit) ->
  exists e : edges, laws e /\ (forall v k a, In ((v, k), a) (answers n ninit) -> e v k = a) /\ (forall v k, e v k <> None -> In (v, k) (map fst (answers n ninit))) /\
    lrun n = irun e n /\ map fst (answers n ninit) = rev (n_reads (outcome_state (snd (lrun n)))).
Proof using Hnd.
  induction n as [|n IH]; intros Hok.
  - exists (fun _ _ => None). split; [|split; [|split; [|split]]].
    + split; [intros v k _; reflexivity|]. split; intros v k u a; discriminate.
    + intros v k a [].
    + intros v k H. now elim H.
    + reflexivity.
    + reflexivity.
  - rewrite answers_snoc in *. destruct (IH (answers_ok_app _ _ Hok)) as (e & HL & HA & HN & HR & Hrd). clear IH. rewrite run_snoc.
    destruct (lrun n) as [os [s|s|x s]] eqn:Hrun; cbn [snd outcome_state] in Hrd;
      [|rewrite app_nil_r in *; exists e; rewrite run_snoc, <- HR; split; [exact HL|]; split; [exact HA|]; split; [exact HN|]; split; [reflexivity|exact Hrd]
       |rewrite app_nil_r in *; exists e; rewrite run_snoc, <- HR; split; [exact HL|]; split; [exact HA|]; split; [exact HN|]; split; [reflexivity|exact Hrd]].
    destruct (rel_run e n os s HL (eq_sym HR)) as (pre & i & HRel).
    destruct (step_reads e pre s i HL HRel) as [(_ & Hloc & Hr)|(v & k & o & s1 & _ & Hloc & Hs1 & Hr & Hnew & Hprev & Hread)].
    + assert (Hst : lstep s = nstep e s) by apply Hloc.
      assert (Han : answer s = []). { unfold linf_answer. rewrite Hst. destruct (nstep e s) as [o s'|o s'|o x s']; auto. rewrite Hr, Nat.ltb_irrefl. reflexivity. }
      rewrite Han, app_nil_r in *. exists e. split; [exact HL|]. split; [exact HA|]. split; [exact HN|]. rewrite run_snoc, <- HR, Hst. split; [reflexivity|].
      destruct (nstep e s) as [o s'|o s'|o x s']; cbn [snd outcome_state]; rewrite Hr; exact Hrd.
    + set (e' := fun a b => if SD (a, b) (v, k) then g s v k else e a b : option (V * option Z)).
      assert (E1 : e' v k = g s v k) by (unfold e'; destruct (SD (v, k) (v, k)); [reflexivity|congruence]).
      assert (E2 : forall a b, (a, b) <> (v, k) -> e' a b = e a b) by (intros a b H; unfold e'; destruct (SD (a, b) (v, k)); [contradiction|reflexivity]).
      assert (Hnot : ~ In (v, k) (map fst (answers n ninit))) by (rewrite Hrd; intros C; apply in_rev in C; auto).
      assert (Hek : e v k = None). { destruct (e v k) eqn:He; [|reflexivity]. exfalso. apply Hnot, HN. rewrite He. discriminate. }
      destruct HL as (Hseq & Hsort & Hnn).
      assert (Hst : lstep s = nstep e' s) by (apply Hloc; now rewrite E1).
      assert (Hgo : exists o' s', lstep s = Go o' s' /\ n_reads s' = (v, k) :: n_reads s /\ answer s = [((v, k), g s v k)]).
      { destruct (Hread (g s)) as (o' & s' & Hg & Hr'). exists o', s'. split; [exact Hg|]. split; [exact Hr'|]. unfold linf_answer. unfold linf_step at 1. rewrite Hg, Hr'. cbn [length].
        now rewrite (proj2 (Nat.ltb_lt _ _) (Nat.lt_succ_diag_r _)). }
      destruct Hgo as (o' & s' & Hgo & Hr' & Han). rewrite Han in *. destruct Hok as [Hok1 Hok2].
      assert (Hin' : forall a b x, e' a b = Some x -> In ((a, b), Some x) (answers n ninit ++ [((v, k), g s v k)])).
      { intros a b x Hx. destruct (SD (a, b) (v, k)) as [Heq|Hne]; apply in_or_app.
        - injection Heq as -> ->. right. left. now rewrite <- E1, Hx.
        - left. rewrite E2 in Hx by auto. assert (Hin : In (a, b) (map fst (answers n ninit))) by (apply HN; rewrite Hx; discriminate).
          apply in_map_iff in Hin. destruct Hin as ([[a' b'] y] & Heq & Hin). cbn [fst] in Heq. injection Heq as -> ->. rewrite (HA a b y Hin) in Hx. now rewrite <- Hx. }
      assert (HL' : laws e').
      { split; [|split].
        - intros a b Hb. destruct (SD (a, b) (v, k)) as [Heq|Hne].
          + injection Heq as -> ->. rewrite E2; [now apply Hseq|]. intros Heq. injection Heq as Heq. lia.
          + rewrite E2 in Hb by auto. destruct (SD (a, S b) (v, k)) as [Heq|Hne2]; [|rewrite E2 by auto; now apply Hseq].
            exfalso. injection Heq as -> <-. now apply (Hprev b).
        - intros a b u x u' y H1 H2. eapply Hok2; apply Hin'; eauto.
        - intros a b u x H1. eapply Hok1. apply Hin'. eauto. }
      assert (Hsame : irun e' n = irun e n).
      { apply run_reads; [split; [exact Hseq|split; [exact Hsort|exact Hnn]]|]. intros a b Hin. apply E2. intros Heq. apply Hnew. rewrite <- HR in Hin. cbn [snd outcome_state] in Hin. now rewrite <- Heq. }
      exists e'. split; [exact HL'|]. split; [|split; [|split]].
      * intros a b x Hin. apply in_app_or in Hin. destruct Hin as [Hin|[Hin|[]]].
        -- rewrite E2; [now apply HA|]. intros Heq. apply Hnot. rewrite <- Heq. apply in_map_iff. exists ((a, b), x). auto.
        -- injection Hin as -> -> <-. exact E1.
      * intros a b Hx. destruct (e' a b) as [x|] eqn:Hx'; [|contradiction]. apply in_map_iff. exists ((a, b), Some x). split; [reflexivity|]. auto.
      * rewrite run_snoc, Hsame, <- HR, Hst. reflexivity.
      * rewrite Hgo. cbn [snd outcome_state]. rewrite Hr', map_app. cbn [map rev fst]. now rewrite Hrd.
Qed.

Theorem lazy_is_inf n : answers_ok (linf_answers_of V_dec DM PM DMi PMi LMi g build_paths store_distances starts lim n) ->
  NoDup (map fst (linf_answers_of V_dec DM PM DMi PMi LMi g build_paths store_distances starts lim n)) /\
  exists e : edges, edge_sequences e /\ edges_sorted e /\ edges_nonnegative e /\
    (forall v k a, In ((v, k), a) (linf_answers_of V_dec DM PM DMi PMi LMi g build_paths store_distances starts lim n) -> e v k = a) /\
    (forall v k x, e v k = Some x -> In ((v, k), Some x) (linf_answers_of V_dec DM PM DMi PMi LMi g build_paths store_distances starts lim n)) /\
    linf_run V_dec DM PM DMi PMi LMi g build_paths store_distances starts lim n = inf_run V_dec e DM PM DMi PMi LMi build_paths store_distances starts lim n.
Proof using Hnd.
  intros Hok. destruct (lazy_graph n Hok) as (e & (H1 & H2 & H3) & HA & HN & HR & Hrd). unfold linf_answers_of. split.
  - rewrite Hrd. apply NoDup_rev. unfold linf_run in *. rewrite HR. destruct (irun e n) as [os r] eqn:Hrun. cbn [snd].
    exact (proj1 (inf_reads V_dec e H1 H2 H3 DM PM DMi PMi LMi build_paths store_distances starts Hnd lim n os r Hrun)).
  - exists e. split; [exact H1|]. split; [exact H2|]. split; [exact H3|]. split; [exact HA|]. split; [|exact HR].
    intros v k x Hx. assert (Hin : In (v, k) (map fst (answers n ninit))) by (apply HN; rewrite Hx; discriminate).
    apply in_map_iff in Hin. destruct Hin as ([[a b] y] & Heq & Hin). cbn [fst] in Heq. injection Heq as -> ->. rewrite (HA v k y Hin) in Hx. now rewrite <- Hx.
Qed.

(** Each answer is given in some state. *)
Lemma answers_from n : forall s v k a, In ((v, k), a) (answers n s) -> exists s', a = g s' v k.
Proof using.
  induction n as [|n IH]; intros s v k a Hin; [destruct Hin|]. cbn [linf_answers] in Hin. apply in_app_or in Hin. destruct Hin as [Hin|Hin].
  - exists s. unfold linf_answer in Hin. destruct (lstep s) as [o s'|o s'|o x s']; try destruct Hin. destruct (_ <? _); [|destruct Hin]. destruct (n_reads s') as [|[v' k'] l]; [destruct Hin|].
    destruct Hin as [Hin|[]]. now injection Hin as <- <- <-.
  - destruct (lstep s) as [o s'|o s'|o x s']; try destruct Hin. eauto.
Qed.

Theorem lazy_reports n os r : let A := linf_answers_of V_dec DM PM DMi PMi LMi g build_paths store_distances starts lim n in
  let E := fun v w u => exists k, In ((v, k), Some (u, w)) A in
  answers_ok A -> linf_run V_dec DM PM DMi PMi LMi g build_paths store_distances starts lim n = (os, r) ->
  NoDup (map nr_vertex os) /\
  StronglySorted (fun a b => w_leb ZI (nr_distance a) (nr_distance b) = true) os /\
  (forall rep, In rep os -> ~ In (nr_vertex rep) starts /\ is_distance ZI E (fun s => In s starts) (nr_vertex rep) (nr_distance rep)) /\
  (forall s, r = Ended s -> forall v, wreachable ZI E (fun s => In s starts) v -> In v starts \/ In v (map nr_vertex os)) /\
  (forall v d, In (v, d) (n_calls (outcome_state r)) -> is_distance ZI E (fun s => In s starts) v d) /\
  NoDup (map fst (n_calls (outcome_state r))).
Proof using Hnd.
  intros A E Hok HR. destruct (lazy_is_inf n Hok) as (_ & e & H1 & H2 & H3 & HA & HN & Hrun). fold A in HA, HN. rewrite HR in Hrun. symmetry in Hrun.
  assert (HE : forall v w u, inf_edge e v w u <-> E v w u). { intros v w u. split; intros (k & Hk); exists k; [now apply HN|now apply HA]. }
  assert (HW : forall a p b, wwalk ZI (inf_edge e) a p b <-> wwalk ZI E a p b).
  { intros a p b. split; induction 1; econstructor; eauto; now apply HE. }
  assert (HD : forall v d, is_distance ZI (inf_edge e) (fun s => In s starts) v d -> is_distance ZI E (fun s => In s starts) v d).
  { intros v d [(s & p & Hs & Hw & Hp) Hmin]. split; [exists s, p; split; [exact Hs|split; [now apply HW|exact Hp]]|]. intros s' p' Hs' Hw'. apply (Hmin s'); [exact Hs'|now apply HW]. }
  destruct (inf_reports V_dec e H1 H2 H3 DM PM DMi PMi LMi build_paths store_distances starts Hnd lim n os r Hrun) as (R1 & R2 & R3 & R4).
  destruct (inf_reads V_dec e H1 H2 H3 DM PM DMi PMi LMi build_paths store_distances starts Hnd lim n os r Hrun) as (_ & C1 & C2 & _).
  split; [exact R1|]. split; [exact R2|]. split; [|split; [|split; [auto|exact C1]]].
  - intros rep Hin. destruct (R3 rep Hin) as (Hs & Hd & _). auto.
  - intros s Hs v (s0 & p & Hs0 & Hw). apply (R4 s Hs). exists s0, p. split; [exact Hs0|now apply HW].
Qed.
End InfLazy.
