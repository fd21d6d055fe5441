(** The calculation limit of the traversal for infinite branching. *)
From Coq Require Import List ZArith Bool Lia.
From Verif Require Import Machine GearSpec Common CommonProofs LimitSim LimitAll PathsModel Weight WeightSpec HeapModel DijkstraModel DijkstraLimit
  InfModel InfSpec InfGraph InfRun.
Import ListNotations.

Section InfLimit.
Context {V : Type}.
Variable V_dec : forall a b : V, {a = b} + {a <> b}.
Variable edge : V -> nat -> option (V * option Z).
Notation state := (V * nat)%type.
Notation ZI := ZInfWeights.
Notation W := (option Z).
Notation sid := (fun s : state => s).
Variable DM : DMap V W None.
Variable PM : PMap V V.
Variable DMi : DMap state W None.
Variable PMi : PMap state state.
Variable LMi : PMap state unit.
Variables build_paths store_distances : bool.
Notation nstate := (@inf_state V DM PM DMi PMi LMi).
Notation nstep := (inf_step V_dec edge DM PM DMi PMi LMi build_paths store_distances).
Notation forget := (dij_forget_limit ZI DMi PMi LMi).

(** The same state without a limit *)
Definition inf_forget_limit (s : nstate) : nstate := n_set_in DM PM DMi PMi LMi s (forget (n_in s)).

Notation handle := (inf_handle V_dec DM PM DMi PMi LMi build_paths store_distances).

Lemma handle_set s i os : handle (n_set_in DM PM DMi PMi LMi s i) os =
  match handle s os with inl (out, s1) => inl (out, n_set_in DM PM DMi PMi LMi s1 i) | inr x => inr x end.
Proof.
  destruct os as [|rep os]; simpl; auto. destruct (dr_vertex rep) as [v k]. destruct (Nat.eqb k 0); simpl; auto. destruct build_paths; simpl; auto.
  destruct (paths_predecessor _ _ _ _) as [[[p j]|]| |]; simpl; auto.
Qed.
Lemma handle_in s os out s1 : handle s os = inl (out, s1) -> n_in s1 = n_in s /\ n_iters s1 = n_iters s.
Proof.
  destruct os as [|rep os]; simpl; [intros [= <- <-]; auto|]. destruct (dr_vertex rep) as [v k]. destruct (Nat.eqb k 0); simpl; [|intros [= <- <-]; auto].
  destruct build_paths; simpl; [|intros [= <- <-]; auto]. destruct (paths_predecessor _ _ _ _) as [[[p j]|]| |]; try discriminate. intros [= <- <-]; auto.
Qed.

Notation ncalls := (fun s : nstate => length (d_calls (n_in s))).
Notation nlim := (fun s : nstate => d_limit (n_in s)).

Lemma inf_calls_mono s : ncalls s <= ncalls (result_state (nstep s)).
Proof.
  unfold result_state, inf_step. set (edges := fun st => _). unfold dij_step.
  destruct (d_pc (n_in s)) as [|v w k [|[[nn ew] l] rest]] eqn:Hpc.
  - destruct (d_heap (n_in s)) as [|[[w no] [v k]] h]; [simpl; auto|]. destruct (_ && _); [cbn; unfold inf_expanded; cbn; rewrite Hpc; cbn; auto|]. cbv zeta.
    destruct (limit_check _).
    + destruct (handle s _) as [[out s1]|x] eqn:Hh; [|cbn; auto]. unfold inf_expanded. rewrite Hpc. cbn [dij_expand d_pc].
      destruct (next_state_edges _ _ _ _ _) as [[ed it]|]; cbn; auto.
    + destruct (handle s _) as [[out s1]|x] eqn:Hh; cbn; auto.
  - cbn. unfold inf_expanded. rewrite Hpc. cbn. auto.
  - cbv zeta. destruct (w_leb _ _ _); [cbn; auto|]. destruct (_ && _); cbn; unfold inf_expanded; rewrite Hpc; cbn; auto.
Qed.

Ltac fixh := match goal with |- context [inf_handle _ _ _ _ _ _ _ _ ?a ?b] => match goal with Hh : inf_handle _ _ _ _ _ _ _ _ ?c ?d = _ |- _ => change a with c; change b with d; rewrite Hh end end.
Lemma inf_law s :
  match nstep (inf_forget_limit s) with
  | Go o t => (ncalls t = ncalls s /\ exists s', nstep s = Go o s' /\ inf_forget_limit s' = t /\ nlim s' = nlim s)
              \/ with_call nstep nlim ncalls inf_forget_limit s (Go o) o t
  | Halt o t => ncalls t = ncalls s /\ exists s', nstep s = Halt o s' /\ inf_forget_limit s' = t
  | Raise o x t => (ncalls t = ncalls s /\ exists s', nstep s = Raise o x s' /\ inf_forget_limit s' = t)
                   \/ with_call nstep nlim ncalls inf_forget_limit s (Raise o x) o t
  end.
Proof.
  destruct s as [i it dist p D calls reads]. destruct i as [pc heap no ds pr lb di de lm cl].
  unfold inf_forget_limit, with_call, dij_forget_limit, n_set_in. cbn [n_in n_iters n_distance n_pred n_distances n_calls n_reads d_pc d_heap d_no d_distances d_pred d_labels d_distance d_depth d_limit d_calls].
  unfold inf_step. cbn [n_in n_iters d_distances]. set (edges := fun st => _). unfold dij_step. cbn [d_pc d_heap d_distances].
  destruct pc as [|v w k [|[[nn ew] l] rest]].
  - destruct heap as [|[[w no'] [v k]] h].
    + cbn. split; auto. eexists. split; reflexivity.
    + destruct (negb (dc_is_tree (inf_inner_cfg build_paths)) && _).
      * cbn. left. split; auto. eexists. split; [reflexivity|]. split; reflexivity.
      * cbv zeta. cbn [d_limit dij_settle d_set_heap limit_check].
        unfold dij_settle, d_set_heap, dij_observe. cbn [d_pc d_heap d_no d_distances d_pred d_labels d_distance d_depth d_limit d_calls].
        match goal with |- context [inf_handle _ _ _ _ _ _ _ _ ?st (if 0 <? k then ?R else [])] => set (reps := if 0 <? k then R else []) end.
        match goal with |- context [inf_handle _ _ _ _ _ _ _ _ ?st reps] => set (s1 := st) end.
        match goal with |- context [limit_check lm] => set (sL := {| n_in := {| d_pc := DLoop ZI; d_heap := (w, no', (v, k)) :: h; d_no := no; d_distances := ds; d_pred := pr; d_labels := lb;
             d_distance := di; d_depth := de; d_limit := lm; d_calls := cl |}; n_iters := it; n_distance := dist; n_pred := p; n_distances := D; n_calls := calls; n_reads := reads |} : nstate) end.
        change s1 with (n_set_in DM PM DMi PMi LMi sL (forget (n_in sL))). rewrite (handle_set sL).
        destruct (handle sL reps) as [[out s2]|x] eqn:Hh.
        -- unfold inf_expanded. cbn [d_pc dij_expand]. destruct (next_state_edges V_dec edge DMi it ds v) as [[ed it']|] eqn:Hn.
           ++ right. split; [reflexivity|]. destruct (limit_check lm) as [lm'|] eqn:Hl.
              ** eexists. split; [fixh; cbn [d_pc dij_expand]; rewrite ?Hn; reflexivity|]. split; reflexivity.
              ** exists out, [], (n_set_in DM PM DMi PMi LMi s2 (dij_settle sid ZI DMi PMi LMi (inf_inner_cfg build_paths) (d_set_heap ZI DMi PMi LMi (n_in sL) h) v w k)). rewrite app_nil_r. split; [reflexivity|]. split; [fixh; reflexivity|]; destruct (handle_in _ _ _ _ Hh) as [Hi _]; reflexivity.
           ++ right. split; [reflexivity|]. destruct (limit_check lm) as [lm'|] eqn:Hl.
              ** eexists. split; [fixh; cbn [d_pc dij_expand]; rewrite ?Hn; reflexivity|]. split; reflexivity.
              ** exists out, [], (n_set_in DM PM DMi PMi LMi s2 (dij_settle sid ZI DMi PMi LMi (inf_inner_cfg build_paths) (d_set_heap ZI DMi PMi LMi (n_in sL) h) v w k)). rewrite app_nil_r. split; [reflexivity|]. split; [fixh; reflexivity|]; destruct (handle_in _ _ _ _ Hh) as [Hi _]; reflexivity.
        -- left. split; [reflexivity|]. exists sL. split; [|reflexivity]. destruct (limit_check lm); fixh; reflexivity.
  - cbn. left. split; auto. eexists. split; [reflexivity|]. split; reflexivity.
  - cbv zeta. destruct (w_leb ZI (w_inf ZI) _).
    + cbn. left. split; auto. eexists. split; reflexivity.
    + destruct (negb _ && _); cbn; left; split; auto; eexists; (split; [reflexivity|]); split; reflexivity.
Qed.

Lemma inf_limit_all starts c n os r os' r' : (0 <= c)%Z ->
  inf_run V_dec edge DM PM DMi PMi LMi build_paths store_distances starts None n = (os, r) ->
  inf_run V_dec edge DM PM DMi PMi LMi build_paths store_distances starts (Some c) n = (os', r') ->
  (Z.of_nat (ncalls (outcome_state r')) <= c)%Z /\
  ((Z.of_nat (ncalls (outcome_state r)) <= c)%Z -> os' = os /\ outcome_map inf_forget_limit r' = r) /\
  ((c < Z.of_nat (ncalls (outcome_state r)))%Z ->
     (exists s', r' = Raised RuntimeErrorLimit s') /\
     Z.of_nat (ncalls (outcome_state r')) = c /\ exists ext, os = os' ++ ext).
Proof.
  intros Hc HR HR'. eapply (limit_all nstep nlim ncalls inf_forget_limit); try eassumption; auto.
  - exact inf_calls_mono.
  - exact inf_law.
  - apply (limit_state_init (Some c)).
Qed.

(** In terms of the edges read *)
Hypothesis Hseq : edge_sequences edge.
Hypothesis Hsort : edges_sorted edge.
Hypothesis Hnn : forall v k u w, edge v k = Some (u, w) -> w_leb ZI (Some 0%Z) w = true.
Lemma inf_limit_reads starts c n os r os' r' : NoDup starts -> (0 <= c)%Z ->
  inf_run V_dec edge DM PM DMi PMi LMi build_paths store_distances starts None n = (os, r) ->
  inf_run V_dec edge DM PM DMi PMi LMi build_paths store_distances starts (Some c) n = (os', r') ->
  (Z.of_nat (length (n_reads (outcome_state r'))) <= c)%Z /\
  ((Z.of_nat (length (n_reads (outcome_state r))) <= c)%Z -> os' = os /\ outcome_map inf_forget_limit r' = r) /\
  ((c < Z.of_nat (length (n_reads (outcome_state r))))%Z ->
     (exists s', r' = Raised RuntimeErrorLimit s') /\
     Z.of_nat (length (n_reads (outcome_state r'))) = c /\ exists ext, os = os' ++ ext).
Proof.
  intros Hnd Hc HR HR'. pose proof (inf_limit_all _ _ _ _ _ _ _ Hc HR HR') as H. cbv beta in H.
  destruct (inf_is_dijkstra V_dec edge Hseq Hsort Hnn DM PM DMi PMi LMi build_paths store_distances starts Hnd _ _ _ _ HR) as (o1 & r1 & _ & _ & HS & _).
  destruct (inf_is_dijkstra V_dec edge Hseq Hsort Hnn DM PM DMi PMi LMi build_paths store_distances starts Hnd _ _ _ _ HR') as (o2 & r2 & _ & _ & HS' & _).
  rewrite (s_reads _ _ _ _ _ _ _ _ _ _ _ HS), (s_reads _ _ _ _ _ _ _ _ _ _ _ HS'), !map_length. rewrite (s_in _ _ _ _ _ _ _ _ _ _ _ HS), (s_in _ _ _ _ _ _ _ _ _ _ _ HS') in H. exact H.
Qed.
End InfLimit.
