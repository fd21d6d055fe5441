(** Infinite branching with a function that looks at the distance: if the final distances give the graph [edge], the traversal is the one for this graph. *)
From Coq Require Import List ZArith Bool Lia Arith.
From Verif Require Import Machine GearSpec Common TraversalSpec Weight WeightSpec HeapModel DijkstraModel DijkstraProofs DijkstraPaths DijkstraPlain AwareModel AwareMore
  InfModel InfSpec InfGraph InfRun InfMore InfAwareModel.
Import ListNotations.

Section InfAware.
Context {V : Type}.
Variable V_dec : forall a b : V, {a = b} + {a <> b}.
Variable f : V -> option Z -> nat -> option (V * option Z).
Variable edge : V -> nat -> option (V * option Z).
Hypothesis Hseq : edge_sequences edge.
Hypothesis Hsort : edges_sorted edge.
Hypothesis Hnn : edges_nonnegative edge.
Variable DM : DMap V (option Z) None.
Variable PM : PMap V V.
Variable DMi : DMap (V * nat) (option Z) None.
Variable PMi : PMap (V * nat) (V * nat).
Variable LMi : PMap (V * nat) unit.
Variables build_paths store_distances : bool.
Variable starts : list V.
Hypothesis Hnd : NoDup starts.
Variable lim : option Z.
Hypothesis Hf : forall v d, is_distance ZInfWeights (inf_edge edge) (fun s => In s starts) v d -> forall k, f v d k = edge v k.

Notation ZI := ZInfWeights.
Notation cfg := (inf_inner_cfg build_paths).
Notation sid := (fun s : V * nat => s).
Notation nstate := (@inf_state V DM PM DMi PMi LMi).
Notation sstarts := (map (fun v : V => (v, 0)) starts).
Notation nstep e := (inf_step V_dec e DM PM DMi PMi LMi build_paths store_distances).
Notation Rel := (Rel edge DM PM DMi PMi LMi build_paths store_distances starts).
Notation SD := (@state_dec V V_dec).

Lemma state_edges_local e1 e2 iters D st : (forall k, e1 (fst st) k = e2 (fst st) k) -> next_state_edges V_dec e1 DMi iters D st = next_state_edges V_dec e2 DMi iters D st.
Proof using. intros H. destruct st as [v k]. unfold next_state_edges. cbn [fst] in H. destruct (if Nat.eqb k 0 then Some 0 else iters v); [|reflexivity]. now rewrite H. Qed.

(** A pass only uses the edges of the vertex whose state is expanded. *)
Lemma inf_step_local e1 e2 s : (forall st, In st (dij_asks sid ZI cfg (n_in s)) -> forall k, e1 (fst st) k = e2 (fst st) k) -> nstep e1 s = nstep e2 s.
Proof using.
  intros H. unfold inf_step. cbv zeta.
  match goal with |- match ?a with _ => _ end = match ?b with _ => _ end => assert (HS : a = b) end.
  { apply (dij_local sid ZI DMi PMi LMi cfg). intros st Hst. now rewrite (state_edges_local e1 e2 _ _ _ (H st Hst)). }
  rewrite HS. clear HS. match goal with |- match ?b with _ => _ end = _ => destruct b as [o i|o i|o x i] eqn:Hst end; try reflexivity.
  match goal with |- match ?b with _ => _ end = _ => destruct b as [[out s1]|x] end; [|reflexivity].
  destruct (inf_expanded DMi PMi LMi (n_in s) i) as [st|] eqn:He; [|reflexivity].
  rewrite (state_edges_local e1 e2); [reflexivity|]. apply H. clear - Hst He.
  unfold inf_expanded in He. destruct (d_pc (n_in s)) eqn:Hpc; [|discriminate]. unfold dij_step in Hst. rewrite Hpc in Hst. unfold dij_asks. rewrite Hpc.
  destruct (d_heap (n_in s)) as [|[[w no] [v k]] h]; [discriminate|].
  match goal with |- In _ (match _ with Some _ => if ?c then _ else _ | None => _ end) => destruct c eqn:Hc end; fold (w_ltb ZI) in *.
  - inversion Hst; subst. cbn in He. rewrite Hpc in He. discriminate.
  - cbv zeta in Hst.
    change (d_limit (dij_settle sid ZI DMi PMi LMi cfg (d_set_heap ZI DMi PMi LMi (n_in s) h) v w k)) with (d_limit (n_in s)) in Hst.
    destruct (limit_check (d_limit (n_in s))); [|discriminate]. inversion Hst; subst. cbn in He. injection He as <-. now left.
Qed.

Lemma find_call (v : V) (l : list (V * option Z)) : match find (fun c => if V_dec (fst c) v then true else false) l with Some c => In (v, snd c) l | None => ~ In v (map fst l) end.
Proof using.
  induction l as [|[u d] l IH]; cbn [find map]; [intros []|]. cbn [fst]. destruct (V_dec u v) as [->|Hne]; [now left|].
  destruct (find _ l) as [c|]; [now right|]. intros [C|C]; auto.
Qed.

(** When a state is expanded, the noted distance of its vertex is the final one. *)
Lemma called_is_distance pre s i st : Rel pre s i -> In st (dij_asks sid ZI cfg i) ->
  is_distance ZI (inf_edge edge) (fun s => In s starts) (fst st) (called_distance V_dec DM PM DMi PMi LMi s (fst st)).
Proof using Hseq Hsort Hnn.
  intros [HS HB HK HJ] Hst. destruct (s_in _ _ _ _ _ _ _ _ _ _ _ HS). pose proof (b_inv _ _ _ _ _ _ _ _ _ _ _ _ _ _ _ _ _ HB) as HI.
  assert (Hset : forall X pc H D v w, Inv sid ZI DMi (snext edge) cfg (SE edge) sstarts None X pc H D -> settled sid ZI X (v, 0) w -> is_distance ZI (inf_edge edge) (fun s => In s starts) v w).
  { clear - Hseq Hsort Hnn V_dec PMi LMi. intros X pc H D v w HI Hs. apply (dist_st_iff edge Hseq Hsort Hnn starts v w).
    exact (settled_distance SD sid ZI DMi PMi LMi (snext edge) cfg eq_refl (SE edge) (SE_presents edge) (SE_nonneg edge Hseq Hsort Hnn) sstarts _ _ _ _ _ _ HI Hs). }
  unfold called_distance. pose proof (find_call (fst st) (n_calls s)) as Hc.
  destruct (find _ (n_calls s)) as [[u d]|].
  - rewrite (s_calls _ _ _ _ _ _ _ _ _ _ _ HS) in Hc. unfold base_calls in Hc. apply in_map_iff in Hc. destruct Hc as ([[[v k] w] kk] & Heq & Hin). apply filter_In in Hin.
    destruct Hin as [Hin Hk]. unfold xv in *. cbn [fst snd] in *. apply Nat.eqb_eq in Hk. subst k. injection Heq as -> ->. eapply Hset; [exact HI|]. exists (fst st, 0), kk. auto.
  - unfold dij_asks in Hst. destruct (d_pc (n_in s)) eqn:Hpc; [|destruct Hst]. destruct (d_heap (n_in s)) as [|[[w no] [v k]] h] eqn:Hh; [destruct Hst|].
    destruct (limit_check _); [|destruct Hst]. cbn [dc_is_tree inf_inner_cfg negb andb] in Hst. rename HI into HI0.
    destruct (w_ltb ZI (dm_get DMi v (d_distances (n_in s))) w) eqn:Hlt; fold (w_ltb ZI) in *.
    + exfalso. change (In st (if w_ltb ZI (dm_get DMi v (d_distances (n_in s))) w then [] else [v])) in Hst. rewrite Hlt in Hst. destruct Hst.
    + change (In st (if w_ltb ZI (dm_get DMi v (d_distances (n_in s))) w then [] else [v])) in Hst. rewrite Hlt in Hst. destruct Hst as [<-|[]]. destruct v as [v j]. cbn [fst] in *. destruct j as [|j].
      * assert (Hd : dm_get DMi (v, 0) (d_distances (n_in s)) = w) by exact (proj2 (popped_new V_dec edge Hseq Hsort Hnn DMi PMi LMi build_paths starts _ (w, no, ((v, 0), k)) h _ HI0 HK Hlt)).
        match goal with |- is_distance _ _ _ _ ?d => replace d with w by (symmetry; exact Hd) end.
        pose proof (Inv_settle SD sid ZI DMi (snext edge) cfg (SE edge) (SE_presents edge) (SE_nonneg edge Hseq Hsort Hnn) sstarts None
          (Hd0 SD sid ZI DMi PMi LMi (snext edge) cfg eq_refl (SE edge) (SE_presents edge) (SE_nonneg edge Hseq Hsort Hnn) sstarts) _ (w, no, ((v, 0), k)) h _ HI0 Hlt) as HI'.
        eapply Hset; [exact HI'|]. exists (v, 0), k. split; [now left|reflexivity].
      * exfalso. destruct (k_H _ _ _ HK (w, no, ((v, S j), k)) (or_introl eq_refl) v j eq_refl) as (u & b & a & w' & _ & _ & Hs & _).
        destruct (settled_lower edge _ _ v HK j 0) as (w0 & Hw0); [lia|eauto|]. apply Hc. rewrite (s_calls _ _ _ _ _ _ _ _ _ _ _ HS). destruct Hw0 as (x & kk & Hin & Hx). subst x.
        apply in_map_iff. exists (v, w0). split; [reflexivity|]. unfold base_calls. apply in_map_iff. exists ((v, 0), w0, kk). split; [reflexivity|]. apply filter_In. auto.
Qed.

Notation anstep := (ainf_step V_dec f DM PM DMi PMi LMi build_paths store_distances).

Lemma ainf_same n : forall pre s i, Rel pre s i -> run anstep n s = run (nstep edge) n s.
Proof using Hseq Hsort Hnn Hnd Hf.
  induction n as [|n IH]; intros pre s i HR; [reflexivity|]. cbn [run].
  assert (Hst : anstep s = nstep edge s).
  { unfold ainf_step. apply inf_step_local. intros st Hin k. apply Hf. eapply called_is_distance; [exact HR|]. destruct HR as [HS _ _ _]. now rewrite <- (s_in _ _ _ _ _ _ _ _ _ _ _ HS). }
  rewrite Hst. pose proof (step_sim V_dec edge Hseq Hsort Hnn DM PM DMi PMi LMi build_paths store_distances starts pre s i HR) as Hsim.
  destruct (dij_step _ _ _ _ _ _ _ i) as [o i'|o i'|o x i']; destruct Hsim as (s' & -> & HR'); try reflexivity. now rewrite (IH _ _ _ HR').
Qed.

Theorem ainf_is_inf n : ainf_run V_dec f DM PM DMi PMi LMi build_paths store_distances starts lim n = inf_run V_dec edge DM PM DMi PMi LMi build_paths store_distances starts lim n.
Proof using Hseq Hsort Hnn Hnd Hf. unfold ainf_run, inf_run. eapply ainf_same. apply Rel_init; auto. Qed.
End InfAware.
