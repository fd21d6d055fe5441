(** The traversal for infinite branching: the calls of the neighbor function and the elements read from its iterators. *)
From Coq Require Import List ZArith Bool Lia Arith Permutation Sorted.
From Verif Require Import Machine GearSpec Spec Common CommonProofs TraversalSpec PathsModel Weight WeightSpec HeapModel HeapProofs DijkstraModel DijkstraProofs DijkstraPaths DijkstraPlain DijkstraMore
  InfModel InfSpec InfGraph InfRun InfMore.
Import ListNotations.

Section InfReads.
Context {V : Type}.
Variable V_dec : forall a b : V, {a = b} + {a <> b}.
Variable edge : V -> nat -> option (V * option Z).
Notation state := (V * nat)%type.
Notation ZI := ZInfWeights.
Notation W := (option Z).
Notation add := (w_add ZI).
Notation leb := (w_leb ZI).
Notation ltb := (w_ltb ZI).
Notation wt := (walk_weight ZI).
Hypothesis Hseq : edge_sequences edge.
Hypothesis Hsort : edges_sorted edge.
Hypothesis Hnn : forall v k u w, edge v k = Some (u, w) -> leb (Some 0%Z) w = true.
Variable DM : DMap V W None.
Variable PM : PMap V V.
Variable DMi : DMap state W None.
Variable PMi : PMap state state.
Variable LMi : PMap state unit.
Variables build_paths store_distances : bool.
Variable starts : list V.
Hypothesis Hnd : NoDup starts.

Notation cfg := (inf_inner_cfg build_paths).
Notation sstarts := (map (fun v : V => (v, 0)) starts).
Notation sid := (fun s : state => s).
Notation snext := (snext edge).
Notation E := (inf_edge edge).
Notation SE := (SE edge).
Notation before := (before edge).
Notation SD := (@state_dec V V_dec).
Notation nreport := (@inf_report V DM PM).
Notation St := (fun v => In v starts).
Notation irun := (inf_run V_dec edge DM PM DMi PMi LMi build_paths store_distances starts).
Notation settled := (settled sid ZI).
Notation xpos := (xpos ZI). Notation xv := (xv ZI).

Let Hpres := SE_presents edge.
Let Hsnn := SE_nonneg edge Hseq Hsort Hnn.
Let Htree : dc_is_tree cfg = false := eq_refl.
Let Hd0' : forall i, is_start sid sstarts i -> leb (w_zero ZI) (d0 sid ZI DMi cfg sstarts None i) = true := Hd0 SD sid ZI DMi PMi LMi snext cfg Htree SE Hpres Hsnn sstarts.

(** The distance of a state of a vertex *)
Lemma state_distance v k w : is_distance ZI SE (is_start sid sstarts) (v, k) w -> w <> None ->
  exists a d, before v k = Some a /\ is_distance ZI E St v d /\ w = add a d.
Proof.
  intros [(st & p & Hs & Hp & Hw) Hm] Hf. apply sst_iff in Hs. destruct (state_walk edge Hseq Hsort Hnn starts st p v k Hs Hp) as (s & q & a & H1 & H2 & H3 & H4).
  exists a, (wt q). split; auto. split; [|congruence]. split; [exists s, q; auto|]. intros s' q' Hs' Hq'.
  destruct (walk_up edge Hseq Hsort Hnn s' q' v Hq') as (p1 & Hp1 & Hw1).
  destruct (walk_along edge Hseq Hsort Hnn v k a H3) as (p2 & Hp2 & Hw2).
  assert (Hle : leb w (wt (p1 ++ p2)) = true). { apply (Hm (s', 0)); [now apply sst_base|]. eapply wwalk_app; eauto. }
  unfold walk_weight in Hle. rewrite fold_left_app, Hw2, Hw1 in Hle. fold (wt q') in Hle. rewrite <- Hw, H4 in Hle.
  rewrite <- Hw, H4 in Hf. destruct a as [a|]; [|destruct (wt q); simpl in *; congruence]. destruct (wt q) as [x|], (wt q') as [y|]; simpl in *; auto; try congruence.
  apply Z.leb_le in Hle. apply Z.leb_le. lia.
Qed.

Section Run.
Variable lim : option Z.
Variable n : nat.
Variables (os' : list nreport) (r' : outcome (@inf_state V DM PM DMi PMi LMi) exn).
Hypothesis HR : irun lim n = (os', r').
Notation reads := (n_reads (outcome_state r')).
Notation calls := (n_calls (outcome_state r')).

Theorem inf_reads :
  NoDup reads /\ NoDup (map fst calls) /\
  (forall v d, In (v, d) calls -> is_distance ZI E St v d) /\
  (forall v, In v (map fst calls) <-> In (v, 0) reads) /\
  (forall v j, In (v, S j) reads -> exists u b d, edge v j = Some (u, b) /\ is_distance ZI E St v d /\
     forall x dx, is_distance ZI E St x dx -> ~ In x starts -> ~ In x (map nr_vertex os') -> leb (add b d) dx = true) /\
  (forall s, r' = Ended s -> forall v, wreachable ZI E St v -> In (v, 0) reads /\ forall k, edge v k <> None -> In (v, S k) reads).
Proof.
  destruct (run_dij V_dec edge Hseq Hsort Hnn DM PM DMi PMi LMi build_paths store_distances starts Hnd lim n os' r' HR) as (os & r & Hd & Hos' & HS & Hk).
  destruct (dij_any SD sid ZI DMi PMi LMi snext cfg Htree SE Hpres Hsnn sstarts None lim Hd0' n os r Hd) as (X & pc & HB & Hany). cbv zeta in HB.
  pose proof (b_inv _ _ _ _ _ _ _ _ _ _ _ _ _ _ _ _ _ HB) as HI. pose proof (b_os _ _ _ _ _ _ _ _ _ _ _ _ _ _ _ _ _ HB) as Hos.
  set (C := d_calls (outcome_state r)) in *.
  assert (HC : forall x, In x C -> In x X).
  { intros x Hx. unfold C in Hx. destruct r as [s|s|x0 s]; cbn [outcome_state] in *; [destruct Hany as [-> _]; auto|destruct Hany as [-> _]; auto|].
    destruct Hany as [(_ & _ & e & ->)|(_ & -> & _)]; auto. now right. }
  pose proof (s_nodup _ _ _ _ _ _ _ _ _ _ _ HS) as Hnodup. fold C in Hnodup.
  assert (Hreads : reads = map xv C) by exact (s_reads _ _ _ _ _ _ _ _ _ _ _ HS).
  assert (Hcalls : calls = base_calls C) by exact (s_calls _ _ _ _ _ _ _ _ _ _ _ HS).
  assert (Hset : forall st w k, In (st, w, k) C -> is_distance ZI SE (is_start sid sstarts) st w /\ w <> None /\ settled X st w).
  { intros st w k Hin. apply HC in Hin. assert (Hst : settled X st w) by (exists st, k; auto). split.
    - exact (settled_distance SD sid ZI DMi PMi LMi snext cfg Htree SE Hpres Hsnn sstarts _ _ _ _ _ _ HI Hst).
    - split; auto. pose proof (i_impX _ _ _ _ _ _ _ _ _ _ _ _ HI _ _ _ Hin) as Hi. apply (imp_lt_inf SD sid ZI DMi PMi LMi snext cfg Htree SE Hpres Hsnn sstarts) in Hi. destruct w; [discriminate|discriminate Hi]. }
  assert (Hcin : forall v d, In (v, d) (base_calls C) <-> exists k, In ((v, 0), d, k) C).
  { intros v d. unfold base_calls. rewrite in_map_iff. split.
    - intros ([[[v' j] w'] k] & Heq & Hin). apply filter_In in Hin. destruct Hin as [Hin Hb]. unfold DijkstraProofs.xv in *. cbn [fst snd] in *. apply Nat.eqb_eq in Hb. subst j. injection Heq as <- <-. eauto.
    - intros (k & Hin). exists ((v, 0), d, k). split; auto. apply filter_In. auto. }
  split; [now rewrite Hreads|]. split.
  { rewrite Hcalls. unfold base_calls. clear - Hnodup. induction C as [|[[[v j] w] k] C IH]; cbn [map filter] in *; [constructor|]. unfold DijkstraProofs.xv in *. cbn [fst snd] in *.
    inversion Hnodup as [|? ? Hx Hn]; subst. destruct (Nat.eqb_spec j 0) as [->|Hj]; [|auto]. cbn [map fst snd]. constructor; [|auto].
    intros Hin. apply Hx. apply in_map_iff in Hin. destruct Hin as (y & Hy & Hin). apply in_map_iff in Hin. destruct Hin as ([[[v' j'] w'] k'] & <- & Hin). apply filter_In in Hin. destruct Hin as [Hin Hb].
    cbn [fst snd] in *. apply Nat.eqb_eq in Hb. subst. apply in_map_iff. exists ((v, 0), w', k'). auto. }
  split; [|split; [|split]].
  - intros v d Hin. rewrite Hcalls in Hin. apply Hcin in Hin. destruct Hin as (k & Hin). apply (dist_st_iff edge Hseq Hsort Hnn starts). now apply (Hset (v, 0) d k).
  - intros v. rewrite Hcalls, Hreads. rewrite !in_map_iff. split.
    + intros ([v' d] & <- & Hin). apply Hcin in Hin. destruct Hin as (k & Hin). exists ((v', 0), d, k). auto.
    + intros ([[st d] k] & Hv & Hin). unfold DijkstraProofs.xv in Hv. cbn [fst] in Hv. subst st. exists (v, d). split; auto. apply Hcin. eauto.
  - intros v j Hin. rewrite Hreads in Hin. apply in_map_iff in Hin. destruct Hin as ([[st w] k] & Hv & Hin). unfold DijkstraProofs.xv in Hv. cbn [fst] in Hv. subst st.
    destruct (Hset _ _ _ Hin) as (Hdist & Hf & Hst). destruct (state_distance v (S j) w Hdist Hf) as (b & d & Hb & Hdv & ->). cbn [InfGraph.before] in Hb.
    destruct (edge v j) as [[u b']|] eqn:He; [|discriminate]. injection Hb as ->. exists u, b, d. split; auto. split; auto.
    intros x dx Hdx Hxs Hxr. apply (dist_st_iff edge Hseq Hsort Hnn starts) in Hdx. destruct Hdx as [(s0 & p & Hs0 & Hp & Hwp) _].
    destruct (walk_imp SD sid ZI DMi PMi LMi snext cfg Htree SE Hpres Hsnn sstarts p _ _ Hs0 Hp) as [Hinf|(k' & d' & Hi & Hle)]; rewrite Hwp in *.
    { destruct dx; [discriminate|]. destruct (add b d); reflexivity. }
    eapply (w_leb_trans ZI); [|exact Hle]. destruct (leb (add b d) d') eqn:Hc; auto. exfalso.
    assert (Hlt : ltb d' (add b d) = true) by (unfold w_ltb; rewrite Hc; reflexivity).
    destruct (key_below SD sid ZI DMi PMi LMi snext cfg Htree SE Hpres Hsnn sstarts None Hd0' X pc _ _ HI (x, 0) k' d' Hi) as [(w' & Hw' & _)|(e & He' & Hle')].
    + intros v0 w0 k0 rest Hpc. destruct Hst as (st & kk & HinX & Hst). subst st.
      pose proof (i_cur _ _ _ _ _ _ _ _ _ _ _ _ HI _ _ _ _ Hpc) as [(X' & HX') _].
      eapply (w_lt_le_trans ZI); [exact Hlt|]. pose proof (i_sX _ _ _ _ _ _ _ _ _ _ _ _ HI) as Hsx. rewrite HX' in Hsx, HinX. destruct HinX as [Heq|HinX].
      * injection Heq as _ -> _. apply w_leb_refl.
      * inversion Hsx as [|? ? _ Hfa]; subst. rewrite Forall_forall in Hfa. exact (Hfa _ HinX).
    + destruct Hw' as (st & kk & HinX & Hst'). subst st. destruct kk as [|kk].
      * apply Hxs. pose proof (i_v0X _ _ _ _ _ _ _ _ _ _ _ _ HI _ HinX eq_refl) as Hz. apply in_map_iff in Hz. destruct Hz as (y & Hy & Hys). cbn in Hy. congruence.
      * apply Hxr. rewrite Hos'. apply view_ids_in. assert (Hir : In ((x, 0), w', S kk) (map (rx ZI DMi PMi LMi) os)) by (rewrite Hos; apply in_rev; rewrite rev_involutive; apply filter_In; auto).
        apply in_map_iff in Hir. destruct Hir as (ir & He1 & Hir). unfold dij_ids. apply in_map_iff. exists ir. split; auto. unfold rx in He1. injection He1 as -> _ _. reflexivity.
    + destruct Hst as (st & kk & HinX & Hst). pose proof (i_XH _ _ _ _ _ _ _ _ _ _ _ _ HI _ e HinX He') as Hxh. unfold xw in Hxh. cbn [fst snd] in Hxh.
      apply (w_le_lt_contra ZI (add b d) d'); auto. eapply (w_leb_trans ZI); eauto.
  - intros s Hend v Hv. rewrite Hend in Hk. destruct r as [|sr|]; try contradiction. destruct Hany as (HX & -> & Hh). cbn [outcome_state] in *. rewrite Hh in HI.
    assert (Hall : forall st p k, In st sstarts -> wwalk ZI SE st p (v, k) -> In (v, k) reads).
    { intros st p k Hs Hp. destruct (ended_settled SD sid ZI DMi PMi LMi snext cfg Htree SE Hpres Hsnn sstarts X _ HI st p (v, k)) as (w & st' & kk & HinX & Hst'); auto; [unfold is_start; now rewrite map_id|].
      subst st'. rewrite Hreads. apply in_map_iff. exists ((v, k), w, kk). split; auto. unfold C. rewrite <- HX. exact HinX. }
    destruct Hv as (s0 & q & Hs0 & Hq). destruct (walk_up edge Hseq Hsort Hnn s0 q v Hq) as (p & Hp & _).
    assert (Hin0 : In (s0, 0) sstarts) by (apply in_map_iff; eauto). split; [eapply Hall; eauto|].
    intros k He. destruct (edge v k) as [[u b]|] eqn:Hedge; [|congruence]. destruct (walk_along edge Hseq Hsort Hnn v (S k) b) as (p2 & Hp2 & _); [cbn [InfGraph.before]; rewrite Hedge; reflexivity|].
    eapply Hall; [exact Hin0|]. eapply wwalk_app; eauto.
Qed.
End Run.
End InfReads.

(** Attribute distance from one pass to the next *)
Section InfAttribute.
Context {V : Type} (V_dec : forall a b : V, {a = b} + {a <> b}) (edge : V -> nat -> option (V * option Z)).
Context (DM : DMap V (option Z) None) (PM : PMap V V) (DMi : DMap (V * nat) (option Z) None) (PMi : PMap (V * nat) (V * nat)) (LMi : PMap (V * nat) unit).
Context (build_paths store_distances : bool).

Lemma inf_handle_attribute s os out s1 : inf_handle V_dec DM PM DMi PMi LMi build_paths store_distances s os = inl (out, s1) ->
  n_calls s1 = n_calls s /\ (out = [] /\ n_distance s1 = n_distance s \/ exists rep, out = [rep] /\ n_distance s1 = nr_distance rep).
Proof.
  unfold inf_handle. destruct os as [|rep os]; [intros [= <- <-]; auto|]. destruct (dr_vertex rep) as [vertex edge_no].
  destruct (negb (Nat.eqb edge_no 0)); [intros [= <- <-]; auto|].
  match goal with |- context [match ?X with inl p => _ | inr x => _ end] => destruct X as [p|x]; [|discriminate] end.
  intros [= <- <-]. split; [reflexivity|]. right. eexists. split; reflexivity.
Qed.

Lemma inf_attribute starts lim n os s os' r' :
  inf_run V_dec edge DM PM DMi PMi LMi build_paths store_distances starts lim n = (os, Running s) ->
  inf_run V_dec edge DM PM DMi PMi LMi build_paths store_distances starts lim (S n) = (os', r') ->
  exists calls out, n_calls (outcome_state r') = calls ++ n_calls s /\ os' = os ++ out /\
    match calls, out with
    | [], [] => n_distance (outcome_state r') = n_distance s
    | [], [rep] => n_distance (outcome_state r') = nr_distance rep
    | [(v, d)], _ => n_distance (outcome_state r') = d /\ length out <= 1
    | _, _ => False
    end.
Proof.
  unfold inf_run. intros H1 H2. replace (S n) with (n + 1) in H2 by lia. rewrite run_add, H1 in H2. cbn [run] in H2. unfold inf_step in H2.
  destruct (dij_step _ _ _ _ _ _ _ _) as [o i|o i|o x i].
  - destruct (inf_handle _ _ _ _ _ _ _ _ s o) as [[out s1]|x] eqn:Hh.
    + destruct (inf_handle_attribute _ _ _ _ Hh) as [Hc Hd]. destruct (inf_expanded _ _ _ _ i) as [st|].
      * destruct (next_state_edges _ _ _ _ _) as [[l iters]|].
        -- cbn in H2. injection H2 as <- <-. cbn. destruct (Nat.eqb (snd st) 0).
           ++ exists [(fst st, dm_get DMi (fst st, 0) (d_distances i))], out. rewrite app_nil_r. split; [cbn; f_equal; exact Hc|]. split; [reflexivity|]. cbn. split; [reflexivity|]. destruct Hd as [[-> _]|(rep & -> & _)]; cbn; lia.
           ++ exists [], out. rewrite app_nil_r. repeat split; [exact Hc|]. destruct Hd as [[-> Hd]|(rep & -> & Hd)]; exact Hd.
        -- cbn in H2. injection H2 as <- <-. cbn. exists [], out. repeat split; [exact Hc|]. destruct Hd as [[-> Hd]|(rep & -> & Hd)]; exact Hd.
      * cbn in H2. injection H2 as <- <-. cbn. exists [], out. rewrite app_nil_r. repeat split; [exact Hc|]. destruct Hd as [[-> Hd]|(rep & -> & Hd)]; exact Hd.
    + cbn in H2. injection H2 as <- <-. cbn. exists [], []. auto.
  - destruct (inf_handle _ _ _ _ _ _ _ _ s o) as [[out s1]|x] eqn:Hh; cbn in H2; injection H2 as <- <-.
    + destruct (inf_handle_attribute _ _ _ _ Hh) as [Hc Hd]. cbn. exists [], out. repeat split; [exact Hc|]. destruct Hd as [[-> Hd]|(rep & -> & Hd)]; exact Hd.
    + cbn. exists [], []. auto.
  - destruct (inf_handle _ _ _ _ _ _ _ _ s o) as [[out s1]|y] eqn:Hh; cbn in H2; injection H2 as <- <-.
    + destruct (inf_handle_attribute _ _ _ _ Hh) as [Hc Hd]. cbn. exists [], out. repeat split; [exact Hc|]. destruct Hd as [[-> Hd]|(rep & -> & Hd)]; exact Hd.
    + cbn. exists [], []. auto.
Qed.
End InfAttribute.
