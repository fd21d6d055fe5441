(** Results about the traversal for infinite branching, from those about the internal traversal. *)
From Coq Require Import List ZArith Bool Lia Arith Permutation Sorted.
From Verif Require Import Machine GearSpec Spec Common CommonProofs TraversalSpec PathsModel PathsProofs PathsExact Weight WeightSpec HeapModel HeapProofs DijkstraModel DijkstraProofs DijkstraPaths DijkstraPlain DijkstraMore
  InfModel InfSpec InfGraph InfRun.
Import ListNotations.

Section InfMore.
Context {V : Type}.
Variable V_dec : forall a b : V, {a = b} + {a <> b}.
Variable edge : V -> nat -> option (V * option Z).
Notation state := (V * nat)%type.
Notation ZI := ZInfWeights.
Notation W := (option Z).
Notation add := (w_add ZI).
Notation leb := (w_leb ZI).
Notation ltb := (w_ltb ZI).
Notation wt := (walk_weight ZI).
Hypothesis Hseq : edge_sequences edge.
Hypothesis Hsort : edges_sorted edge.
Hypothesis Hnn : forall v k u w, edge v k = Some (u, w) -> leb (Some 0%Z) w = true.
Variable DM : DMap V W None.
Variable PM : PMap V V.
Variable DMi : DMap state W None.
Variable PMi : PMap state state.
Variable LMi : PMap state unit.
Variables build_paths store_distances : bool.
Variable starts : list V.
Hypothesis Hnd : NoDup starts.

Notation cfg := (inf_inner_cfg build_paths).
Notation sstarts := (map (fun v : V => (v, 0)) starts).
Notation sid := (fun s : state => s).
Notation snext := (snext edge).
Notation E := (inf_edge edge).
Notation SE := (SE edge).
Notation before := (before edge).
Notation dreport := (@dij_report state state unit ZI DMi PMi LMi).
Notation SD := (@state_dec V V_dec).
Notation nreport := (@inf_report V DM PM).
Notation St := (fun v => In v starts).
Notation base := (base DMi PMi LMi).
Notation view := (view DM PM DMi PMi LMi build_paths store_distances starts).
Notation outP := (out_pred PM DMi PMi LMi build_paths starts).
Notation outD := (out_dist DM DMi PMi LMi store_distances starts).
Notation irun := (inf_run V_dec edge DM PM DMi PMi LMi build_paths store_distances starts).
Notation drun := (dij_run sid ZI DMi PMi LMi snext cfg sstarts None).
Notation settled := (settled sid ZI).

Let Hpres := SE_presents edge.
Let Hsnn := SE_nonneg edge Hseq Hsort Hnn.
Let Htree : dc_is_tree cfg = false := eq_refl.
Let Hd0' : forall i, is_start sid sstarts i -> leb (w_zero ZI) (d0 sid ZI DMi cfg sstarts None i) = true := Hd0 SD sid ZI DMi PMi LMi snext cfg Htree SE Hpres Hsnn sstarts.

(** *** Distances and reachability *)
Lemma sst_iff st : is_start sid sstarts st <-> SSt St st.
Proof.
  unfold is_start. rewrite map_id, in_map_iff. unfold SSt. destruct st as [v k]. cbn [fst snd]. split.
  - intros (x & Hx & Hin). injection Hx as <- <-. auto.
  - intros [H1 H2]. subst. eauto.
Qed.
Lemma sst_base v : is_start sid sstarts (v, 0) <-> In v starts.
Proof. rewrite sst_iff. unfold SSt. cbn [fst snd]. tauto. Qed.

Lemma reach_st_iff v : wreachable ZI SE (is_start sid sstarts) (v, 0) <-> wreachable ZI E St v.
Proof.
  rewrite <- (reach_iff edge Hseq Hsort Hnn St v). unfold wreachable. split; intros (s & p & Hs & Hp); exists s, p; split; auto; now apply sst_iff.
Qed.
Lemma dist_st_iff v d : is_distance ZI SE (is_start sid sstarts) (v, 0) d <-> is_distance ZI E St v d.
Proof.
  rewrite <- (distance_iff edge Hseq Hsort Hnn St v d). unfold is_distance. split; intros [(s & p & Hs & Hp) Hm]; (split; [exists s, p; split; auto; now apply sst_iff|]);
  intros s' p' Hs'; apply Hm; now apply sst_iff.
Qed.

(** *** The reports *)
Lemma view_in rep os : forall pre, In rep (view pre os) ->
  exists o1 ir o2, os = o1 ++ ir :: o2 /\ base ir = true /\ dr_vertex ir = (nr_vertex rep, 0) /\ nr_distance rep = dr_distance ir /\
    nr_pred rep = outP (pre ++ o1 ++ [ir]) /\ nr_distances rep = outD (pre ++ o1 ++ [ir]).
Proof.
  induction os as [|x os IH]; intros pre Hin; cbn [InfRun.view] in Hin; [contradiction|].
  apply in_app_or in Hin. destruct Hin as [Hin|Hin].
  - destruct (base x) eqn:Hb; [|contradiction]. destruct Hin as [<-|[]]. exists [], x, os. cbn [nr_vertex nr_distance nr_pred nr_distances].
    repeat split; auto. unfold InfRun.base in Hb. apply Nat.eqb_eq in Hb. destruct (dr_vertex x) as [v k]. cbn [fst snd] in *. now subst.
  - destruct (IH _ Hin) as (o1 & ir & o2 & -> & H1 & H2 & H3 & H4 & H5). exists (x :: o1), ir, o2. rewrite <- app_assoc in *. cbn [app] in *. repeat split; auto.
Qed.

Lemma view_vertices os : forall pre, map nr_vertex (view pre os) = map (fun ir => fst (dr_vertex ir)) (filter base os).
Proof. induction os as [|x os IH]; intros pre; cbn [InfRun.view filter map]; auto. rewrite map_app, IH. destruct (base x); reflexivity. Qed.

Lemma view_ids_in os pre v : In v (map nr_vertex (view pre os)) <-> In (v, 0) (dij_ids sid os).
Proof.
  rewrite view_vertices. unfold dij_ids. rewrite !in_map_iff. split.
  - intros (ir & <- & Hin). apply filter_In in Hin. destruct Hin as [Hin Hb]. exists ir. split; auto. unfold InfRun.base in Hb. apply Nat.eqb_eq in Hb.
    destruct (dr_vertex ir) as [a b]. cbn [fst snd] in *. now subst.
  - intros (ir & Hv & Hin). exists ir. rewrite Hv. split; auto. apply filter_In. split; auto. unfold InfRun.base. rewrite Hv. reflexivity.
Qed.

Lemma view_nodup os pre : NoDup (dij_ids sid os) -> NoDup (map nr_vertex (view pre os)).
Proof.
  rewrite view_vertices. unfold dij_ids. induction os as [|x os IH]; cbn [map filter]; intros Hn; [constructor|].
  inversion Hn as [|? ? Hx Hn']; subst. destruct (base x) eqn:Hb; [|auto]. cbn [map]. constructor; [|auto].
  intros C. apply Hx. apply in_map_iff in C. destruct C as (y & Hy & Hin). apply filter_In in Hin. destruct Hin as [Hin Hby]. apply in_map_iff. exists y. split; auto.
  unfold InfRun.base in *. apply Nat.eqb_eq in Hb, Hby. destruct (dr_vertex x), (dr_vertex y). cbn [fst snd] in *. congruence.
Qed.

Lemma view_sorted os : forall pre, StronglySorted (fun a b : dreport => leb (dr_distance a) (dr_distance b) = true) os ->
  StronglySorted (fun a b => leb (nr_distance a) (nr_distance b) = true) (view pre os).
Proof.
  induction os as [|x os IH]; intros pre Hs; cbn [InfRun.view]; [constructor|]. inversion Hs as [|? ? Hs' Hf]; subst.
  destruct (base x); cbn [app]; [|auto]. constructor; [auto|]. apply Forall_forall. intros rep Hin. cbn [nr_distance].
  destruct (view_in _ _ _ Hin) as (o1 & ir & o2 & Heq & _ & _ & Hd & _). rewrite Hd. rewrite Forall_forall in Hf. apply Hf. rewrite Heq. apply in_or_app. right. now left.
Qed.

Section Run.
Variable lim : option Z.
Variable n : nat.
Variables (os' : list nreport) (r' : outcome (@inf_state V DM PM DMi PMi LMi) exn).
Hypothesis HR : irun lim n = (os', r').

Lemma run_dij : exists os r, drun lim n = (os, r) /\ os' = view [] os /\
    same DM PM DMi PMi LMi build_paths store_distances starts os (outcome_state r') (outcome_state r) /\
    match r, r' with Running _, Running _ => True | Ended _, Ended _ => True | Raised x _, Raised y _ => x = y | _, _ => False end.
Proof. exact (inf_is_dijkstra V_dec edge Hseq Hsort Hnn DM PM DMi PMi LMi build_paths store_distances starts Hnd lim n os' r' HR). Qed.

Theorem inf_reports :
  NoDup (map nr_vertex os') /\
  StronglySorted (fun a b => leb (nr_distance a) (nr_distance b) = true) os' /\
  (forall rep, In rep os' -> ~ In (nr_vertex rep) starts /\ is_distance ZI E St (nr_vertex rep) (nr_distance rep) /\ nr_distance rep <> None) /\
  (forall s, r' = Ended s -> forall v, wreachable ZI E St v -> In v starts \/ In v (map nr_vertex os')).
Proof.
  destruct run_dij as (os & r & Hd & -> & HS & Hk).
  destruct (dij_distances SD sid ZI DMi PMi LMi snext cfg Htree SE Hpres Hsnn sstarts lim n os r Hd) as [HD Hso].
  destruct (dij_reported SD sid ZI DMi PMi LMi snext cfg Htree SE Hpres Hsnn sstarts lim n os r Hd) as (Hn & Hr & Hc).
  destruct (dij_overflow SD sid ZI DMi PMi LMi snext cfg Htree SE Hpres Hsnn sstarts lim n os r Hd) as (Hf & _).
  split; [now apply view_nodup|]. split; [now apply view_sorted|]. split.
  - intros rep Hin. destruct (view_in _ _ _ Hin) as (o1 & ir & o2 & Heq & Hb & Hv & Hdist & _).
    assert (Hin' : In ir os) by (rewrite Heq; apply in_or_app; right; now left). rewrite Hdist. split; [|split].
    + intros C. apply (proj1 (Hr ir Hin')). rewrite Hv. now apply sst_base.
    + apply dist_st_iff. rewrite <- Hv. now apply HD.
    + destruct (Hf ir Hin') as [Hlt _]. intros C. rewrite C in Hlt. discriminate.
  - intros s Hs v Hv. rewrite Hs in Hk. destruct r as [|sr|]; try contradiction.
    destruct (Hc sr eq_refl (v, 0)) as [C|C]; [now apply reach_st_iff|left; now apply sst_base|right; now apply view_ids_in].
Qed.
End Run.

(** *** Termination and liveness *)
Definition finite_weights : Prop := forall v k u w, edge v k = Some (u, w) -> w <> None.

Lemma SE_finite : finite_weights -> forall s w t, SE s w t -> w <> None.
Proof.
  intros Hfin [v k] w t Hs. apply SE_inv in Hs. destruct Hs as (a & u & b & Hb & He & -> & _). apply Hfin in He as Hb'.
  assert (Ha : a <> None). { destruct k as [|k]; cbn [InfGraph.before] in Hb; [congruence|]. destruct (edge v k) as [[u0 b0]|] eqn:E0; [|discriminate]. injection Hb as <-. eapply Hfin; eauto. }
  destruct b, a; simpl; congruence.
Qed.
Lemma walk_finite : finite_weights -> forall s p t, wwalk ZI SE s p t -> wt p <> None.
Proof.
  intros Hfin s p. induction p as [|[w x] p IH] using rev_ind; intros t Hw; [discriminate|].
  apply wwalk_snoc_inv in Hw. destruct Hw as (u & Hw & Hs & _). rewrite walk_weight_snoc. apply IH in Hw. apply (SE_finite Hfin) in Hs. destruct (wt p), w; simpl; congruence.
Qed.

Theorem inf_no_overflow lim n s : finite_weights -> snd (irun lim n) <> Raised OverflowErrorDistance s.
Proof.
  intros Hfin C. destruct (irun lim n) as [os' r'] eqn:HR. cbn [snd] in C. subst r'. destruct (run_dij lim n _ _ HR) as (os & r & Hd & _ & _ & Hk).
  destruct r as [| |x sr]; try contradiction. subst x.
  destruct (dij_overflow SD sid ZI DMi PMi LMi snext cfg Htree SE Hpres Hsnn sstarts lim n os _ Hd) as (_ & _ & Ho & _).
  destruct (Ho sr eq_refl) as (i & d & w & j & [(s0 & p & _ & Hp & Hw) _] & He & Hle). apply (SE_finite Hfin) in He. apply (walk_finite Hfin) in Hp. rewrite Hw in Hp.
  destruct d, w; simpl in *; congruence.
Qed.

(** Distances of the states of a vertex *)
Lemma state_walk st p v k : SSt St st -> wwalk ZI SE st p (v, k) ->
  exists s q a, In s starts /\ wwalk ZI E s q v /\ before v k = Some a /\ wt p = add a (wt q).
Proof.
  destruct st as [s k0]. intros [Hz Hs] Hp. cbn [fst snd] in *. subst k0. destruct (walk_down edge Hseq Hsort Hnn s p (v, k) Hp v k eq_refl) as (q & a & H1 & H2 & H3 & _).
  exists s, q, a. auto.
Qed.

Theorem inf_terminates (lv : list V) (le : list (V * nat)) :
  (forall v, wreachable ZI E St v -> In v lv) ->
  (forall v k u w, wreachable ZI E St v -> edge v k = Some (u, w) -> In (v, k) le) ->
  exists n os s, irun None n = (os, Ended s) \/ irun None n = (os, Raised OverflowErrorDistance s).
Proof.
  intros Hlv Hle.
  destruct (dij_plain_terminates SD sid ZI DMi PMi LMi snext cfg Htree SE Hpres Hsnn sstarts (map (fun v => (v, 0)) lv ++ map (fun e => (fst e, S (snd e))) le)) as (n & os & s & Hd).
  { intros [v k] (st & p & Hs & Hp). apply sst_iff in Hs. destruct (state_walk _ _ _ _ Hs Hp) as (s & q & a & H1 & H2 & H3 & _).
    assert (Hrv : wreachable ZI E St v) by (exists s, q; auto). apply in_or_app. destruct k as [|k]; [left; apply in_map_iff; eauto|right].
    cbn [InfGraph.before] in H3. destruct (edge v k) as [[u b]|] eqn:He; [|discriminate]. apply in_map_iff. exists (v, k). split; [reflexivity|]. eapply Hle; eauto. }
  destruct (irun None n) as [os' r'] eqn:HR. destruct (run_dij None n _ _ HR) as (os1 & r & Hd1 & _ & _ & Hk). exists n, os', (outcome_state r'). rewrite HR.
  destruct Hd as [Hd|Hd]; rewrite Hd in Hd1; injection Hd1 as <- <-; destruct r' as [| |x s']; try contradiction; [left; reflexivity|right; now subst].
Qed.

Theorem inf_live v d (lv : list V) (le : list (V * nat)) : is_distance ZI E St v d -> d <> None -> ~ In v starts ->
  (forall s q u, In s starts -> wwalk ZI E s q u -> leb (wt q) d = true -> In u lv) ->
  (forall s q u k t w, In s starts -> wwalk ZI E s q u -> edge u k = Some (t, w) -> leb (add w (wt q)) d = true -> In (u, k) le) ->
  exists n, (exists s, snd (irun None n) = Raised OverflowErrorDistance s) \/ In v (map nr_vertex (fst (irun None n))).
Proof.
  intros Hd Hf Hns Hlv Hle.
  destruct (dij_plain_live SD sid ZI DMi PMi LMi snext cfg Htree SE Hpres Hsnn sstarts (v, 0) d (map (fun v => (v, 0)) lv ++ map (fun e => (fst e, S (snd e))) le)) as (n & Hn).
  - now apply dist_st_iff.
  - destruct d; [reflexivity|congruence].
  - now rewrite sst_base.
  - intros st p [u k] Hs Hp Hw. apply sst_iff in Hs. destruct (state_walk _ _ _ _ Hs Hp) as (s & q & a & H1 & H2 & H3 & H4). rewrite H4 in Hw.
    apply in_or_app. destruct k as [|k]; cbn [InfGraph.before] in H3.
    + injection H3 as <-. left. apply in_map_iff. exists u. split; auto. apply (Hlv s q); auto. destruct (wt q), d; simpl in *; auto.
    + right. destruct (edge u k) as [[t b]|] eqn:He; [|discriminate]. injection H3 as <-. apply in_map_iff. exists (u, k). split; [reflexivity|]. eapply Hle; eauto.
  - exists n. destruct (irun None n) as [os' r'] eqn:HR. cbn [fst snd]. destruct (run_dij None n _ _ HR) as (os & r & Hd1 & -> & _ & Hk). 
    unfold dij_run in *. rewrite Hd1 in Hn. cbn [fst snd] in Hn. destruct Hn as [(s & Hs)|Hn].
    + subst r. destruct r' as [| |x s']; try contradiction. subst x. left. eauto.
    + right. now apply view_ids_in.
Qed.
End InfMore.
