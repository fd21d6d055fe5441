(** Proofs about the programs for primes and divisors. *)
From Coq Require Import List ZArith Bool Lia Sorted Arith Znumtheory.
From Verif Require Import Machine GearSpec GearProofs Spec TraversalSpec Common PathsModel PathsSpec Weight WeightSpec DijkstraModel DijkstraProofs DijkstraPaths DijkstraPlain
  InfModel InfSpec InfGraph InfRun InfMore InfPaths InfAwareModel InfAwareProofs SieveModel SieveProofs PrimesModel.
Import ListNotations.
Open Scope Z_scope.

(** ** The graph for the final distances *)
Definition pedge (i : Z) (k : nat) : option (Z * option Z) := prime_search_edges i (Some (D i)) k.

Lemma pedge_cases i k u w : pedge i k = Some (u, w) ->
  (u = i + 1 /\ w = Some (2 * (i + 1) - D i) /\ k = O) \/ exists j, (k = S j /\ 1 < i /\ u = i * i + Z.of_nat j * i /\ w = Some (2 * u - 1 - D i)).
Proof.
  unfold pedge, prime_search_edges. destruct k as [|j].
  - intros [= <- <-]. left. auto.
  - destruct (Z.ltb_spec 1 i) as [H|H]; [|discriminate]. cbv zeta. intros [= <- <-]. right. exists j. auto.
Qed.

Lemma D_upper i : 1 <= i -> 0 <= D i <= 2 * i.
Proof. intros H. apply D_bound. exact H. Qed.

Lemma pedge_sequences : edge_sequences pedge.
Proof. intros v [|k]; unfold pedge, prime_search_edges; [discriminate|]. destruct (1 <? v); [discriminate|auto]. Qed.

Lemma pedge_sorted : edges_sorted pedge.
Proof.
  intros v k u a u' b H1 H2. apply pedge_cases in H1, H2.
  destruct H2 as [(_ & _ & H)|(j & Hj & Hv & -> & ->)]; [discriminate|]. injection Hj as Hj. subst k. pose proof (D_upper v).
  destruct H1 as [(-> & -> & ->)|(j' & -> & _ & -> & ->)]; apply Z.leb_le; nia.
Qed.

Lemma pedge_nonnegative : edges_nonnegative pedge.
Proof.
  intros v k u w H. apply pedge_cases in H. destruct H as [(-> & -> & ->)|(j & -> & Hv & -> & ->)]; apply Z.leb_le.
  - destruct (Z_lt_dec v 1) as [H|H]; [rewrite D_neg by auto; lia|]. pose proof (D_upper v). lia.
  - pose proof (D_upper v). nia.
Qed.

Lemma pedge_finite : edges_finite pedge.
Proof. intros v k u w H. apply pedge_cases in H. destruct H as [(_ & -> & _)|(j & _ & _ & _ & ->)]; discriminate. Qed.

Lemma square_not_prime i j : 1 < i -> 0 <= j -> ~ prime (i * i + j * i) /\ i * i + j * i <> 1.
Proof.
  intros Hi Hj. split; [|nia]. intros Hp. assert (Hd : (i | i * i + j * i)) by (exists (i + j); lia).
  destruct (prime_divisors _ Hp i Hd) as [H1|[H1|[H1|H1]]]; nia.
Qed.

Lemma p_edge_le v w u : 1 <= v -> inf_edge pedge v w u -> 1 <= u /\ exists x, w = Some x /\ D u <= x + D v.
Proof.
  intros Hv (k & H). apply pedge_cases in H. destruct H as [(-> & -> & _)|(j & _ & Hi & -> & ->)].
  - split; [lia|]. eexists. split; [reflexivity|]. pose proof (D_upper (v + 1)). lia.
  - split; [nia|]. eexists. split; [reflexivity|]. destruct (square_not_prime v (Z.of_nat j) Hi) as [H1 H2]; [lia|]. rewrite (D_composite _ H2 H1). lia.
Qed.

Notation PE := (inf_edge pedge).
Notation PS := (fun s : Z => In s [1]).

Lemma p_walk_bound p : forall v, wwalk ZI PE 1 p v -> 1 <= v /\ exists x, walk_weight ZI p = Some x /\ D v <= x.
Proof.
  induction p as [|[w u] p IH] using rev_ind; intros v H.
  - inversion H; subst. split; [lia|]. exists 0. split; [reflexivity|]. cbn. lia.
  - apply wwalk_snoc_inv in H. destruct H as (j & Hw & He & ->). destruct (IH j Hw) as (Hg & x & Hx & Hle).
    destruct (p_edge_le j w u Hg He) as (Hg' & y & -> & Hle'). split; [auto|]. exists (y + x). rewrite walk_weight_snoc, Hx. split; [reflexivity|lia].
Qed.

Definition pway (v d : Z) : Prop := exists p, wwalk ZI PE 1 p v /\ walk_weight ZI p = Some d.
Lemma pway_step v d w u : pway v d -> PE v (Some w) u -> pway u (w + d).
Proof. intros (p & Hp & Hd) He. exists (p ++ [(Some w, u)]). split; [eapply wwalk_snoc; eauto|]. rewrite walk_weight_snoc, Hd. reflexivity. Qed.

Lemma pway_all i : 1 <= i -> pway i (D i).
Proof.
  intros Hi. assert (H : 0 <= i) by lia. revert Hi. pattern i. apply Z_lt_induction; [|exact H]. clear i H.
  intros i IH Hi. destruct (Z.eq_dec i 1) as [->|H1]; [exists []; split; [constructor|reflexivity]|].
  destruct (prime_dec i) as [Hp|Hp].
  - rewrite (D_prime i Hp). assert (Hw : pway (i - 1) (D (i - 1))) by (apply IH; lia).
    assert (He : PE (i - 1) (Some (2 * (i - 1 + 1) - D (i - 1))) (i - 1 + 1)) by (exists O; reflexivity).
    pose proof (pway_step _ _ _ _ Hw He) as Hw'. replace (i - 1 + 1) with i in Hw' by lia. replace (2 * i - D (i - 1) + D (i - 1)) with (2 * i) in Hw' by lia. exact Hw'.
  - destruct (composite i) as (p & Hp' & (b & Hb) & Hle & Hlt); [lia|auto|]. pose proof (prime_ge_2 p Hp').
    rewrite (D_composite i H1 Hp). assert (Hw : pway p (D p)) by (apply IH; lia).
    assert (He : PE p (Some (2 * i - 1 - D p)) i).
    { exists (S (Z.to_nat (b - p))). unfold pedge, prime_search_edges. rewrite (proj2 (Z.ltb_lt 1 p)) by lia. cbv zeta. rewrite Z2Nat.id by nia.
      replace (p * p + (b - p) * p) with i by lia. reflexivity. }
    pose proof (pway_step _ _ _ _ Hw He) as Hw'. replace (2 * i - 1 - D p + D p) with (2 * i - 1) in Hw' by lia. exact Hw'.
Qed.

Lemma p_distance_iff v d : is_distance ZI PE PS v d <-> 1 <= v /\ d = Some (D v).
Proof.
  assert (H : forall d, is_distance ZI PE PS v d -> 1 <= v).
  { intros e [(s & p & [<-|[]] & Hw & _) _]. now apply p_walk_bound in Hw. }
  assert (HG : 1 <= v -> is_distance ZI PE PS v (Some (D v))).
  { intros Hg. split.
    - destruct (pway_all v Hg) as (p & Hp & Hd). exists 1, p. split; [now left|auto].
    - intros s p [<-|[]] Hw. destruct (p_walk_bound p v Hw) as (_ & x & Hx & Hle). rewrite Hx. now apply Z.leb_le. }
  split.
  - intros Hd. split; [eauto|]. eapply is_distance_unique; [exact Hd|]. apply HG. eauto.
  - intros [Hg ->]. auto.
Qed.

Lemma D_mono i j : 2 <= i -> 2 <= j -> D i <= D j -> i <= j.
Proof. intros Hi Hj. unfold D. destruct (Z.eqb_spec i 1), (Z.eqb_spec j 1); try lia. destruct (prime_dec i), (prime_dec j); lia. Qed.

(** ** Runs *)
Section Runs.
Variable DM : DMap Z (option Z) None.
Variable PM : PMap Z Z.
Variable DMi : DMap (Z * nat) (option Z) None.
Variable PMi : PMap (Z * nat) (Z * nat).
Variable LMi : PMap (Z * nat) unit.
Variables build_paths store_distances : bool.
Notation report := (@inf_report Z DM PM).
Notation srun n := (inf_run Z.eq_dec pedge DM PM DMi PMi LMi build_paths store_distances [1] None n).
Notation prun n := (prime_search DM PM DMi PMi LMi build_paths store_distances n).

Lemma nd1 : NoDup [1].
Proof. constructor; [intros []|constructor]. Qed.

Lemma p_static n : prun n = srun n.
Proof using.
  unfold prime_search. apply (ainf_is_inf Z.eq_dec prime_search_edges pedge pedge_sequences pedge_sorted pedge_nonnegative DM PM DMi PMi LMi build_paths store_distances [1] nd1 None).
  intros v d Hd k. apply p_distance_iff in Hd. destruct Hd as [_ ->]. reflexivity.
Qed.

Lemma p_reports n : NoDup (map nr_vertex (fst (srun n))) /\ (forall rep, In rep (fst (srun n)) -> 2 <= nr_vertex rep /\ nr_distance rep = Some (D (nr_vertex rep))) /\
  StronglySorted Z.lt (map nr_vertex (fst (srun n))).
Proof using.
  destruct (srun n) as [os r] eqn:HR. cbn [fst].
  destruct (inf_reports Z.eq_dec pedge pedge_sequences pedge_sorted pedge_nonnegative DM PM DMi PMi LMi build_paths store_distances [1] nd1 None n os r HR) as (H1 & H2 & H3 & _).
  assert (H4 : forall rep, In rep os -> 2 <= nr_vertex rep /\ nr_distance rep = Some (D (nr_vertex rep))).
  { intros rep Hin. destruct (H3 rep Hin) as (Hs & Hd & _). apply p_distance_iff in Hd. destruct Hd as [Hg Hd]. split; [|exact Hd].
    destruct (Z.eq_dec (nr_vertex rep) 1) as [Heq|Hne]; [|lia]. exfalso. apply Hs. left. auto. }
  split; [exact H1|]. split; [exact H4|]. clear HR H3. induction os as [|rep os IH]; cbn [map]; [constructor|].
  cbn [map] in H1. inversion H1 as [|a b N1 N2]; subst. apply StronglySorted_inv in H2. destruct H2 as [H2 HF]. rewrite Forall_forall in HF.
  constructor; [apply IH; auto; intros q Hq; apply H4; now right|]. apply Forall_forall. intros x Hx. apply in_map_iff in Hx. destruct Hx as (q & <- & Hq).
  pose proof (HF q Hq) as HL. destruct (H4 rep (or_introl eq_refl)) as [Ha Hda]. destruct (H4 q (or_intror Hq)) as [Hb Hdb]. rewrite Hda, Hdb in HL. apply Z.leb_le in HL.
  pose proof (D_mono _ _ Ha Hb HL). assert (nr_vertex rep <> nr_vertex q); [|lia]. intros Heq. apply N1. rewrite Heq. now apply in_map.
Qed.

Lemma p_live i : 2 <= i -> exists n, In i (map nr_vertex (fst (srun n))).
Proof using.
  intros Hi. set (l := map (fun k => 0 + Z.of_nat k) (seq 0 (Z.to_nat (2 * i + 2)))).
  set (le := list_prod l (seq 0 (Z.to_nat (2 * i + 2)))).
  destruct (inf_live Z.eq_dec pedge pedge_sequences pedge_sorted pedge_nonnegative DM PM DMi PMi LMi build_paths store_distances [1] nd1 i (Some (D i)) l le) as (n & Hn).
  - apply p_distance_iff. split; [lia|reflexivity].
  - discriminate.
  - intros [H|[]]. lia.
  - intros s q u [<-|[]] Hw Hle. destruct (p_walk_bound q u Hw) as (Hu & x & Hx & Hd). rewrite Hx in Hle. apply Z.leb_le in Hle.
    apply upto_in. pose proof (D_upper i). unfold D in Hd. destruct (Z.eqb_spec u 1); [lia|]. destruct (prime_dec u); lia.
  - intros s q u k t w [<-|[]] Hw He Hle. destruct (p_walk_bound q u Hw) as (Hu & x & Hx & Hd). rewrite Hx in Hle. pose proof (D_upper i). pose proof (D_upper u).
    apply pedge_cases in He. apply in_prod.
    + apply upto_in. destruct He as [(-> & -> & ->)|(j & -> & H1 & -> & ->)]; apply Z.leb_le in Hle; nia.
    + apply in_seq. destruct He as [(-> & -> & ->)|(j & -> & H1 & -> & ->)]; apply Z.leb_le in Hle; nia.
  - exists n. destruct Hn as [(s & Hs)|Hn]; [|exact Hn]. exfalso.
    exact (inf_no_overflow Z.eq_dec pedge pedge_sequences pedge_sorted pedge_nonnegative DM PM DMi PMi LMi build_paths store_distances [1] nd1 None n s pedge_finite Hs).
Qed.

Lemma p_prefix n m : (n <= m)%nat -> exists l, fst (srun m) = fst (srun n) ++ l.
Proof using. intros H. unfold inf_run. now apply run_prefix. Qed.

(** All numbers from 2 are reported, without gaps. *)
Lemma p_closed n i j : In i (map nr_vertex (fst (srun n))) -> 2 <= j < i -> In j (map nr_vertex (fst (srun n))).
Proof using.
  intros Hi Hj. destruct (p_live j) as (m & Hm); [lia|]. destruct (Nat.le_ge_cases m n) as [Hle|Hle]; destruct (p_prefix _ _ Hle) as (l & Hl).
  - rewrite Hl, map_app. apply in_or_app. auto.
  - rewrite Hl, map_app in Hm. apply in_app_or in Hm. destruct Hm as [Hm|Hm]; [exact Hm|]. exfalso.
    destruct (p_reports m) as (_ & _ & HS). rewrite Hl, map_app in HS. pose proof (sorted_app_lt _ _ _ _ HS Hi Hm). lia.
Qed.

Lemma p_running n : exists s, snd (srun n) = Running s.
Proof using.
  destruct (srun n) as [os r] eqn:HR.
  destruct (inf_is_dijkstra Z.eq_dec pedge pedge_sequences pedge_sorted pedge_nonnegative DM PM DMi PMi LMi build_paths store_distances [1] nd1 None n os r HR) as (dos & dr & Hd & _ & _ & Hk).
  destruct r as [s|s|x s]; [exists s; reflexivity| |].
  - exfalso. destruct (inf_reports Z.eq_dec pedge pedge_sequences pedge_sorted pedge_nonnegative DM PM DMi PMi LMi build_paths store_distances [1] nd1 None n os _ HR) as (_ & _ & _ & H).
    assert (HB : exists b, forall v, In v (map nr_vertex os) -> v < b).
    { clear. induction (map nr_vertex os) as [|v l (b & IH)]; [exists 0; intros v []|].
      exists (Z.max b (v + 1)). intros u [<-|Hu]; [lia|]. specialize (IH u Hu). lia. }
    destruct HB as (b & HB). set (i := Z.max b 2). destruct (H s eq_refl i) as [[Hs|[]]|Hs].
    + destruct (pway_all i) as (p & Hp & _); [lia|]. exists 1, p. split; [now left|auto].
    + lia.
    + apply HB in Hs. lia.
  - exfalso. destruct dr as [|sd|y sd]; try contradiction. subst y. pose proof (SE_presents pedge) as Q1. pose proof (SE_nonneg pedge pedge_sequences pedge_sorted pedge_nonnegative) as Q2.
    destruct (dij_any (@state_dec Z Z.eq_dec) (fun s => s) ZI DMi PMi LMi (snext pedge) (inf_inner_cfg build_paths) eq_refl (SE pedge) Q1 Q2 (map (fun v => (v, 0%nat)) [1]) None None
      (Hd0 (@state_dec Z Z.eq_dec) (fun s => s) ZI DMi PMi LMi (snext pedge) (inf_inner_cfg build_paths) eq_refl (SE pedge) Q1 Q2 (map (fun v => (v, 0%nat)) [1])) n dos _ Hd) as (X & pc & _ & [(_ & H & _)|(-> & _)]); [now apply H|].
    eapply (inf_no_overflow Z.eq_dec pedge pedge_sequences pedge_sorted pedge_nonnegative DM PM DMi PMi LMi build_paths store_distances [1] nd1 None n s pedge_finite).
    rewrite HR. reflexivity.
Qed.

Lemma sorted_filter (g : report -> bool) os : StronglySorted Z.lt (map nr_vertex os) -> StronglySorted Z.lt (map nr_vertex (filter g os)).
Proof using.
  induction os as [|x os IH]; cbn [map filter]; intros HS; [constructor|]. apply StronglySorted_inv in HS. destruct HS as [HS HF]. destruct (g x); [|auto]. cbn [map]. constructor; [auto|].
  rewrite Forall_forall in *. intros y Hy. apply HF. apply in_map_iff in Hy. destruct Hy as (q & <- & Hq). apply filter_In in Hq. apply in_map. apply Hq.
Qed.

Lemma D_equals i : 2 <= i -> (2 * i =? D i) = true <-> prime i.
Proof using. intros Hi. rewrite Z.eqb_eq. split; [intros H; apply D_bound; lia|intros H; symmetry; now apply D_prime]. Qed.

Lemma primes_in n i : In i (primes_of (fst (srun n))) <-> prime i /\ In i (map nr_vertex (fst (srun n))).
Proof using.
  destruct (p_reports n) as (_ & HD & _). unfold primes_of. rewrite !in_map_iff. split.
  - intros (rep & <- & Hin). apply filter_In in Hin. destruct Hin as [Hin He]. destruct (HD rep Hin) as [H2 Hd]. rewrite Hd in He. split; [now apply D_equals|eauto].
  - intros (Hp & rep & <- & Hin). exists rep. split; [reflexivity|]. apply filter_In. split; [auto|]. destruct (HD rep Hin) as [H2 Hd]. rewrite Hd. now apply D_equals.
Qed.

Lemma non_primes_in n i : In i (map nr_vertex (non_primes_of (fst (srun n)))) <-> ~ prime i /\ In i (map nr_vertex (fst (srun n))).
Proof using.
  destruct (p_reports n) as (_ & HD & _). unfold non_primes_of. rewrite !in_map_iff. split.
  - intros (rep & <- & Hin). apply filter_In in Hin. destruct Hin as [Hin He]. destruct (HD rep Hin) as [H2 Hd]. rewrite Hd in He. split; [|eauto].
    intros Hp. apply D_equals in Hp; [|auto]. cbn [equals_distance] in He. rewrite Hp in He. discriminate.
  - intros (Hp & rep & <- & Hin). exists rep. split; [reflexivity|]. apply filter_In. split; [auto|]. destruct (HD rep Hin) as [H2 Hd]. rewrite Hd. cbn [equals_distance].
    destruct (2 * nr_vertex rep =? D (nr_vertex rep)) eqn:He; [|reflexivity]. exfalso. apply Hp. now apply D_equals.
Qed.

Theorem primes_generated n os r : prun n = (os, r) ->
  (exists s, r = Running s) /\
  StronglySorted Z.lt (primes_of os) /\ (forall p, In p (primes_of os) -> prime p) /\ (forall p q, In p (primes_of os) -> prime q -> q < p -> In q (primes_of os)) /\
  StronglySorted Z.lt (map nr_vertex (non_primes_of os)) /\ (forall i, In i (map nr_vertex (non_primes_of os)) -> 1 < i /\ ~ prime i) /\
  (forall i j, In i (map nr_vertex (non_primes_of os)) -> 1 < j < i -> ~ prime j -> In j (map nr_vertex (non_primes_of os))).
Proof using.
  rewrite p_static. intros HR. assert (Hos : os = fst (srun n)) by (rewrite HR; reflexivity). destruct (p_reports n) as (_ & HD & HS).
  split; [destruct (p_running n) as (s & Hs); rewrite HR in Hs; exists s; exact Hs|]. rewrite Hos. clear Hos HR.
  split; [now apply sorted_filter|]. split; [intros p Hp; apply primes_in in Hp; tauto|]. split.
  { intros p q Hp Hq Hlt. apply primes_in in Hp. apply primes_in. split; [auto|]. pose proof (prime_ge_2 q Hq). apply (p_closed n p); [tauto|lia]. }
  split; [now apply sorted_filter|]. split.
  { intros i Hi. apply non_primes_in in Hi. destruct Hi as [Hp Hi]. split; [|auto]. apply in_map_iff in Hi. destruct Hi as (rep & <- & Hin). destruct (HD rep Hin). lia. }
  intros i j Hi Hj Hp. apply non_primes_in in Hi. apply non_primes_in. split; [auto|]. apply (p_closed n i); [tauto|lia].
Qed.

Theorem primes_live i : 1 < i -> exists n, (prime i -> In i (primes_of (fst (prun n)))) /\ (~ prime i -> In i (map nr_vertex (non_primes_of (fst (prun n))))).
Proof using.
  intros Hi. destruct (p_live i) as (n & Hn); [lia|]. exists n. rewrite p_static. split; intros H; [apply primes_in|apply non_primes_in]; auto.
Qed.
End Runs.


(** With paths: the vertex before a number that is not prime is a divisor of it. *)
Theorem divisors_found DM PM DMi PMi LMi store_distances n os r rep : prime_search DM PM DMi PMi LMi true store_distances n = (os, r) -> In rep (non_primes_of os) ->
  exists p rest m, 1 < p < nr_vertex rep /\ (p | nr_vertex rep) /\
    forall fuel, (m <= fuel)%nat -> iter_vertices_to_start Z.eq_dec (fun v => v) PM (nr_pred rep) fuel (nr_vertex rep) = POk (nr_vertex rep :: p :: rest).
Proof.
  rewrite p_static. intros HR Hin0. pose proof Hin0 as Hin. unfold non_primes_of in Hin. apply filter_In in Hin. destruct Hin as [Hin _].
  pose proof (proj1 (non_primes_in DM PM DMi PMi LMi true store_distances n (nr_vertex rep))) as Hnp. rewrite HR in Hnp. destruct Hnp as [Hnp _]; [now apply in_map|].
  destruct (p_reports DM PM DMi PMi LMi true store_distances n) as (_ & HD & _). rewrite HR in HD. destruct (HD rep Hin) as [H2 Hd].
  destruct (inf_paths Z.eq_dec pedge pedge_sequences pedge_sorted pedge_nonnegative DM PM DMi PMi LMi true store_distances [1] nd1 None n os r HR eq_refl
    (HashPMap Z.eq_dec : PMap Z unit) (pm_empty (HashPMap Z.eq_dec : PMap Z unit)) (fun _ _ _ => True)) as [HP _].
  destruct (HP rep Hin) as (s0 & q & [<-|[]] & Hw & Hwt & (_ & HF) & _). clear HP. set (i := nr_vertex rep) in *.
  rewrite Hd, (D_composite i) in Hwt; [|lia|auto].
  destruct q as [|[w u] q _] using rev_ind; [inversion Hw; subst; lia|].
  apply wwalk_snoc_inv in Hw. destruct Hw as (j & Hw & (k & He) & Hi). subst u. rewrite walk_weight_snoc in Hwt. destruct (p_walk_bound q j Hw) as (Hj & x & Hx & Hle). rewrite Hx in Hwt.
  apply pedge_cases in He. destruct He as [(-> & -> & _)|(t & _ & Hj1 & Hi & Hwe)].
  { exfalso. injection Hwt as Hwt. lia. }
  destruct q as [|[w' u'] q _] using rev_ind; [inversion Hw; subst; lia|].
  apply wwalk_snoc_inv in Hw. destruct Hw as (j' & _ & _ & <-).
  exists j. eexists. eexists. split; [nia|]. split; [exists (j + Z.of_nat t); lia|].
  intros fuel Hfuel. destruct (HF fuel Hfuel) as (_ & H & _). rewrite H. rewrite !map_app. cbn [map snd]. rewrite app_comm_cons, rev_app_distr, app_comm_cons, rev_app_distr. reflexivity.
Qed.
