(** Proofs about the program for primes. *)
From Coq Require Import List ZArith Bool Lia Sorted Arith Znumtheory.
From Verif Require Import Machine GearSpec Spec TraversalSpec Common Weight WeightSpec DijkstraModel DijkstraProofs DijkstraPaths DijkstraMore DijkstraPlain AwareModel AwareMore SieveModel.
Import ListNotations.

(** ** A function that depends on the distance of the vertex, and the fixed graph for the final distances *)
Section DistanceAware.
Context {V I L : Type}.
Variable I_dec : forall a b : I, {a = b} + {a <> b}.
Variable vid : V -> I.
Variable WT : Weights.
Variable DM : DMap I (w_t WT) (w_inf WT).
Variable PM : PMap I V.
Variable LM : PMap I L.
Variable cfg : dij_cfg.
Hypothesis Htree : dc_is_tree cfg = false.
Variable next : V -> list (V * w_t WT * L).
Variable E : I -> w_t WT -> I -> Prop.
Hypothesis Hnext : presents_weighted WT vid next E.
Hypothesis Hnn : nonnegative WT E.
Variable starts : list V.
Variable lim : option Z.
Variable f : w_t WT -> V -> list (V * w_t WT * L).
Hypothesis Hf : forall v d, is_distance WT E (is_start vid starts) (vid v) d -> f d v = next v.
Notation state := (@dij_state V I L WT DM PM LM).
Notation BigS := (BigS vid WT DM PM LM next cfg E starts None).
Notation H0 := (Hd0 I_dec vid WT DM PM LM next cfg Htree E Hnext Hnn starts).
Variable dist : state -> w_t WT.
Hypothesis Hdist : forall s w no x h, d_heap s = ((w, no), x) :: h -> dist s = w.

Lemma distance_aware_step i s os : BigS os s ->
  aware_step (fun g => dij_step vid WT DM PM LM g cfg) (dij_asks vid WT cfg) [] (fun _ s v => inr (f (dist s) v)) i s = dij_step vid WT DM PM LM next cfg s.
Proof using I_dec Htree Hnext Hnn Hf Hdist.
  intros HB. unfold aware_step.
  assert (HN : first_exception (map (fun v => inr (f (dist s) v)) (dij_asks vid WT cfg s)) = @None exn).
  { induction (dij_asks vid WT cfg s); simpl; auto. }
  rewrite HN. apply (dij_local vid WT DM PM LM cfg). cbn [edges_of].
  intros v Hv. apply Hf. unfold dij_asks in Hv.
  destruct (d_pc s) eqn:Hpc; [|destruct Hv]. destruct (d_heap s) as [|[[w no] [u k]] h] eqn:Hh; [destruct Hv|].
  rewrite (Hdist s w no (u, k) h Hh).
  destruct (limit_check (d_limit s)); [|destruct Hv]. rewrite Htree in Hv. cbn [negb andb] in Hv.
  destruct (w_ltb WT (dm_get DM (vid u) (d_distances s)) w) eqn:Hlt; [destruct Hv|]. destruct Hv as [<-|[]].
  destruct HB as [HI _ _ _]. rewrite Hpc, Hh in HI.
  pose proof (Inv_settle I_dec vid WT DM next cfg E Hnext Hnn starts None H0 _ (w, no, (u, k)) h _ HI Hlt) as HI'.
  eapply (settled_distance I_dec vid WT DM PM LM next cfg Htree E Hnext Hnn starts _ _ _ _ _ _ HI').
  exists u, k. split; [now left|reflexivity].
Qed.

Lemma distance_aware n : forall i s os, BigS os s ->
  aware_run (fun g => dij_step vid WT DM PM LM g cfg) (dij_asks vid WT cfg) [] (fun _ s v => inr (f (dist s) v)) i n s = run (dij_step vid WT DM PM LM next cfg) n s.
Proof using I_dec Htree Hnext Hnn Hf Hdist.
  induction n as [|n IH]; intros i s os HB; [reflexivity|]. cbn [aware_run run]. rewrite (distance_aware_step i s os HB).
  destruct (dij_step vid WT DM PM LM next cfg s) as [o s'|o s'|o x s'] eqn:Hst; auto.
  rewrite (IH (S i) s' (os ++ o)); [reflexivity|]. eapply (BigS_step I_dec vid WT DM PM LM next cfg Htree E Hnext Hnn starts None H0); eauto.
Qed.

Lemma distance_aware_run n :
  aware_run (fun g => dij_step vid WT DM PM LM g cfg) (dij_asks vid WT cfg) [] (fun _ s v => inr (f (dist s) v)) 0 n (dij_init vid WT DM PM LM cfg starts None lim) =
  dij_run vid WT DM PM LM next cfg starts None lim n.
Proof using I_dec Htree Hnext Hnn Hf Hdist. unfold dij_run. apply (distance_aware n 0 _ []). apply BigS_init; auto. Qed.
End DistanceAware.

(** ** Numbers *)
Open Scope Z_scope.

Lemma prime_divisor n : 1 < n -> exists p, prime p /\ (p | n).
Proof.
  intros Hn. pattern n. assert (H : 0 <= n) by lia. revert Hn. pattern n. apply Z_lt_induction; [|exact H]. clear n H.
  intros n IH Hn. destruct (prime_dec n) as [Hp|Hp]; [exists n; split; auto; exists 1; lia|].
  destruct (not_prime_divide n Hn Hp) as (d & Hd & Hdn).
  destruct (IH d) as (p & Hp' & Hpd); [lia|lia|]. exists p. split; auto. eapply Z.divide_trans; eauto.
Qed.

Lemma composite n : 1 < n -> ~ prime n -> exists p, prime p /\ (p | n) /\ p * p <= n /\ p < n.
Proof.
  intros Hn Hp. destruct (not_prime_divide n Hn Hp) as (a & Ha & (b & Hb)).
  assert (H : exists c d, 1 < c /\ c <= d /\ n = d * c).
  { destruct (Z_le_dec a b); [exists a, b; lia|]. exists b, a. split; [nia|]. split; [lia|]. lia. }
  destruct H as (c & d & Hc & Hcd & ->). destruct (prime_divisor c Hc) as (p & Hp' & Hpc).
  assert (Hle : p <= c) by (apply Z.divide_pos_le; [lia|auto]). pose proof (prime_ge_2 p Hp').
  exists p. split; [auto|]. split; [apply Z.divide_mul_r; auto|]. split; nia.
Qed.

Lemma multiple_not_prime p m : prime p -> (p | m) -> p * p <= m -> ~ prime m.
Proof.
  intros Hp Hd Hm Hq. pose proof (prime_ge_2 p Hp). destruct (prime_divisors m Hq p Hd) as [H1|[H1|[H1|H1]]]; nia.
Qed.

(** ** The graph for the final distances *)
Definition D (i : Z) : Z := if i =? 1 then 0 else if prime_dec i then 2 * i else 2 * i - 1.
Definition sieve_next (v : Z * Z) : list ((Z * Z) * option Z * unit) := if snd v <=? 0 then [] else sieve_edges (Some (D (fst v))) v.
Definition sieve_graph (v : Z * Z) (w : option Z) (u : Z * Z) : Prop := In (u, w, tt) (sieve_next v).
Definition first_vertex (v : Z * Z) : Prop := v = (1, 1).

(** Vertices that can be reached, and their distances *)
Definition good (v : Z * Z) : Prop := (snd v = 1 /\ 1 <= fst v) \/ (prime (snd v) /\ (snd v | fst v) /\ snd v * snd v <= fst v).
Definition pot (v : Z * Z) : Z := if snd v =? 1 then D (fst v) else 2 * fst v - 1.

Lemma D_1 : D 1 = 0. Proof. reflexivity. Qed.
Lemma D_prime p : prime p -> D p = 2 * p.
Proof. intros H. unfold D. pose proof (prime_ge_2 p H). rewrite (proj2 (Z.eqb_neq p 1)) by lia. destruct (prime_dec p); [reflexivity|contradiction]. Qed.
Lemma D_composite m : m <> 1 -> ~ prime m -> D m = 2 * m - 1.
Proof. intros H1 H. unfold D. rewrite (proj2 (Z.eqb_neq m 1)) by lia. destruct (prime_dec m); [contradiction|reflexivity]. Qed.
Lemma D_le m : D m <= 2 * m \/ m = 0 \/ m < 0.
Proof. unfold D. destruct (Z.eqb_spec m 1); [lia|]. destruct (prime_dec m); lia. Qed.
Lemma D_bound m : 1 <= m -> 0 <= D m <= 2 * m /\ (D m = 2 * m -> prime m).
Proof. intros H. unfold D. destruct (Z.eqb_spec m 1); [split; lia|]. destruct (prime_dec m); split; auto; lia. Qed.

Lemma graph_cases v w u : sieve_graph v w u ->
  (snd v = 1 /\ u = (fst v + 1, 1) /\ w = Some (2 * (fst v + 1) - D (fst v))) \/
  (snd v = 1 /\ D (fst v) = 2 * fst v /\ u = (fst v * fst v, fst v) /\ w = Some (2 * (fst v * fst v - fst v) - 1)) \/
  (1 < snd v /\ u = (fst v + snd v, snd v) /\ w = Some (2 * snd v)) \/
  (1 < snd v /\ u = (fst v, 1) /\ w = Some 0).
Proof.
  destruct v as [i c]. unfold sieve_graph, sieve_next, sieve_edges. cbn [fst snd].
  destruct (Z.leb_spec c 0) as [Hc|Hc]; [intros []|]. destruct (Z.eqb_spec c 1) as [->|H1].
  - cbn [minus_distance equals_distance]. intros [H|H].
    + inversion H; subst. auto.
    + destruct (Z.eqb_spec (2 * i) (D i)) as [Hd|Hd]; [|destruct H]. destruct H as [H|[]]. inversion H; subst. right. left. auto.
  - intros [H|[H|[]]]; inversion H; subst; right; right; [left|right]; repeat split; auto; lia.
Qed.

Lemma graph_presents : presents_weighted ZI (fun v : Z * Z => v) sieve_next sieve_graph.
Proof.
  intros u w j. unfold sieve_graph. rewrite in_map_iff. split.
  - intros ([[x y] []] & H & Hin). cbn in H. inversion H; subst. exact Hin.
  - intros H. exists (j, w, tt). auto.
Qed.

Lemma D_neg m : m < 1 -> D m = 2 * m - 1.
Proof. intros H. apply D_composite; [lia|]. intros Hp. pose proof (prime_ge_2 m Hp). lia. Qed.

Lemma graph_nonnegative : nonnegative ZI sieve_graph.
Proof.
  intros i w j H. apply graph_cases in H.
  destruct H as [(_ & _ & ->)|[(_ & Hd & _ & ->)|[(H & _ & ->)|(_ & _ & ->)]]]; [| | |reflexivity]; apply Z.leb_le.
  - destruct (Z_lt_dec (fst i) 1) as [H|H]; [rewrite D_neg by auto; lia|]. pose proof (D_bound (fst i)). lia.
  - destruct (Z_lt_dec (fst i) 1) as [H|H]; [rewrite D_neg in Hd by auto; lia|].
    assert (Hp : prime (fst i)) by (apply D_bound; auto; lia). pose proof (prime_ge_2 _ Hp). nia.
  - lia.
Qed.

Lemma good_edge v w u : good v -> sieve_graph v w u -> good u /\ exists x, w = Some x /\ pot u <= x + pot v.
Proof.
  intros Hg H. apply graph_cases in H. unfold good, pot in *.
  destruct H as [(H1 & -> & ->)|[(H1 & Hd & -> & ->)|[(H1 & -> & ->)|(H1 & -> & ->)]]]; cbn [fst snd] in *.
  - rewrite H1 in *. destruct Hg as [(_ & Hi)|(Hp & _)]; [|pose proof (prime_ge_2 _ Hp); lia].
    split; [left; lia|]. eexists. split; [reflexivity|]. cbn [Z.eqb Pos.eqb]. pose proof (D_bound (fst v + 1)). lia.
  - rewrite H1 in *. destruct Hg as [(_ & Hi)|(Hp & _)]; [|pose proof (prime_ge_2 _ Hp); lia].
    assert (Hp : prime (fst v)) by (apply D_bound; auto). pose proof (prime_ge_2 _ Hp). split.
    + right. split; [auto|]. split; [exists (fst v); lia|lia].
    + eexists. split; [reflexivity|]. rewrite (proj2 (Z.eqb_neq (fst v) 1)) by lia. cbn [Z.eqb Pos.eqb]. lia.
  - destruct Hg as [(? & _)|(Hp & Hd & Hle)]; [lia|]. split.
    + right. split; [auto|]. split; [apply Z.divide_add_r; auto; apply Z.divide_refl|lia].
    + eexists. split; [reflexivity|]. rewrite (proj2 (Z.eqb_neq (snd v) 1)) by lia. lia.
  - destruct Hg as [(? & _)|(Hp & Hd & Hle)]; [lia|]. pose proof (prime_ge_2 _ Hp). split.
    + left. split; [auto|]. nia.
    + eexists. split; [reflexivity|]. rewrite (proj2 (Z.eqb_neq (snd v) 1)) by lia. cbn [Z.eqb Pos.eqb].
      rewrite D_composite; [lia|nia|]. eapply multiple_not_prime; eauto.
Qed.

(** Walks are not shorter than [pot]. *)
Lemma walk_bound p : forall v, wwalk ZI sieve_graph (1, 1) p v -> good v /\ exists x, walk_weight ZI p = Some x /\ pot v <= x.
Proof.
  induction p as [|[w u] p IH] using rev_ind; intros v H.
  - inversion H; subst. split; [left; cbn; lia|]. exists 0. split; [reflexivity|]. cbn. lia.
  - apply wwalk_snoc_inv in H. destruct H as (j & Hw & He & ->). destruct (IH j Hw) as (Hg & x & Hx & Hle).
    destruct (good_edge j w u Hg He) as (Hg' & y & -> & Hle'). split; [auto|]. exists (y + x). rewrite walk_weight_snoc, Hx. split; [reflexivity|lia].
Qed.

(** There are walks of this length. *)
Definition way (v : Z * Z) (d : Z) : Prop := exists p, wwalk ZI sieve_graph (1, 1) p v /\ walk_weight ZI p = Some d.

Lemma way_step v d w u : way v d -> sieve_graph v (Some w) u -> way u (w + d).
Proof. intros (p & Hp & Hd) He. exists (p ++ [(Some w, u)]). split; [eapply wwalk_snoc; eauto|]. rewrite walk_weight_snoc, Hd. reflexivity. Qed.

Lemma edge_next i : sieve_graph (i, 1) (Some (2 * (i + 1) - D i)) (i + 1, 1).
Proof. left. reflexivity. Qed.
Lemma edge_square p : prime p -> sieve_graph (p, 1) (Some (2 * (p * p - p) - 1)) (p * p, p).
Proof. intros H. right. cbn [fst]. rewrite (D_prime p H). cbn [equals_distance]. rewrite Z.eqb_refl. now left. Qed.
Lemma edge_multiple m p : 1 < p -> sieve_graph (m, p) (Some (2 * p)) (m + p, p).
Proof. intros H. unfold sieve_graph, sieve_next, sieve_edges. cbn [snd fst]. rewrite (proj2 (Z.leb_gt p 0)), (proj2 (Z.eqb_neq p 1)) by lia. now left. Qed.
Lemma edge_base m p : 1 < p -> sieve_graph (m, p) (Some 0) (m, 1).
Proof. intros H. unfold sieve_graph, sieve_next, sieve_edges. cbn [snd fst]. rewrite (proj2 (Z.leb_gt p 0)), (proj2 (Z.eqb_neq p 1)) by lia. right. now left. Qed.

Lemma way_multiples p k : prime p -> way (p, 1) (2 * p) -> 0 <= k -> way (p * p + k * p, p) (2 * (p * p + k * p) - 1).
Proof.
  intros Hp Hw. pose proof (prime_ge_2 p Hp). revert k. apply natlike_ind.
  - replace (p * p + 0 * p) with (p * p) by lia. replace (2 * (p * p) - 1) with ((2 * (p * p - p) - 1) + 2 * p) by lia.
    eapply way_step; [exact Hw|]. now apply edge_square.
  - intros k Hk IH. replace (2 * (p * p + Z.succ k * p) - 1) with (2 * p + (2 * (p * p + k * p) - 1)) by lia.
    replace (p * p + Z.succ k * p) with (p * p + k * p + p) by lia. eapply way_step; [exact IH|]. apply edge_multiple. lia.
Qed.

Lemma way_base i : 1 <= i -> way (i, 1) (D i).
Proof.
  intros Hi. assert (H : 0 <= i) by lia. revert Hi. pattern i. apply Z_lt_induction; [|exact H]. clear i H.
  intros i IH Hi. destruct (Z.eq_dec i 1) as [->|H1]; [exists []; split; [constructor|reflexivity]|].
  destruct (prime_dec i) as [Hp|Hp].
  - rewrite (D_prime i Hp). assert (Hw : way (i - 1, 1) (D (i - 1))) by (apply IH; lia).
    pose proof (way_step _ _ _ _ Hw (edge_next (i - 1))) as Hw'.
    replace (i - 1 + 1) with i in Hw' by lia. replace (2 * i - D (i - 1) + D (i - 1)) with (2 * i) in Hw' by lia. exact Hw'.
  - destruct (composite i) as (p & Hp' & (b & Hb) & Hle & Hlt); [lia|auto|]. pose proof (prime_ge_2 p Hp').
    rewrite (D_composite i H1 Hp). assert (Hw : way (p, 1) (D p)) by (apply IH; lia). rewrite (D_prime p Hp') in Hw.
    assert (Hw' : way (i, p) (2 * i - 1)).
    { replace i with (p * p + (b - p) * p) by lia. apply way_multiples; auto. nia. }
    change (2 * i - 1) with (0 + (2 * i - 1)). eapply way_step; [exact Hw'|]. apply edge_base. lia.
Qed.

Lemma way_good v : good v -> way v (pot v).
Proof.
  destruct v as [i c]. intros [(H1 & H2)|(Hp & (b & Hb) & Hle)]; cbn [fst snd] in *; unfold pot; cbn [fst snd].
  - subst c. apply way_base. auto.
  - pose proof (prime_ge_2 c Hp). rewrite (proj2 (Z.eqb_neq c 1)) by lia. replace i with (c * c + (b - c) * c) by lia. apply way_multiples; [auto| |nia].
    rewrite <- (D_prime c Hp). apply way_base. lia.
Qed.

Notation St := (is_start (fun v : Z * Z => v) [(1, 1)]).
Lemma start_iff v : St v <-> v = (1, 1).
Proof. unfold is_start. cbn. intuition. Qed.

Lemma distance_iff v d : is_distance ZI sieve_graph St v d <-> good v /\ d = Some (pot v).
Proof.
  assert (H : forall d, is_distance ZI sieve_graph St v d -> good v).
  { intros e [(s & p & Hs & Hw & _) _]. apply start_iff in Hs. subst s. now apply walk_bound in Hw. }
  assert (HG : good v -> is_distance ZI sieve_graph St v (Some (pot v))).
  { intros Hg. split.
    - destruct (way_good v Hg) as (p & Hp & Hd). exists (1, 1), p. split; [now apply start_iff|auto].
    - intros s p Hs Hw. apply start_iff in Hs. subst s. destruct (walk_bound p v Hw) as (_ & x & Hx & Hle). rewrite Hx. cbn. now apply Z.leb_le. }
  split.
  - intros Hd. split; [eauto|]. eapply is_distance_unique; [exact Hd|]. apply HG. eauto.
  - intros [Hg ->]. auto.
Qed.

(** ** Runs *)
Section Runs.
Variable DM : DMap (Z * Z) (option Z) None.
Variable PM : PMap (Z * Z) (Z * Z).
Variable LM : PMap (Z * Z) unit.
Variable cfg : dij_cfg.
Hypothesis Htree : dc_is_tree cfg = false.
Notation report := (@dij_report (Z * Z) (Z * Z) unit ZI DM PM LM).
Definition vertex_dec (a b : Z * Z) : {a = b} + {a <> b}.
Proof. decide equality; apply Z.eq_dec. Defined.
Notation srun n := (dij_run (fun v : Z * Z => v) ZI DM PM LM sieve_next cfg [(1, 1)] None None n).

Lemma sieve_static n : sieve_run DM PM LM cfg n = srun n.
Proof using Htree.
  unfold sieve_run. apply (distance_aware_run vertex_dec (fun v => v) ZI DM PM LM cfg Htree sieve_next sieve_graph graph_presents graph_nonnegative [(1, 1)] None sieve_edges).
  - intros [i c] d Hd. apply distance_iff in Hd. destruct Hd as [Hg ->]. unfold sieve_next. cbn [fst snd].
    assert (Hc : 0 < c). { destruct Hg as [(H & _)|(H & _)]; cbn [snd] in H; [lia|]. pose proof (prime_ge_2 _ H). lia. }
    rewrite (proj2 (Z.leb_gt c 0)) by lia. unfold pot. cbn [fst snd]. unfold sieve_edges.
    destruct (Z.eqb_spec c 1); reflexivity.
  - intros s w no x h Hh. unfold distance_at_call. rewrite Hh. reflexivity.
Qed.

Lemma static_reports n os r : srun n = (os, r) -> forall rep, In rep os -> good (dr_vertex rep) /\ dr_distance rep = Some (pot (dr_vertex rep)).
Proof using Htree.
  intros HR rep Hin. destruct (dij_distances vertex_dec (fun v => v) ZI DM PM LM sieve_next cfg Htree sieve_graph graph_presents graph_nonnegative [(1, 1)] None n os r HR) as [H _].
  apply distance_iff. apply H. auto.
Qed.

Lemma no_overflow n os s : srun n <> (os, Raised OverflowErrorDistance s).
Proof using Htree.
  intros HR. destruct (dij_overflow vertex_dec (fun v => v) ZI DM PM LM sieve_next cfg Htree sieve_graph graph_presents graph_nonnegative [(1, 1)] None n os _ HR) as (_ & _ & H & _).
  destruct (H s eq_refl) as (i & d & w & j & Hd & He & Hinf). apply distance_iff in Hd. destruct Hd as [Hg ->].
  destruct (good_edge i w j Hg He) as (_ & x & -> & _). cbn in Hinf. discriminate.
Qed.

Lemma upto_in a n : forall x, a <= x < a + Z.of_nat n -> In x (map (fun k => a + Z.of_nat k) (seq 0 n)).
Proof using. intros x Hx. apply in_map_iff. exists (Z.to_nat (x - a)). split; [lia|]. apply in_seq. lia. Qed.

(** Each vertex of the base sequence is reported. *)
Lemma base_reported i : 1 < i -> exists n, In (i, 1) (dij_ids (fun v => v) (fst (srun n))).
Proof using Htree.
  intros Hi. set (l := map (fun k => 0 + Z.of_nat k) (seq 0 (Z.to_nat (2 * i + 2)))).
  destruct (dij_plain_live vertex_dec (fun v => v) ZI DM PM LM sieve_next cfg Htree sieve_graph graph_presents graph_nonnegative [(1, 1)] (i, 1) (Some (D i)) (list_prod l l)) as (n & Hn).
  - apply distance_iff. split; [left; cbn; lia|]. reflexivity.
  - reflexivity.
  - rewrite start_iff. intros H. inversion H. lia.
  - intros s p [m c] Hs Hw Hle. apply start_iff in Hs. subst s. destruct (walk_bound p _ Hw) as (Hg & x & Hx & Hp). rewrite Hx in Hle.
    cbn in Hle. apply Z.leb_le in Hle. assert (HDi : D i <= 2 * i) by (apply D_bound; lia). unfold good, pot in *. cbn [fst snd] in *.
    apply in_prod; apply upto_in.
    + destruct (Z.eqb_spec c 1) as [->|Hc].
      * destruct Hg as [(_ & H1)|(H1 & _)]; [|pose proof (prime_ge_2 _ H1); lia]. unfold D in Hp at 1.
        destruct (Z.eqb_spec m 1); [lia|]. destruct (prime_dec m); lia.
      * destruct Hg as [(H1 & _)|(H1 & _ & H2)]; [lia|]. pose proof (prime_ge_2 _ H1). nia.
    + destruct (Z.eqb_spec c 1) as [->|Hc]; [lia|]. destruct Hg as [(H1 & _)|(H1 & _ & H2)]; [lia|]. pose proof (prime_ge_2 _ H1). nia.
  - exists n. destruct Hn as [(s & Hs)|Hn]; auto. exfalso. eapply (no_overflow n (fst (srun n)) s). rewrite <- Hs. now destruct (srun n).
Qed.

(** The program never ends and never fails. *)
Lemma static_running n : exists s, snd (srun n) = Running s.
Proof using Htree.
  destruct (srun n) as [os r] eqn:HR. destruct r as [s|s|x s]; [exists s; reflexivity| |].
  - exfalso. destruct (dij_reported vertex_dec (fun v => v) ZI DM PM LM sieve_next cfg Htree sieve_graph graph_presents graph_nonnegative [(1, 1)] None n os _ HR) as (_ & _ & H).
    assert (HB : exists b, forall v, In v (dij_ids (fun v => v) os) -> fst v < b).
    { clear. induction (dij_ids (fun v : Z * Z => v) os) as [|v l (b & IH)]; [exists 0; intros v []|].
      exists (Z.max b (fst v + 1)). intros u [<-|Hu]; [lia|]. specialize (IH u Hu). lia. }
    destruct HB as (b & HB). set (i := Z.max b 2).
    destruct (H s eq_refl (i, 1)) as [Hs|Hs].
    + destruct (way_base i) as (p & Hp & _); [lia|]. exists (1, 1), p. split; [now apply start_iff|auto].
    + apply start_iff in Hs. inversion Hs. lia.
    + apply HB in Hs. cbn in Hs. lia.
  - exfalso. destruct (dij_any vertex_dec (fun v => v) ZI DM PM LM sieve_next cfg Htree sieve_graph graph_presents graph_nonnegative [(1, 1)] None None
      (Hd0 vertex_dec (fun v => v) ZI DM PM LM sieve_next cfg Htree sieve_graph graph_presents graph_nonnegative [(1, 1)]) n os _ HR) as (X & pc & _ & [(_ & H & _)|(-> & _)]); [now apply H|].
    exact (no_overflow n os s HR).
Qed.

Lemma yields_in n p : In p (sieve_yields (fst (srun n))) <-> prime p /\ In (p, 1) (dij_ids (fun v => v) (fst (srun n))).
Proof using Htree.
  destruct (srun n) as [os r] eqn:HR. cbn [fst]. pose proof (static_reports n os r HR) as HS. unfold sieve_yields, dij_ids. rewrite !in_map_iff. split.
  - intros (rep & Hp & Hin). apply filter_In in Hin. destruct Hin as [Hin He]. destruct (HS rep Hin) as [Hg Hd]. rewrite Hd in He.
    destruct (dr_vertex rep) as [i c] eqn:Hv. cbn [fst] in *. subst i. cbn [equals_distance] in He. apply Z.eqb_eq in He. unfold pot, good in *. cbn [fst snd] in *.
    destruct (Z.eqb_spec c 1) as [->|Hc]; [|lia]. destruct Hg as [(_ & H1)|(H1 & _)]; [|pose proof (prime_ge_2 _ H1); lia].
    split; [apply D_bound; auto|]. exists rep. auto.
  - intros (Hp & rep & Hv & Hin). exists rep. rewrite Hv. split; [reflexivity|]. apply filter_In. split; [auto|]. destruct (HS rep Hin) as [_ Hd].
    rewrite Hd, Hv. unfold pot. cbn [fst snd Z.eqb Pos.eqb equals_distance]. rewrite (D_prime p Hp). apply Z.eqb_refl.
Qed.

Lemma yields_sorted n : StronglySorted Z.lt (sieve_yields (fst (srun n))).
Proof using Htree.
  destruct (srun n) as [os r] eqn:HR. cbn [fst]. pose proof (static_reports n os r HR) as HS.
  destruct (dij_distances vertex_dec (fun v => v) ZI DM PM LM sieve_next cfg Htree sieve_graph graph_presents graph_nonnegative [(1, 1)] None n os r HR) as [_ HD].
  destruct (dij_reported vertex_dec (fun v => v) ZI DM PM LM sieve_next cfg Htree sieve_graph graph_presents graph_nonnegative [(1, 1)] None n os r HR) as [HN _].
  unfold sieve_yields, dij_ids in *. clear HR. induction os as [|rep os IH]; cbn [filter map]; [constructor|].
  cbn [map] in HN. apply StronglySorted_inv in HD. destruct HD as [HD HF]. inversion HN as [|a b HN1 HN2]; subst. rewrite Forall_forall in HF.
  assert (IH' := IH (fun q Hq => HS q (or_intror Hq)) HD HN2). destruct (equals_distance _ _) eqn:He; [|exact IH'].
  cbn [map]. constructor; [exact IH'|]. apply Forall_forall. intros x Hx. apply in_map_iff in Hx. destruct Hx as (q & <- & Hq). apply filter_In in Hq. destruct Hq as [Hq Hqe].
  assert (HL := HF q Hq). destruct (HS rep (or_introl eq_refl)) as [Hg Hd]. destruct (HS q (or_intror Hq)) as [Hg' Hd'].
  rewrite Hd in HL, He. rewrite Hd' in HL, Hqe. cbn [equals_distance] in He, Hqe. apply Z.leb_le in HL. apply Z.eqb_eq in He, Hqe.
  destruct (Z.eq_dec (fst (dr_vertex rep)) (fst (dr_vertex q))) as [Heq|Hne]; [|lia]. exfalso. apply HN1. apply in_map_iff. exists q. split; [|auto].
  assert (HO : forall v, good v -> 2 * fst v = pot v -> snd v = 1).
  { clear. intros v Hg Hv. unfold pot in Hv. destruct (Z.eqb_spec (snd v) 1); [auto|lia]. }
  pose proof (HO _ Hg He). pose proof (HO _ Hg' Hqe). destruct (dr_vertex rep), (dr_vertex q). cbn in *. congruence.
Qed.

Lemma sorted_app_lt l1 l2 a b : StronglySorted Z.lt (l1 ++ l2) -> In a l1 -> In b l2 -> a < b.
Proof using.
  induction l1 as [|x l1 IH]; cbn; [intros _ []|]. intros HS. apply StronglySorted_inv in HS. destruct HS as [HS HF]. rewrite Forall_forall in HF.
  intros [<-|Ha] Hb; [apply HF; apply in_or_app; auto|auto].
Qed.

Lemma yields_prefix n m : (n <= m)%nat -> exists l, sieve_yields (fst (srun m)) = sieve_yields (fst (srun n)) ++ l.
Proof using.
  intros Hle. unfold dij_run. destruct (run_prefix (dij_step (fun v : Z * Z => v) ZI DM PM LM sieve_next cfg) n m (dij_init (fun v => v) ZI DM PM LM cfg [(1, 1)] None None) Hle) as (ext & He).
  exists (sieve_yields ext). rewrite He. unfold sieve_yields. rewrite filter_app. apply map_app.
Qed.

Lemma sieve_live p : prime p -> exists n, In p (sieve_yields (fst (sieve_run DM PM LM cfg n))).
Proof using Htree.
  intros Hp. pose proof (prime_ge_2 p Hp). destruct (base_reported p) as (n & Hn); [lia|]. exists n. rewrite sieve_static. now apply yields_in.
Qed.

Lemma sieve_primes n os r : sieve_run DM PM LM cfg n = (os, r) ->
  (exists s, r = Running s) /\ StronglySorted Z.lt (sieve_yields os) /\ (forall p, In p (sieve_yields os) -> prime p) /\
  (forall p q, In p (sieve_yields os) -> prime q -> q < p -> In q (sieve_yields os)).
Proof using Htree.
  rewrite sieve_static. intros HR. assert (Hos : os = fst (srun n)) by (rewrite HR; reflexivity).
  split; [|split; [|split]].
  - destruct (static_running n) as (s & Hs). rewrite HR in Hs. exists s. exact Hs.
  - rewrite Hos. apply yields_sorted.
  - intros p. rewrite Hos, yields_in. tauto.
  - intros p q Hp Hq Hlt. destruct (sieve_live q Hq) as (m & Hm). rewrite sieve_static in Hm. rewrite Hos in *.
    destruct (Nat.le_ge_cases m n) as [Hle|Hle]; destruct (yields_prefix _ _ Hle) as (l & Hl).
    + rewrite Hl. apply in_or_app. auto.
    + rewrite Hl in Hm. apply in_app_or in Hm. destruct Hm as [Hm|Hm]; [exact Hm|]. exfalso.
      pose proof (yields_sorted m) as HS. rewrite Hl in HS. pose proof (sorted_app_lt _ _ _ _ HS Hp Hm). lia.
Qed.
End Runs.
