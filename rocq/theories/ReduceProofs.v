(** The documented function traversal_shortest_paths_inf_branching_sorted does the same as the class TraversalShortestPathsInfBranchingSorted. *)
From Coq Require Import List ZArith Bool Lia Arith Sorted Znumtheory.
From Verif Require Import Machine GearSpec GearProofs Common TraversalSpec Weight WeightSpec HeapModel DijkstraModel DijkstraProofs DijkstraPaths DijkstraPlain AwareModel AwareMore
  InfModel InfSpec InfGraph InfRun InfMore InfAwareModel InfAwareProofs SieveModel PrimesModel PrimesProofs PrimesUpTo ReduceModel.
Import ListNotations.
Open Scope nat_scope.

Section Reduce.
Context {V : Type}.
Variable V_dec : forall a b : V, {a = b} + {a <> b}.
Variable f : V -> option Z -> nat -> option (V * option Z).
Variable edge : V -> nat -> option (V * option Z).
Hypothesis Hseq : edge_sequences edge.
Hypothesis Hsort : edges_sorted edge.
Hypothesis Hnn : edges_nonnegative edge.
Variable DM : DMap V (option Z) None.
Variable PM : PMap V V.
Variable DMi : DMap (V * nat) (option Z) None.
Variable PMi : PMap (V * nat) (V * nat).
Variable LMi : PMap (V * nat) unit.
Variable start : V.
Notation starts := [start].
Hypothesis Hf : forall v d, is_distance ZInfWeights (inf_edge edge) (fun s => In s starts) v d -> forall k, f v d k = edge v k.

Notation ZI := ZInfWeights.
Notation cfg := (inf_inner_cfg false).
Notation sid := (fun s : V * nat => s).
Notation nstate := (@inf_state V DM PM DMi PMi LMi).
Notation sstarts := (map (fun v : V => (v, 0)) starts).
Notation nstep := (inf_step V_dec edge DM PM DMi PMi LMi false false).
Notation Rel := (Rel edge DM PM DMi PMi LMi false false starts).
Notation SD := (@state_dec V V_dec).
Notation rstep := (red_step V_dec f DMi PMi LMi).

(** When a state is expanded, the noted distance of its base state is the final one. *)
Lemma base_is_distance pre s i v : Rel pre s i -> In (v, 0) (dij_asks sid ZI cfg i) -> is_distance ZI (inf_edge edge) (fun s => In s starts) v (dm_get DMi (v, 0) (d_distances i)).
Proof using Hseq Hsort Hnn V_dec.
  intros [HS HB HK HJ] Hst. pose proof (s_in _ _ _ _ _ _ _ _ _ _ _ HS) as Ei. subst i. pose proof (b_inv _ _ _ _ _ _ _ _ _ _ _ _ _ _ _ _ _ HB) as HI0.
  unfold dij_asks in Hst. destruct (d_pc (n_in s)) eqn:Hpc; [|destruct Hst]. destruct (d_heap (n_in s)) as [|[[w no] [u k]] h] eqn:Hh; [destruct Hst|].
  destruct (limit_check _); [|destruct Hst]. cbn [dc_is_tree inf_inner_cfg negb andb] in Hst.
  destruct (w_ltb ZI (dm_get DMi u (d_distances (n_in s))) w) eqn:Hlt; fold (w_ltb ZI) in *.
  - exfalso. change (In (v, 0) (if w_ltb ZI (dm_get DMi u (d_distances (n_in s))) w then [] else [u])) in Hst. rewrite Hlt in Hst. destruct Hst.
  - change (In (v, 0) (if w_ltb ZI (dm_get DMi u (d_distances (n_in s))) w then [] else [u])) in Hst. rewrite Hlt in Hst. destruct Hst as [->|[]].
    assert (Hd : dm_get DMi (v, 0) (d_distances (n_in s)) = w) by exact (proj2 (popped_new V_dec edge Hseq Hsort Hnn DMi PMi LMi false starts _ (w, no, ((v, 0), k)) h _ HI0 HK Hlt)).
    match goal with |- is_distance _ _ _ _ ?d => replace d with w by (symmetry; exact Hd) end.
    pose proof (Inv_settle SD sid ZI DMi (snext edge) cfg (SE edge) (SE_presents edge) (SE_nonneg edge Hseq Hsort Hnn) sstarts None
      (Hd0 SD sid ZI DMi PMi LMi (snext edge) cfg eq_refl (SE edge) (SE_presents edge) (SE_nonneg edge Hseq Hsort Hnn) sstarts) _ (w, no, ((v, 0), k)) h _ HI0 Hlt) as HI'.
    apply (dist_st_iff edge Hseq Hsort Hnn starts v w).
    refine (settled_distance SD sid ZI DMi PMi LMi (snext edge) cfg eq_refl (SE edge) (SE_presents edge) (SE_nonneg edge Hseq Hsort Hnn) sstarts _ _ _ _ _ _ HI' _).
    exists (v, 0), k. split; [now left|reflexivity].
Qed.

(** The same iterators *)
Definition iters_like (n : V -> option nat) (r : V -> option (option Z * nat)) : Prop :=
  forall v, match n v, r v with
            | None, None => True
            | Some t, Some (d, t') => t = t' /\ forall k, f v d k = edge v k
            | _, _ => False
            end.
Lemma edges_like it rt (D : dm_t DMi) v k : iters_like it rt -> (k = 0 -> forall j, f v (dm_get DMi (v, 0) D) j = edge v j) ->
  match next_state_edges V_dec edge DMi it D (v, k), red_edges V_dec f DMi rt D (v, k) with
  | None, None => True
  | Some (l, it'), Some (l', rt') => l = l' /\ iters_like it' rt'
  | _, _ => False
  end.
Proof using.
  intros Hi Hb. unfold next_state_edges, red_edges.
  assert (P : forall t x d, x = Some (d, t) -> (forall j, f v d j = edge v j) ->
    match (match edge v t with
       | Some (next_vertex, length_from_base) =>
          Some ([((next_vertex, 0), w_sub (w_add ZI length_from_base (dm_get DMi (v, 0) D)) (dm_get DMi (v, k) D), tt); ((v, S k), w_sub (w_add ZI length_from_base (dm_get DMi (v, 0) D)) (dm_get DMi (v, k) D), tt)],
            put V_dec it v (Some (S t)))
       | None => Some ([], put V_dec it v None) end),
      (match f v d t with
       | Some (next_vertex, length_from_base) =>
          Some ([((next_vertex, 0), w_sub (w_add ZI length_from_base (dm_get DMi (v, 0) D)) (dm_get DMi (v, k) D), tt); ((v, S k), w_sub (w_add ZI length_from_base (dm_get DMi (v, 0) D)) (dm_get DMi (v, k) D), tt)],
            red_put V_dec rt v (Some (d, S t)))
       | None => Some ([], red_put V_dec rt v None) end) with
    | None, None => True
    | Some (l, it'), Some (l', rt') => l = l' /\ iters_like it' rt'
    | _, _ => False
    end).
  { intros t x d _ Hd. rewrite Hd. destruct (edge v t) as [[u b]|]; (split; [reflexivity|]); intros x'; unfold put, red_put; (destruct (V_dec x' v) as [->|Hne]; [|apply Hi]); auto. }
  destruct k as [|k]; cbn [Nat.eqb].
  - exact (P 0 _ (dm_get DMi (v, 0) D) eq_refl (Hb eq_refl)).
  - specialize (Hi v). destruct (it v) as [t|] eqn:E1, (rt v) as [[d t']|] eqn:E2; try contradiction; [|exact Logic.I]. destruct Hi as (<- & Hd). exact (P t _ d eq_refl Hd).
Qed.

Notation pr := (fun rep : inf_report DM PM => (nr_vertex rep, nr_distance rep)).

Lemma step_out (nx : V * nat -> list (V * nat * option Z * unit)) i : match dij_step sid ZI DMi PMi LMi nx cfg i with Go o _ | Halt o _ | Raise o _ _ => length o <= 1 end.
Proof using.
  unfold dij_step. destruct (d_pc i) as [|v w k [|[[n ew] l] rest]]; [|cbn; lia|].
  - destruct (d_heap i) as [|[[w no] [u k]] h]; [cbn; lia|]. destruct (_ && _); [cbn; lia|]. cbv zeta. destruct (limit_check _); destruct (0 <? k); cbn; lia.
  - cbv zeta. destruct (w_leb ZI _ _); [cbn; lia|]. destruct (_ && _); cbn; lia.
Qed.

Lemma handle_out (s : nstate) (os : list (dij_report ZI DMi PMi LMi)) : length os <= 1 ->
  exists out s1, inf_handle V_dec DM PM DMi PMi LMi false false s os = inl (out, s1) /\ n_iters s1 = n_iters s /\ map pr out = red_out DMi PMi LMi os.
Proof using.
  intros Hl. destruct os as [|rep [|rep' os]]; [|clear Hl|cbn in Hl; lia].
  - exists [], s. split; [reflexivity|]. split; reflexivity.
  - unfold inf_handle, red_out. cbn [flat_map]. destruct (dr_vertex rep) as [v k]. cbn [fst snd]. destruct k as [|k]; cbn [Nat.eqb negb]; do 2 eexists; (split; [reflexivity|]); split; reflexivity.
Qed.

(** One pass *)
Lemma red_pass pre s i t : Rel pre s i -> rd_in DMi PMi LMi t = i -> iters_like (n_iters s) (rd_iters DMi PMi LMi t) ->
  match nstep s with
  | Go o s' => exists t', rstep t = Go (map pr o) t' /\ rd_in DMi PMi LMi t' = n_in s' /\ iters_like (n_iters s') (rd_iters DMi PMi LMi t')
  | Halt o _ => exists t', rstep t = Halt (map pr o) t'
  | Raise o x _ => exists t', rstep t = Raise (map pr o) x t'
  end.
Proof using Hseq Hsort Hnn Hf.
  intros HR Ht Hit. pose proof (s_in _ _ _ _ _ _ _ _ _ _ _ (r_same _ _ _ _ _ _ _ _ _ _ _ _ HR)) as Hin.
  assert (Q : forall st, In st (dij_asks sid ZI cfg i) -> match next_state_edges V_dec edge DMi (n_iters s) (d_distances i) st, red_edges V_dec f DMi (rd_iters DMi PMi LMi t) (d_distances i) st with
    | None, None => True | Some (l, it'), Some (l', rt') => l = l' /\ iters_like it' rt' | _, _ => False end).
  { intros [v k] Hst. apply edges_like; [exact Hit|]. intros -> j. apply Hf. exact (base_is_distance pre s i v HR Hst). }
  unfold inf_step, red_step. rewrite Hin, Ht.
  set (e1 := fun st : V * nat => match next_state_edges V_dec edge DMi (n_iters s) (d_distances i) st with Some (l, _) => l | None => [] end).
  set (e2 := fun st : V * nat => match red_edges V_dec f DMi (rd_iters DMi PMi LMi t) (d_distances i) st with Some (l, _) => l | None => [] end).
  assert (HS : dij_step sid ZI DMi PMi LMi e2 red_cfg i = dij_step sid ZI DMi PMi LMi e1 cfg i).
  { apply (dij_local sid ZI DMi PMi LMi cfg). intros st Hst. specialize (Q st Hst). unfold e1, e2. destruct (next_state_edges _ _ _ _ _ st) as [[l it']|], (red_edges _ _ _ _ _ st) as [[l' rt']|]; try contradiction; [symmetry; apply Q|reflexivity]. }
  rewrite HS. clear HS. pose proof (step_out e1 i) as Ho. destruct (dij_step sid ZI DMi PMi LMi e1 cfg i) as [o i'|o i'|o x i'] eqn:Hst.
  - destruct (handle_out s o Ho) as (out & s1 & -> & E2 & E3). destruct (inf_expanded DMi PMi LMi i i') as [st|] eqn:He.
    + assert (Hask : In st (dij_asks sid ZI cfg i)).
      { clear - Hst He. unfold inf_expanded in He. destruct (d_pc i) eqn:Hpc; [|discriminate]. unfold dij_step in Hst. rewrite Hpc in Hst. unfold dij_asks. rewrite Hpc.
        destruct (d_heap i) as [|[[w no] [v k]] h]; [discriminate|].
        match goal with |- In _ (match _ with Some _ => if ?c then _ else _ | None => _ end) => destruct c eqn:Hc end; fold (w_ltb ZI) in *.
        - inversion Hst; subst. cbn in He. rewrite Hpc in He. discriminate.
        - cbv zeta in Hst. change (d_limit (dij_settle sid ZI DMi PMi LMi cfg (d_set_heap ZI DMi PMi LMi i h) v w k)) with (d_limit i) in Hst.
          destruct (limit_check (d_limit i)); [|discriminate]. inversion Hst; subst. cbn in He. injection He as <-. now left. }
      specialize (Q st Hask). destruct (next_state_edges _ _ _ _ _ st) as [[l it']|], (red_edges _ _ _ _ _ st) as [[l' rt']|]; try contradiction.
      * rewrite E3. eexists. split; [reflexivity|]. split; [reflexivity|]. exact (proj2 Q).
      * rewrite E3. eexists. reflexivity.
    + rewrite E3. eexists. split; [reflexivity|]. split; [reflexivity|]. cbn. rewrite E2. exact Hit.
  - destruct (handle_out s o Ho) as (out & s1 & -> & E2 & E3). rewrite E3. eexists. reflexivity.
  - destruct (handle_out s o Ho) as (out & s1 & -> & E2 & E3). rewrite E3. eexists. reflexivity.
Qed.

(** The same results, after each number of passes *)
Definition same_end {A B : Type} (r1 : outcome A exn) (r2 : outcome B exn) : Prop :=
  match r1, r2 with Running _, Running _ => True | Ended _, Ended _ => True | Raised x _, Raised y _ => x = y | _, _ => False end.
Lemma red_same n : forall pre s i t, Rel pre s i -> rd_in DMi PMi LMi t = i -> iters_like (n_iters s) (rd_iters DMi PMi LMi t) ->
  fst (run rstep n t) = map pr (fst (run nstep n s)) /\ same_end (snd (run rstep n t)) (snd (run nstep n s)).
Proof using Hseq Hsort Hnn Hf.
  induction n as [|n IH]; intros pre s i t HR Ht Hit; [split; [reflexivity|exact Logic.I]|]. cbn [run]. pose proof (red_pass pre s i t HR Ht Hit) as Hp.
  pose proof (step_sim V_dec edge Hseq Hsort Hnn DM PM DMi PMi LMi false false starts pre s i HR) as Hsim.
  destruct (nstep s) as [o s'|o s'|o x s'].
  - destruct Hp as (t' & -> & P1 & P2). cbn [fst snd]. destruct (dij_step _ _ _ _ _ _ _ i) as [o' i'|o' i'|o' x i']; destruct Hsim as (s2 & E & HR'); try discriminate. injection E as -> ->.
    pose proof (s_in _ _ _ _ _ _ _ _ _ _ _ (r_same _ _ _ _ _ _ _ _ _ _ _ _ HR')) as Hin'. rewrite map_app. destruct (IH _ s2 i' t' HR' ltac:(congruence) P2) as (I1 & I2). rewrite I1. auto.
  - destruct Hp as (t' & ->). cbn. auto.
  - destruct Hp as (t' & ->). cbn. auto.
Qed.
Theorem red_is_inf n : fst (red_run V_dec f DMi PMi LMi start n) = map pr (fst (inf_run V_dec edge DM PM DMi PMi LMi false false starts None n)) /\
  same_end (snd (red_run V_dec f DMi PMi LMi start n)) (snd (inf_run V_dec edge DM PM DMi PMi LMi false false starts None n)).
Proof using Hseq Hsort Hnn Hf.
  unfold red_run, inf_run. eapply red_same; [apply Rel_init; auto; repeat constructor; intros []|reflexivity|]. intros v. exact Logic.I.
Qed.
End Reduce.

(** What the class delivers, carried over to the function *)
Section Results.
Context {V : Type}.
Variable V_dec : forall a b : V, {a = b} + {a <> b}.
Variable f : V -> option Z -> nat -> option (V * option Z).
Variable edge : V -> nat -> option (V * option Z).
Hypothesis Hseq : edge_sequences edge.
Hypothesis Hsort : edges_sorted edge.
Hypothesis Hnn : edges_nonnegative edge.
Variable DMi : DMap (V * nat) (option Z) None.
Variable PMi : PMap (V * nat) (V * nat).
Variable LMi : PMap (V * nat) unit.
Variable start : V.
Hypothesis Hf : forall v d, is_distance ZInfWeights (inf_edge edge) (fun s => In s [start]) v d -> forall k, f v d k = edge v k.
Notation E := (inf_edge edge).
Notation St := (fun s => In s [start]).
Notation rrun := (red_run V_dec f DMi PMi LMi start).
Notation lrun := (inf_run V_dec edge (HashDMap V_dec None) (HashPMap V_dec) DMi PMi LMi false false [start] None).

Lemma nd_start : NoDup [start].
Proof using. repeat constructor. intros []. Qed.

Lemma sorted_pairs (P : option Z -> option Z -> Prop) l : StronglySorted (fun a b => P (nr_distance a) (nr_distance b)) l ->
  StronglySorted P (map snd (map (fun rep : inf_report (HashDMap V_dec (None : option Z)) (HashPMap (A := V) V_dec) => (nr_vertex rep, nr_distance rep)) l)).
Proof using.
  induction 1 as [|rep l HS IH HF]; constructor; [exact IH|]. rewrite Forall_forall in *. intros d Hd. change (In d (map snd (map (fun rep : inf_report (HashDMap V_dec (None : option Z)) (HashPMap (A := V) V_dec) => (nr_vertex rep, nr_distance rep)) l))) in Hd. rewrite map_map in Hd. apply in_map_iff in Hd. destruct Hd as (r2 & <- & H2). now apply HF.
Qed.

Lemma red_reports n os r : rrun n = (os, r) ->
  NoDup (map fst os) /\ StronglySorted (fun a b => w_leb ZInfWeights a b = true) (map snd os) /\
  (forall v d, In (v, d) os -> v <> start /\ is_distance ZInfWeights E St v d /\ d <> None) /\
  (forall s, r = Ended s -> forall v, wreachable ZInfWeights E St v -> v = start \/ In v (map fst os)).
Proof using Hseq Hsort Hnn Hf.
  intros HR. destruct (red_is_inf V_dec f edge Hseq Hsort Hnn (HashDMap V_dec None) (HashPMap V_dec) DMi PMi LMi start Hf n) as (H1 & H2). rewrite HR in H1, H2. cbn [fst snd] in H1, H2.
  destruct (lrun n) as [os' r'] eqn:HL. cbn [fst snd] in H1, H2. destruct (inf_reports V_dec edge Hseq Hsort Hnn _ _ DMi PMi LMi false false [start] nd_start None n os' r' HL) as (A & B & C & D).
  subst os. rewrite map_map. cbn [fst]. split; [exact A|]. split; [apply (sorted_pairs (fun a b => w_leb ZInfWeights a b = true)); exact B|]. split.
  - intros v d Hin. apply in_map_iff in Hin. destruct Hin as (rep & [= <- <-] & Hin). destruct (C rep Hin) as (C1 & C2 & C3). split; [|split; assumption]. intros Hc. apply C1. rewrite Hc. now left.
  - intros s -> v Hv. destruct r' as [s'|s'|x s']; try contradiction. destruct (D s' eq_refl v Hv) as [[<-|[]]|Hin]; [now left|now right].
Qed.

(** A vertex at a finite distance, with finitely many walks and edges up to this distance, is reported. *)
Lemma red_live v d lv le : is_distance ZInfWeights E St v d -> d <> None -> v <> start ->
  (forall q u, wwalk ZInfWeights E start q u -> w_leb ZInfWeights (walk_weight ZInfWeights q) d = true -> In u lv) ->
  (forall q u k t w, wwalk ZInfWeights E start q u -> edge u k = Some (t, w) -> w_leb ZInfWeights (w_add ZInfWeights w (walk_weight ZInfWeights q)) d = true -> In (u, k) le) ->
  edges_finite edge -> exists n, In (v, d) (fst (rrun n)).
Proof using Hseq Hsort Hnn Hf.
  intros Hd Hfin Hne H1 H2 Hef. 
  destruct (inf_live V_dec edge Hseq Hsort Hnn (HashDMap V_dec None) (HashPMap V_dec) DMi PMi LMi false false [start] nd_start v d lv le Hd Hfin) as (n & [(s & Hn)|Hn]).
  - intros [Hc|[]]. now apply Hne.
  - intros s q u [<-|[]]. apply H1.
  - intros s q u k t w [<-|[]]. apply H2.
  - exfalso. exact (inf_no_overflow V_dec edge Hseq Hsort Hnn _ _ DMi PMi LMi false false [start] nd_start None n s Hef Hn).
  - exists n. rewrite (proj1 (red_is_inf V_dec f edge Hseq Hsort Hnn (HashDMap V_dec None) (HashPMap V_dec) DMi PMi LMi start Hf n)). apply in_map_iff in Hn. destruct Hn as (rep & <- & Hin). apply in_map_iff. exists rep. split; [|exact Hin].
    enough (nr_distance rep = d) as -> by reflexivity. destruct (lrun n) as [os' r'] eqn:HL. cbn [fst] in Hin. destruct (inf_reports V_dec edge Hseq Hsort Hnn _ _ DMi PMi LMi false false [start] nd_start None n os' r' HL) as (_ & _ & C & _).
    exact (is_distance_unique _ _ _ _ _ _ (proj1 (proj2 (C rep Hin))) Hd).
Qed.
End Results.

(** The primes *)
Section Primes.
Variable DMi : DMap (Z * nat) (option Z) None.
Variable PMi : PMap (Z * nat) (Z * nat).
Variable LMi : PMap (Z * nat) unit.
Notation hd := (HashDMap Z.eq_dec (None : option Z)).
Notation hp := (HashPMap (A := Z) Z.eq_dec).
Lemma red_primes_same n : red_primes DMi PMi LMi n = primes_of (fst (prime_search hd hp DMi PMi LMi false false n)).
Proof using.
  unfold red_primes. rewrite (proj1 (red_is_inf Z.eq_dec prime_search_edges pedge pedge_sequences pedge_sorted pedge_nonnegative hd hp DMi PMi LMi 1%Z
    ltac:(intros v d Hd k; apply p_distance_iff in Hd; destruct Hd as [_ ->]; reflexivity) n)).
  rewrite (p_static hd hp DMi PMi LMi false false n). unfold primes_of. generalize (fst (inf_run Z.eq_dec pedge hd hp DMi PMi LMi false false [1%Z] None n)). intros l.
  induction l as [|rep l IH]; [reflexivity|]. cbn [map filter fst snd]. destruct (equals_distance _ _); cbn [map fst]; rewrite IH; reflexivity.
Qed.
End Primes.
