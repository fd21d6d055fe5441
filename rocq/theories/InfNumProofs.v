(** Infinite branching with rounded numbers: where sums and differences are exact, the search does what it does with exact numbers. *)
From Coq Require Import List ZArith Bool Lia Arith.
From Verif Require Import Machine GearSpec GearProofs Common TraversalSpec Weight WeightSpec HeapModel DijkstraModel DijkstraProofs DijkstraPaths DijkstraPlain AwareModel AwareMore
  InfModel InfSpec InfGraph InfRun InfMore InfNumModel ReduceModel ReduceProofs.
Import ListNotations.
Open Scope nat_scope.

Section Asked.
Context {V : Type}.
Variable V_dec : forall a b : V, {a = b} + {a <> b}.
Variable edge : V -> nat -> option (V * option Z).
Hypothesis Hseq : edge_sequences edge.
Hypothesis Hsort : edges_sorted edge.
Hypothesis Hnn : edges_nonnegative edge.
Variable DM : DMap V (option Z) None.
Variable PM : PMap V V.
Variable DMi : DMap (V * nat) (option Z) None.
Variable PMi : PMap (V * nat) (V * nat).
Variable LMi : PMap (V * nat) unit.
Variable starts : list V.
Notation ZI := ZInfWeights.
Notation cfg := (inf_inner_cfg false).
Notation sid := (fun s : V * nat => s).
Notation sstarts := (map (fun v : V => (v, 0)) starts).
Notation Rel := (Rel edge DM PM DMi PMi LMi false false starts).
Notation SD := (@state_dec V V_dec).

Lemma asked_facts pre s i v k c w no h : Rel pre s i -> d_pc i = DLoop ZI -> d_heap i = (w, no, ((v, k), c)) :: h -> w_ltb ZI (dm_get DMi (v, k) (d_distances i)) w = false ->
  dm_get DMi (v, k) (d_distances i) = w /\ is_distance ZI (inf_edge edge) (fun s => In s starts) v (dm_get DMi (v, 0) (d_distances i)) /\
  (if Nat.eqb k 0 then Some 0 else n_iters s v) = Some k.
Proof using Hseq Hsort Hnn V_dec.
  intros [HS HB HK HJ] Hpc Hh Hlt. pose proof (b_inv _ _ _ _ _ _ _ _ _ _ _ _ _ _ _ _ _ HB) as HI0. rewrite Hpc, Hh in HI0. rewrite Hh in HK.
  assert (Hd : dm_get DMi (v, k) (d_distances i) = w) by exact (proj2 (popped_new V_dec edge Hseq Hsort Hnn DMi PMi LMi false starts _ (w, no, ((v, k), c)) h _ HI0 HK Hlt)).
  destruct (expand_ok V_dec edge Hseq Hsort Hnn DMi PMi LMi false starts _ (w, no, ((v, k), c)) h _ _ HI0 HK HJ Hlt) as (it' & _ & _ & Htk).
  split; [exact Hd|]. split; [|exact Htk].
  pose proof (Inv_settle SD sid ZI DMi (snext edge) cfg (SE edge) (SE_presents edge) (SE_nonneg edge Hseq Hsort Hnn) sstarts None
      (Hd0 SD sid ZI DMi PMi LMi (snext edge) cfg eq_refl (SE edge) (SE_presents edge) (SE_nonneg edge Hseq Hsort Hnn) sstarts) _ (w, no, ((v, k), c)) h _ HI0 Hlt) as HI'.
  apply (dist_st_iff edge Hseq Hsort Hnn starts v).
  refine (settled_distance SD sid ZI DMi PMi LMi (snext edge) cfg eq_refl (SE edge) (SE_presents edge) (SE_nonneg edge Hseq Hsort Hnn) sstarts _ _ _ _ _ _ HI' _).
  destruct k as [|j].
  - exists (v, 0), c. split; [left|reflexivity]. change ((v, 0, w, c) = (v, 0, dm_get DMi (v, 0) (d_distances i), c)). now rewrite Hd.
  - destruct (k_H _ _ _ HK _ (or_introl eq_refl) v j eq_refl) as (u0 & b0 & a0 & w' & He0 & Hb0 & Hs' & Hw).
    destruct (settled_base V_dec edge Hseq Hsort Hnn DMi PMi LMi false starts _ _ _ _ v HI0 HK j w' Hs') as (w0 & a & H0 & _).
    pose proof (i_dX _ _ _ _ _ _ _ _ _ _ _ _ HI0 _ _ H0) as H0d. destruct H0 as (x & c' & Hin & Hx). exists x, c'. split; [right|exact Hx].
    match goal with |- In (x, ?d, c') _ => replace d with (Some w0) by (symmetry; exact H0d) end. exact Hin.
Qed.
End Asked.

(** ** One pass of TraversalShortestPaths with corresponding numbers *)
Section Pass.
Context {V : Type}.
Variable V_dec : forall a b : V, {a = b} + {a <> b}.
Variable WT : Weights.
Variable DM : DMap (V * nat) (w_t WT) (w_inf WT).
Variable DMi : DMap (V * nat) (option Z) None.
Variables PM PMi : PMap (V * nat) (V * nat).
Variables LM LMi : PMap (V * nat) unit.
Notation ZI := ZInfWeights.
Notation cfg := (inf_inner_cfg false).
Notation sid := (fun s : V * nat => s).
Notation W := (w_t WT).
Variable rl : W -> option Z -> Prop.
Variable small : Z -> Prop.
Hypothesis rl_leb : forall a z b y, rl a z -> rl b y -> w_leb WT a b = w_leb ZI z y.
Hypothesis rl_inf : rl (w_inf WT) None.
Hypothesis rl_zero : rl (w_zero WT) (Some 0%Z).
Hypothesis small_zero : small 0%Z.

Definition oks (x : option Z) : Prop := forall z, x = Some z -> small z.
Definition rl_entry (e : @entry ((V * nat) * nat) WT) (e' : @entry ((V * nat) * nat) ZI) : Prop := rl (e_key e) (e_key e') /\ e_no e = e_no e' /\ e_val e = e_val e' /\ exists z, e_key e' = Some z /\ small z.
Definition rl_edge (w : W) (w' : option Z) (e : (V * nat) * W * unit) (e' : (V * nat) * option Z * unit) : Prop :=
  fst (fst e) = fst (fst e') /\ rl (w_add WT (snd (fst e)) w) (w_add ZI (snd (fst e')) w') /\ oks (w_add ZI (snd (fst e')) w').
Definition rl_pc (p : @dij_pc (V * nat) unit WT) (p' : @dij_pc (V * nat) unit ZI) : Prop :=
  match p, p' with
  | DLoop _, DLoop _ => True
  | DEdges _ v w k r, DEdges _ v' w' k' r' => v = v' /\ k = k' /\ Forall2 (rl_edge w w') r r'
  | _, _ => False
  end.
Record DR (i : @dij_state (V * nat) (V * nat) unit WT DM PM LM) (i' : @dij_state (V * nat) (V * nat) unit ZI DMi PMi LMi) : Prop := {
  dr_pc : rl_pc (d_pc i) (d_pc i');
  dr_heap : Forall2 rl_entry (d_heap i) (d_heap i');
  dr_no : d_no i = d_no i';
  dr_dist : forall st, rl (dm_get DM st (d_distances i)) (dm_get DMi st (d_distances i'));
  dr_small : forall st, oks (dm_get DMi st (d_distances i'));
  dr_limit : d_limit i = d_limit i'
}.
Definition rl_rep (r : @dij_report (V * nat) (V * nat) unit WT DM PM LM) (r' : @dij_report (V * nat) (V * nat) unit ZI DMi PMi LMi) : Prop :=
  dr_vertex r = dr_vertex r' /\ rl (dr_distance r) (dr_distance r').

Lemma rl_ltb a z b y : rl a z -> rl b y -> w_ltb WT a b = w_ltb ZI z y.
Proof using rl_leb. intros Ha Hb. unfold w_ltb. now rewrite (rl_leb b y a z Hb Ha). Qed.
Lemma push_rel e e' h h' : rl_entry e e' -> Forall2 rl_entry h h' -> Forall2 rl_entry (heappush WT e h) (heappush ZI e' h').
Proof using rl_leb.
  intros He Hh. induction Hh as [|x x' h h' Hx Hh IH]; cbn [heappush]; [repeat constructor; auto; apply He|].
  assert (Heq : entry_leb WT e x = entry_leb ZI e' x').
  { unfold entry_leb. destruct He as (K1 & N1 & _), Hx as (K2 & N2 & _). rewrite (rl_ltb _ _ _ _ K1 K2), (rl_leb _ _ _ _ K1 K2), (rl_leb _ _ _ _ K2 K1), N1, N2. reflexivity. }
  rewrite Heq. destruct (entry_leb ZI e' x'); repeat (constructor; auto).
Qed.

Variable next : V * nat -> list (V * nat * W * unit).
Variable next' : V * nat -> list (V * nat * option Z * unit).
Notation step := (dij_step sid WT DM PM LM next cfg).
Notation step' := (dij_step sid ZI DMi PMi LMi next' cfg).

Ltac fixif H := match type of H with ?l = ?b => match goal with |- context [if ?c then Go [] (d_set_heap ZI _ _ _ _ _) else _] => replace c with b by (symmetry; exact H) end end; cbv iota.
Ltac fixle H := match type of H with ?l = ?b => match goal with |- context [if ?c then Go [] (d_set_pc ZI _ _ _ _ _) else _] => replace c with b by (symmetry; exact H) end end; cbv iota.
Lemma pass i i' : DR i i' ->
  (forall w w' v k c no no' h h', d_heap i = (w, no, ((v, k), c)) :: h -> d_heap i' = (w', no', ((v, k), c)) :: h' -> d_pc i' = DLoop ZI -> limit_check (d_limit i') <> None ->
     w_ltb ZI (dm_get DMi (v, k) (d_distances i')) w' = false -> rl w w' -> Forall2 (rl_edge w w') (next (v, k)) (next' (v, k))) ->
  match step i, step' i' with
  | Go o j, Go o' j' => Forall2 rl_rep o o' /\ DR j j'
  | Halt o j, Halt o' j' => Forall2 rl_rep o o'
  | Raise o x j, Raise o' x' j' => Forall2 rl_rep o o' /\ x = x'
  | _, _ => False
  end.
Proof using rl_leb rl_inf V_dec.
  intros [Hpc Hh Hno Hd Hs Hl] Hn. unfold dij_step. destruct (d_pc i) as [|v w k r] eqn:Epc, (d_pc i') as [|v' w' k' r'] eqn:Epc'; try contradiction.
  - destruct Hh as [|[[w no] [[v k] c]] [[w' no'] [[v' k'] c']] h h' He Hh]; [constructor|].
    destruct He as (K1 & N1 & E1 & K2). cbn in K1, N1, E1, K2. injection E1 as <- <- <-. subst no'.
    change (negb (dc_is_tree cfg)) with true. rewrite !Bool.andb_true_l. pose proof (rl_ltb _ _ _ _ (Hd (v, k)) K1) as Hlt. rewrite Hlt.
    destruct (w_ltb ZI (dm_get DMi (v, k) (d_distances i')) w') eqn:Hst.
    + fixif Hst. split; [constructor|]. constructor; cbn; auto. rewrite Epc, Epc'. exact Logic.I.
    + fixif Hst. cbv zeta. cbn [dij_settle d_set_heap d_limit]. rewrite Hl.
      assert (Ho : Forall2 rl_rep (if 0 <? c then [dij_observe WT DM PM LM (v, k) (dij_settle sid WT DM PM LM cfg (d_set_heap WT DM PM LM i h) (v, k) w c)] else [])
                                  (if 0 <? c then [dij_observe ZI DMi PMi LMi (v, k) (dij_settle sid ZI DMi PMi LMi cfg (d_set_heap ZI DMi PMi LMi i' h') (v, k) w' c)] else [])).
      { destruct (0 <? c); constructor; [|constructor]. split; [reflexivity|exact K1]. }
      destruct (limit_check (d_limit i')) as [lim|] eqn:Elim; [|split; [exact Ho|reflexivity]]. split; [exact Ho|].
      constructor; cbn; auto. split; [reflexivity|]. split; [reflexivity|]. eapply Hn; eauto. congruence.
  - destruct Hpc as (<- & <- & Hr). destruct Hr as [|[[n ew] l] [[n' ew'] l'] r r' (E1 & E2 & E3) Hr].
    + split; [constructor|]. constructor; cbn; auto.
    + cbn [fst snd] in *. subst n'. cbv zeta. rewrite (rl_leb _ _ _ _ rl_inf E2).
      destruct (w_leb ZI None (w_add ZI ew' w')) eqn:Hov; change (w_inf ZI) with (@None Z); rewrite Hov; [split; [constructor|reflexivity]|].
      change (negb (dc_is_tree cfg)) with true. rewrite !Bool.andb_true_l, (rl_leb _ _ _ _ (Hd n) E2).
      destruct (w_leb ZI (dm_get DMi n (d_distances i')) (w_add ZI ew' w')) eqn:Hle; fixle Hle.
      * split; [constructor|]. constructor; cbn; auto.
      * assert (Hf : exists z, w_add ZI ew' w' = Some z /\ small z). { destruct (w_add ZI ew' w') as [z|] eqn:Ez; [exists z; auto|discriminate Hov]. }
        split; [constructor|]. constructor.
        -- cbn [d_pc dij_relax rl_pc]. auto.
        -- cbn [d_heap dij_relax]. apply push_rel; [|exact Hh]. split; [exact E2|]. split; [exact Hno|]. split; [reflexivity|exact Hf].
        -- cbn [d_no dij_relax]. now rewrite Hno.
        -- cbn [d_distances dij_relax dc_is_tree inf_inner_cfg]. intros st. destruct (state_dec V_dec st n) as [->|Hne]; [rewrite (dm_get_set_same DM), (dm_get_set_same DMi); exact E2|].
           rewrite (dm_get_set_other DM), (dm_get_set_other DMi) by exact Hne. apply Hd.
        -- cbn [d_distances dij_relax dc_is_tree inf_inner_cfg]. intros st. destruct (state_dec V_dec st n) as [->|Hne]; [rewrite (dm_get_set_same DMi); exact E3|].
           rewrite (dm_get_set_other DMi) by exact Hne. apply Hs.
        -- exact Hl.
Qed.
End Pass.

(** ** The whole search *)
Section Sim.
Context {V : Type}.
Variable V_dec : forall a b : V, {a = b} + {a <> b}.
Variable WT : Weights.
Variable sub : w_t WT -> w_t WT -> w_t WT.
Notation ZI := ZInfWeights.
Notation W := (w_t WT).
Variable edge : V -> nat -> option (V * W).
Variable edge' : V -> nat -> option (V * option Z).
Hypothesis Hseq : edge_sequences edge'.
Hypothesis Hsort : edges_sorted edge'.
Hypothesis Hnn : edges_nonnegative edge'.
Variable DM : DMap (V * nat) W (w_inf WT).
Variable PM : PMap (V * nat) (V * nat).
Variable LM : PMap (V * nat) unit.
Variable DMr : DMap V (option Z) None.
Variable PMr : PMap V V.
Variable DMi : DMap (V * nat) (option Z) None.
Variable PMi : PMap (V * nat) (V * nat).
Variable LMi : PMap (V * nat) unit.
Variable starts : list V.
Variable rl : W -> option Z -> Prop.
Variable small : Z -> Prop.
Hypothesis rl_leb : forall a z b y, rl a z -> rl b y -> w_leb WT a b = w_leb ZI z y.
Hypothesis rl_inf : rl (w_inf WT) None.
Hypothesis rl_zero : rl (w_zero WT) (Some 0%Z).
Hypothesis small_zero : small 0%Z.
Notation oks := (oks small).
Hypothesis rl_edges : forall v k, match edge v k, edge' v k with Some (u, b), Some (u', b') => u = u' /\ rl b b' | None, None => True | _, _ => False end.
(** Where the exact results are small, the results are exact. *)
Hypothesis rl_exact : forall len zl base zb sd w zs, rl len zl -> rl base zb -> rl sd (Some zs) -> rl w (Some zs) -> oks zb -> small zs -> oks (w_add ZI zl zb) ->
  rl (w_add WT (sub (w_add WT len base) sd) w) (w_add ZI zl zb).

Notation cfg := (inf_inner_cfg false).
Notation sid := (fun s : V * nat => s).
Notation nstep := (inf_step V_dec edge' DMr PMr DMi PMi LMi false false).
Notation mstep := (num_step V_dec WT sub edge DM PM LM).
Notation Rel := (Rel edge' DMr PMr DMi PMi LMi false false starts).
Notation DR := (DR WT DM DMi PM PMi LM LMi rl small).
Notation dist := (is_distance ZI (inf_edge edge') (fun s => In s starts)).
Notation e1 it D := (fun st : V * nat => match num_edges V_dec WT sub edge DM it D st with Some (l, _) => l | None => [] end).
Notation e2 it D := (fun st : V * nat => match next_state_edges V_dec edge' DMi it D st with Some (l, _) => l | None => [] end).

Lemma edges_shape it D D' st :
  match num_edges V_dec WT sub edge DM it D st, next_state_edges V_dec edge' DMi it D' st with Some (_, a), Some (_, b) => a = b | None, None => True | _, _ => False end.
Proof using rl_edges.
  destruct st as [v k]. unfold num_edges, next_state_edges. destruct (if Nat.eqb k 0 then Some 0 else it v) as [t|]; [|exact Logic.I].
  pose proof (rl_edges v t) as H. destruct (edge v t) as [[u b]|], (edge' v t) as [[u' b']|]; try contradiction; reflexivity.
Qed.

Lemma sub_add a b : w_add ZI (w_sub a (Some b)) (Some b) = a.
Proof. destruct a as [a|]; cbn; [f_equal; lia|reflexivity]. Qed.

Lemma edges_rel it D D' v k w zs : (if Nat.eqb k 0 then Some 0 else it v) = Some k ->
  (forall st, rl (dm_get DM st D) (dm_get DMi st D')) -> (forall st, oks (dm_get DMi st D')) ->
  rl w (Some zs) -> small zs -> dm_get DMi (v, k) D' = Some zs ->
  (forall u b, edge' v k = Some (u, b) -> oks (w_add ZI b (dm_get DMi (v, 0) D'))) ->
  Forall2 (rl_edge WT rl small w (Some zs)) (e1 it D (v, k)) (e2 it D' (v, k)).
Proof using rl_edges rl_exact.
  intros Ht Hd Hs Hw Hz Ez Hok. cbv beta. unfold num_edges, next_state_edges. rewrite Ht. pose proof (rl_edges v k) as H.
  destruct (edge v k) as [[u b]|], (edge' v k) as [[u' b']|]; try contradiction; [|constructor]. destruct H as (<- & Hb). cbv zeta. rewrite Ez.
  assert (A1 : rl (w_add WT (sub (w_add WT b (dm_get DM (v, 0) D)) (dm_get DM (v, k) D)) w) (w_add ZI (w_sub (w_add ZI b' (dm_get DMi (v, 0) D')) (Some zs)) (Some zs))).
  { rewrite sub_add. apply rl_exact with (zs := zs); auto; [rewrite <- Ez; apply Hd|apply (Hok u b' eq_refl)]. }
  assert (A2 : oks (w_add ZI (w_sub (w_add ZI b' (dm_get DMi (v, 0) D')) (Some zs)) (Some zs))) by (rewrite sub_add; apply (Hok u b' eq_refl)).
  constructor; [split; [reflexivity|split; [exact A1|exact A2]]|]. constructor; [split; [reflexivity|split; [exact A1|exact A2]]|constructor].
Qed.

Lemma Forall2_unmap {A B C : Type} (P : A -> C -> Prop) (g : B -> C) l m : Forall2 P l (map g m) -> Forall2 (fun a b => P a (g b)) l m.
Proof using. revert l. induction m as [|b m IH]; intros l H; inversion H; subst; constructor; auto. Qed.
Lemma outs_rel o o' : Forall2 (rl_rep WT DM DMi PM PMi LM LMi rl) o o' ->
  Forall2 (fun p q => fst p = fst q /\ rl (snd p) (snd q)) (num_out WT DM PM LM o) (red_out DMi PMi LMi o').
Proof using.
  intros H. induction H as [|r r' o o' (E1 & E2) H IH]; [constructor|]. unfold num_out, red_out in *. cbn [flat_map]. apply Forall2_app; [|exact IH].
  rewrite E1. destruct (Nat.eqb (snd (dr_vertex r')) 0); [|constructor]. constructor; [split; [reflexivity|exact E2]|constructor].
Qed.

(** The calls of the internal traversal are kept. *)
Lemma calls_grow nx i x : In x (d_calls i) -> match dij_step sid ZI DMi PMi LMi nx cfg i with Go _ i' | Halt _ i' | Raise _ _ i' => In x (d_calls i') end.
Proof using.
  intros H. unfold dij_step. destruct (d_pc i) as [|v w k [|[[n ew] l] rest]]; [|exact H|].
  - destruct (d_heap i) as [|[[w no] [u k]] h]; [exact H|]. destruct (_ && _); [exact H|]. cbv zeta. destruct (limit_check _); [right; exact H|exact H].
  - cbv zeta. destruct (w_leb ZI _ _); [exact H|]. destruct (_ && _); exact H.
Qed.
Lemma reads_stay n : forall pre s i x, Rel pre s i -> In x (n_reads s) -> In x (n_reads (outcome_state (snd (run nstep n s)))).
Proof using Hseq Hsort Hnn.
  induction n as [|n IH]; intros pre s i x HR Hx; [exact Hx|]. cbn [run]. pose proof (step_sim V_dec edge' Hseq Hsort Hnn DMr PMr DMi PMi LMi false false starts pre s i HR) as Hsim.
  rewrite (s_reads _ _ _ _ _ _ _ _ _ _ _ (r_same _ _ _ _ _ _ _ _ _ _ _ _ HR)) in Hx. apply in_map_iff in Hx. destruct Hx as (y & Hy & Hx).
  pose proof (calls_grow (snext edge') i y Hx) as Hg. destruct (dij_step _ _ _ _ _ _ _ i) as [o i'|o i'|o e i']; destruct Hsim as (s' & -> & HR'); cbn [snd outcome_state].
  - pose proof (IH _ s' i' x HR') as H. destruct (run nstep n s') as [os r]. cbn [snd] in *. apply H. rewrite (s_reads _ _ _ _ _ _ _ _ _ _ _ (r_same _ _ _ _ _ _ _ _ _ _ _ _ HR')). apply in_map_iff. exists y. auto.
  - rewrite (s_reads _ _ _ _ _ _ _ _ _ _ _ HR'). apply in_map_iff. exists y. auto.
  - rewrite (s_reads _ _ _ _ _ _ _ _ _ _ _ HR'). apply in_map_iff. exists y. auto.
Qed.

Definition fine_reads (s : @inf_state V DMr PMr DMi PMi LMi) (n : nat) : Prop :=
  forall v k u b d, In (v, k) (n_reads (outcome_state (snd (run nstep n s)))) -> edge' v k = Some (u, b) -> dist v d -> oks d -> oks (w_add ZI b d).

Lemma sim_step n pre s i t : Rel pre s i -> DR (m_in _ _ _ _ t) i -> m_iters _ _ _ _ t = n_iters s -> fine_reads s (S n) ->
  match nstep s with
  | Go o s' => exists o1 t', mstep t = Go o1 t' /\ Forall2 (fun p rep => fst p = nr_vertex rep /\ rl (snd p) (nr_distance rep)) o1 o /\
      DR (m_in _ _ _ _ t') (n_in s') /\ m_iters _ _ _ _ t' = n_iters s'
  | Halt o _ => exists o1 t', mstep t = Halt o1 t' /\ Forall2 (fun p rep => fst p = nr_vertex rep /\ rl (snd p) (nr_distance rep)) o1 o
  | Raise o x _ => exists o1 t', mstep t = Raise o1 x t' /\ Forall2 (fun p rep => fst p = nr_vertex rep /\ rl (snd p) (nr_distance rep)) o1 o
  end.
Proof.
  intros HR HD Hit Hfine. pose proof (s_in _ _ _ _ _ _ _ _ _ _ _ (r_same _ _ _ _ _ _ _ _ _ _ _ _ HR)) as Hin.
  pose proof (pass V_dec WT DM DMi PM PMi LM LMi rl small rl_leb rl_inf (e1 (n_iters s) (d_distances (m_in _ _ _ _ t))) (e2 (n_iters s) (d_distances i)) _ _ HD) as HP.
  assert (Hn : forall w w' v k c no no' h h', d_heap (m_in _ _ _ _ t) = (w, no, ((v, k), c)) :: h -> d_heap i = (w', no', ((v, k), c)) :: h' -> d_pc i = DLoop ZI -> limit_check (d_limit i) <> None ->
     w_ltb ZI (dm_get DMi (v, k) (d_distances i)) w' = false -> rl w w' ->
     Forall2 (rl_edge WT rl small w w') (e1 (n_iters s) (d_distances (m_in _ _ _ _ t)) (v, k)) (e2 (n_iters s) (d_distances i) (v, k))).
  { intros w w' v k c no no' h h' Hh Hh' Hpc Hlim Hlt Hw. destruct (asked_facts V_dec edge' Hseq Hsort Hnn DMr PMr DMi PMi LMi starts pre s i v k c w' no' h' HR Hpc Hh' Hlt) as (F1 & F2 & F3).
    assert (Hz : exists zs, w' = Some zs /\ small zs).
    { pose proof (dr_heap _ _ _ _ _ _ _ _ _ _ _ HD) as Hhh. rewrite Hh, Hh' in Hhh. inversion Hhh as [|? ? ? ? (_ & _ & _ & Hz) _]. exact Hz. }
    destruct Hz as (zs & -> & Hz).
    apply edges_rel; auto.
    - apply (dr_dist _ _ _ _ _ _ _ _ _ _ _ HD).
    - apply (dr_small _ _ _ _ _ _ _ _ _ _ _ HD).
    - intros u b Hb. apply (Hfine v k u b); auto; [|apply (dr_small _ _ _ _ _ _ _ _ _ _ _ HD)]. cbn [run].
      pose proof (step_sim V_dec edge' Hseq Hsort Hnn DMr PMr DMi PMi LMi false false starts pre s i HR) as Hsim. unfold dij_step in Hsim. rewrite Hpc, Hh' in Hsim.
      change (negb (dc_is_tree cfg)) with true in Hsim. rewrite Bool.andb_true_l in Hsim.
      match type of Hsim with context [if ?c then Go [] _ else _] => replace c with false in Hsim by (symmetry; exact Hlt) end. cbv iota zeta in Hsim.
      cbn [dij_settle d_set_heap d_limit] in Hsim. destruct (limit_check (d_limit i)) as [lim|]; [|contradiction]. destruct Hsim as (s' & -> & HR').
      pose proof (reads_stay n _ _ _ (v, k) HR') as H. destruct (run nstep n s') as [os r]. cbn [snd] in *. apply H.
      rewrite (s_reads _ _ _ _ _ _ _ _ _ _ _ (r_same _ _ _ _ _ _ _ _ _ _ _ _ HR')). left. reflexivity. }
  specialize (HP Hn). clear Hn. unfold inf_step, num_step. rewrite Hin, Hit.
  set (n1 := e1 (n_iters s) (d_distances (m_in _ _ _ _ t))) in *. set (n2 := e2 (n_iters s) (d_distances i)) in *.
  pose proof (step_out DMi PMi LMi n2 i) as Ho.
  destruct (dij_step sid WT DM PM LM n1 cfg (m_in _ _ _ _ t)) as [o1 j|o1 j|o1 x1 j] eqn:E1, (dij_step sid ZI DMi PMi LMi n2 cfg i) as [o i'|o i'|o x i'] eqn:E2; try contradiction.
  - destruct HP as (HP1 & HP2). destruct (handle_out V_dec DMr PMr DMi PMi LMi s o Ho) as (out & s1 & -> & F2 & F3). apply outs_rel in HP1. rewrite <- F3 in HP1. apply Forall2_unmap in HP1.
    assert (He : num_expanded WT DM PM LM (m_in _ _ _ _ t) j = inf_expanded DMi PMi LMi i i').
    { unfold num_expanded, inf_expanded. pose proof (dr_pc _ _ _ _ _ _ _ _ _ _ _ HD) as P1. pose proof (dr_pc _ _ _ _ _ _ _ _ _ _ _ HP2) as P2. unfold rl_pc in *.
      destruct (d_pc (m_in _ _ _ _ t)), (d_pc i); try contradiction; [|reflexivity]. destruct (d_pc j), (d_pc i'); try contradiction; [reflexivity|]. now destruct P2 as (-> & _). }
    rewrite He. destruct (inf_expanded DMi PMi LMi i i') as [st|].
    + pose proof (edges_shape (n_iters s) (d_distances (m_in _ _ _ _ t)) (d_distances i) st) as Hs. 
      destruct (num_edges _ _ _ _ _ _ _ st) as [[l it']|], (next_state_edges _ _ _ _ _ st) as [[l' it'']|]; try contradiction.
      * subst it''. eexists _, _. split; [reflexivity|]. split; [exact HP1|]. split; [exact HP2|reflexivity].
      * eexists _, _. split; [reflexivity|exact HP1].
    + eexists _, _. split; [reflexivity|]. split; [exact HP1|]. split; [exact HP2|]. symmetry. exact F2.
  - destruct (handle_out V_dec DMr PMr DMi PMi LMi s o Ho) as (out & s1 & -> & F2 & F3). apply outs_rel in HP. rewrite <- F3 in HP. apply Forall2_unmap in HP. eexists _, _. split; [reflexivity|exact HP].
  - destruct HP as (HP1 & <-). destruct (handle_out V_dec DMr PMr DMi PMi LMi s o Ho) as (out & s1 & -> & F2 & F3). apply outs_rel in HP1. rewrite <- F3 in HP1. apply Forall2_unmap in HP1. eexists _, _. split; [reflexivity|exact HP1].
Qed.

Lemma sim n : forall pre s i t, Rel pre s i -> DR (m_in _ _ _ _ t) i -> m_iters _ _ _ _ t = n_iters s -> fine_reads s n ->
  Forall2 (fun p rep => fst p = nr_vertex rep /\ rl (snd p) (nr_distance rep)) (fst (run mstep n t)) (fst (run nstep n s)) /\ same_end (snd (run mstep n t)) (snd (run nstep n s)).
Proof.
  induction n as [|n IH]; intros pre s i t HR HD Hit Hf; [split; [constructor|exact Logic.I]|]. pose proof (sim_step n pre s i t HR HD Hit Hf) as Hp. unfold fine_reads in Hf. cbn [run] in Hf |- *.
  pose proof (step_sim V_dec edge' Hseq Hsort Hnn DMr PMr DMi PMi LMi false false starts pre s i HR) as Hsim.
  destruct (nstep s) as [o s'|o s'|o x s'].
  - destruct Hp as (o1 & t' & -> & P0 & P1 & P2). cbn [fst snd]. destruct (dij_step _ _ _ _ _ _ _ i) as [o' i'|o' i'|o' x i']; destruct Hsim as (s2 & E & HR'); try discriminate. injection E as -> ->.
    pose proof (s_in _ _ _ _ _ _ _ _ _ _ _ (r_same _ _ _ _ _ _ _ _ _ _ _ _ HR')) as Hin'. rewrite Hin' in P1.
    assert (Hf' : fine_reads s2 n). { unfold fine_reads. destruct (run nstep n s2). exact Hf. }
    destruct (IH _ s2 i' t' HR' P1 P2 Hf') as (I1 & I2).
    destruct (run mstep n t') as [a b], (run nstep n s2) as [a' b']. cbn [fst snd] in *. split; [apply Forall2_app; assumption|exact I2].
  - destruct Hp as (o1 & t' & -> & P0). cbn. auto.
  - destruct Hp as (o1 & t' & -> & P0). cbn. auto.
Qed.

(** Initially *)
Lemma dist_init (l : list (V * nat)) D D' : (forall st, rl (dm_get DM st D) (dm_get DMi st D') /\ oks (dm_get DMi st D')) ->
  forall st, rl (dm_get DM st (fold_left (fun m p => dm_set DM (fst p) (snd p) m) (map (fun v => (v, w_zero WT)) l) D)) (dm_get DMi st (fold_left (fun m p => dm_set DMi (fst p) (snd p) m) (map (fun v => (v, w_zero ZI)) l) D')) /\
             oks (dm_get DMi st (fold_left (fun m p => dm_set DMi (fst p) (snd p) m) (map (fun v => (v, w_zero ZI)) l) D')) /\
             (In st l \/ dm_get DMi st D' = w_zero ZI -> dm_get DMi st (fold_left (fun m p => dm_set DMi (fst p) (snd p) m) (map (fun v => (v, w_zero ZI)) l) D') = w_zero ZI).
Proof using V_dec rl_zero small_zero.
  revert D D'. induction l as [|a l IH]; intros D D' H st.
  - split; [apply H|]. split; [apply H|]. intros [[]|E]. exact E.
  - cbn [map fold_left fst snd].
    assert (H' : forall st, rl (dm_get DM st (dm_set DM a (w_zero WT) D)) (dm_get DMi st (dm_set DMi a (w_zero ZI) D')) /\ oks (dm_get DMi st (dm_set DMi a (w_zero ZI) D'))).
    { intros st'. destruct (state_dec V_dec st' a) as [->|Hne].
      - rewrite (dm_get_set_same DM), (dm_get_set_same DMi). split; [exact rl_zero|]. intros z [= <-]. exact small_zero.
      - rewrite (dm_get_set_other DM), (dm_get_set_other DMi) by exact Hne. apply H. }
    destruct (IH _ _ H' st) as (I1 & I2 & I3). split; [exact I1|]. split; [exact I2|]. intros Hin. apply I3.
    destruct (state_dec V_dec st a) as [->|Hne]; [right; apply (dm_get_set_same DMi)|]. rewrite (dm_get_set_other DMi) by exact Hne.
    destruct Hin as [[E|Hin]|Hin]; [congruence|left; exact Hin|right; exact Hin].
Qed.
Lemma DR_init lim : DR (dij_init sid WT DM PM LM cfg (map (fun v => (v, 0)) starts) None lim) (dij_init sid ZI DMi PMi LMi cfg (map (fun v => (v, 0)) starts) None lim).
Proof using V_dec rl_leb rl_inf rl_zero small_zero.
  set (l := map (fun v => (v, 0)) starts).
  assert (H0 : forall st, rl (dm_get DM st (dm_empty DM)) (dm_get DMi st (dm_empty DMi)) /\ oks (dm_get DMi st (dm_empty DMi))).
  { intros st. rewrite (dm_get_empty DM), (dm_get_empty DMi). split; [exact rl_inf|discriminate]. }
  pose proof (dist_init l _ _ H0) as HD.
  constructor; cbn [dij_init d_pc d_heap d_no d_distances d_limit define_distances rl_pc dc_is_tree inf_inner_cfg]; auto.
  - set (D := fold_left _ _ (dm_empty DM)) in *. set (D' := fold_left _ _ (dm_empty DMi)) in *.
    change (Forall2 (rl_entry WT rl small) (heapify WT (start_entries sid WT DM 256 D l)) (heapify ZI (start_entries sid ZI DMi 256 D' l))).
    assert (Hl : forall st, In st l -> rl (dm_get DM st D) (dm_get DMi st D') /\ dm_get DMi st D' = Some 0%Z).
    { intros st Hin. split; [apply HD|]. apply HD. now left. }
    clearbody D D' l. clear HD H0. unfold heapify. 
    assert (Hf : forall no, Forall2 (rl_entry WT rl small) (start_entries sid WT DM no D l) (start_entries sid ZI DMi no D' l)).
    { induction l as [|st l IH]; intros no; [constructor|]. cbn [start_entries]. destruct (Hl st (or_introl eq_refl)) as (L1 & L2). constructor; [|apply IH; intros st' Hin; apply Hl; now right].
      split; [exact L1|]. split; [reflexivity|]. split; [reflexivity|]. exists 0%Z. split; [exact L2|exact small_zero]. }
    specialize (Hf 256%Z). revert Hf. generalize (start_entries sid WT DM 256 D l), (start_entries sid ZI DMi 256 D' l).
    assert (Hg : forall h h' a a', Forall2 (@rl_entry V WT rl small) a a' -> Forall2 (rl_entry WT rl small) h h' ->
      Forall2 (rl_entry WT rl small) (fold_left (fun h e => heappush WT e h) h a) (fold_left (fun h e => heappush ZI e h) h' a')).
    { intros h h' a a' Ha Hh. revert a a' Ha. induction Hh as [|e e' h h' He Hh IH]; intros a a' Ha; [exact Ha|]. cbn [fold_left]. apply IH. apply push_rel; auto. }
    intros h h' Hh. apply Hg; [constructor|exact Hh].
  - intros st. apply HD.
  - intros st. apply HD.
Qed.
Theorem num_exact (Hnd : NoDup starts) lim n : fine_reads (inf_init DMr PMr DMi PMi LMi false false starts lim) n ->
  Forall2 (fun p rep => fst p = nr_vertex rep /\ rl (snd p) (nr_distance rep)) (fst (num_run V_dec WT sub edge DM PM LM starts lim n)) (fst (inf_run V_dec edge' DMr PMr DMi PMi LMi false false starts lim n)) /\
  same_end (snd (num_run V_dec WT sub edge DM PM LM starts lim n)) (snd (inf_run V_dec edge' DMr PMr DMi PMi LMi false false starts lim n)).
Proof.
  intros Hf. unfold num_run, inf_run. eapply sim; [apply Rel_init; auto|apply DR_init|reflexivity|exact Hf].
Qed.
End Sim.
