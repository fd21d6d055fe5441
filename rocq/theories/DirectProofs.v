From Coq Require Import List ZArith NArith Bool Arith Lia.
From Verif Require Import Machine GearSpec GearModel GearProofs Common Weight HeapModel HeapProofs DijkstraModel AStarModel BiSPModel DFSModel TopoModel DFSProofs DirectModel.
Import ListNotations.

(** * Runs with check *)
Lemma guarded_run {S O} (inside : S -> bool) x (step : S -> step_result S O exn) (Inv : S -> Prop)
    (Hin : forall s, Inv s -> inside s = true) (Hstep : forall s o s', Inv s -> step s = Go o s' -> Inv s') :
  forall n s, Inv s -> run (guarded inside x step) n s = run step n s.
Proof.
  induction n as [|n IH]; intros s HI; simpl; auto. unfold guarded at 1. rewrite (Hin s HI).
  destruct (step s) as [o s'|o s'|o y s'] eqn:E; auto. now rewrite (IH s' (Hstep _ _ _ HI E)).
Qed.

(** * Collections based on sequences *)
Section Ranges.
Variable cfg : wcfg.
Hypothesis Hcfg : wcfg_ok cfg.

Lemma seq_set_length {A} (s : list A) k v s' : seq_set s k v = Some s' -> length s' = length s /\ k < length s.
Proof.
  intros H. destruct (lt_dec k (length s)) as [Hk|Hk].
  - destruct (seq_set_in s k v Hk) as (t & Ht & Hl & _). rewrite Ht in H. injection H as <-. auto.
  - rewrite seq_set_out in H by lia. discriminate.
Qed.

Lemma seq_set_none {A} (s : list A) k v : seq_set s k v = None -> length s <= k.
Proof. intros H. destruct (lt_dec k (length s)) as [Hk|Hk]; [|lia]. destruct (seq_set_in s k v Hk) as (t & Ht & _). congruence. Qed.

Lemma extend_length {A} (d : A) s k v s' : length s <= k -> extend_and_set cfg d s k v = Some s' -> length s <= length s' /\ k < length s'.
Proof using Hcfg.
  intros Hk H. destruct (extend_and_set_spec cfg Hcfg d s k v) as (t & Ht & Hl & _). rewrite Ht in H. injection H as <-. lia.
Qed.

Lemma soe_length {A} (d : A) s k v : length s <= length (set_or_extend cfg d s k v) /\ k < length (set_or_extend cfg d s k v).
Proof using Hcfg.
  unfold set_or_extend. destruct (seq_set s k v) as [t|] eqn:E.
  - apply seq_set_length in E. lia.
  - destruct (extend_and_set_spec cfg Hcfg d s k v) as (t & Ht & _). rewrite Ht. apply seq_set_none in E. now apply extend_length in Ht.
Qed.

Definition byte_range : set_range (ByteVSet cfg Hcfg).
Proof using Hcfg.
  refine {| sr_read := (fun i s => i <? length s) : nat -> vs_t (ByteVSet cfg Hcfg) -> bool; sr_clear := (fun i s => i <? length s) : nat -> vs_t (ByteVSet cfg Hcfg) -> bool |}.
  - intros i s. apply Nat.ltb_lt. apply (soe_length 0%N s i 1%N).
  - intros i j s H. apply Nat.ltb_lt in H. apply Nat.ltb_lt. pose proof (soe_length 0%N s j 1%N). simpl. unfold bs_add. lia.
  - intros i j s H. apply Nat.ltb_lt in H. apply Nat.ltb_lt. simpl. unfold bs_discard. destruct (seq_set s j 0%N) as [t|] eqn:E; auto.
    apply seq_set_length in E. lia.
  - intros i s H. apply Nat.ltb_lt. simpl in H. rewrite bs_contains_direct in H. unfold ma_direct, seq_get in H.
    destruct (nth_error s i) eqn:E; [|discriminate]. apply nth_error_Some. congruence.
Defined.

Definition bit_range : set_range (BitVSet cfg Hcfg).
Proof using Hcfg.
  refine {| sr_read := (fun i s => i / 8 <? length s) : nat -> vs_t (BitVSet cfg Hcfg) -> bool;
            sr_clear := (fun i s => vs_mem (BitVSet cfg Hcfg) i s) : nat -> vs_t (BitVSet cfg Hcfg) -> bool |}.
  - intros i s. apply Nat.ltb_lt. cbn [vs_add vs_discard BitVSet]. unfold bits_add, bits_or. destruct (seq_get s (i / 8)) as [v|] eqn:G.
    + assert (Hl : i / 8 < length s) by (apply nth_error_Some; unfold seq_get in G; congruence).
      destruct (seq_set_in s (i / 8) (N.lor v (bit_mask i)) Hl) as (t & Ht & Hn & _). rewrite Ht. lia.
    + destruct (extend_and_set_spec cfg Hcfg 0%N s (i / 8) (bit_mask i)) as (t & Ht & Hl & _). rewrite Ht. auto.
  - intros i j s H. apply Nat.ltb_lt in H. apply Nat.ltb_lt. cbn [vs_add vs_discard BitVSet]. unfold bits_add, bits_or. destruct (seq_get s (j / 8)) as [v|] eqn:G.
    + destruct (seq_set s (j / 8) (N.lor v (bit_mask j))) as [t|] eqn:E; auto. apply seq_set_length in E. lia.
    + destruct (extend_and_set_spec cfg Hcfg 0%N s (j / 8) (bit_mask j)) as (t & Ht & Hl & _). rewrite Ht. apply extend_length in Ht; [lia|]. now apply nth_error_None.
  - intros i j s H. apply Nat.ltb_lt in H. apply Nat.ltb_lt. cbn [vs_add vs_discard BitVSet]. unfold bits_discard. destruct (seq_get s (j / 8)) as [v|]; auto.
    match goal with |- context [seq_set ?a ?b ?c] => destruct (seq_set a b c) as [t|] eqn:E; auto end. apply seq_set_length in E. lia.
  - auto.
Defined.
End Ranges.

Section DMapRange.
Variable cfg : wcfg.
Hypothesis Hcfg : wcfg_ok cfg.
Context {A : Type}.
Variable d : A.
Definition seq_map_range : map_range (SeqDMap cfg Hcfg d).
Proof using Hcfg.
  refine {| mr_in := (fun i s => i <? length s) : nat -> dm_t (SeqDMap cfg Hcfg d) -> bool |}.
  - intros i w m. apply Nat.ltb_lt. apply soe_length. exact Hcfg.
  - intros i j w m H. apply Nat.ltb_lt in H. apply Nat.ltb_lt. pose proof (soe_length cfg Hcfg d m j w). simpl. unfold ma_setitem. lia.
  - intros i m H. apply Nat.ltb_ge in H. simpl. unfold ma_direct, seq_get. now replace (nth_error m i) with (@None A) by (symmetry; apply nth_error_None; lia).
Defined.
End DMapRange.

(** * Strategies with distances *)
Section Weighted.
Context {V I L : Type}.
Variable vid : V -> I.
Variable WT : Weights.
Variable DM : DMap I (w_t WT) (w_inf WT).
Variable PM : PMap I V.
Variable LM : PMap I L.
Variable R : map_range DM.
Notation inr i m := (mr_in R i m = true).

Lemma setdefault_in m i w j : inr j m -> inr j (dm_setdefault (w_eqb WT) DM m i w).
Proof. intros H. unfold dm_setdefault. destruct (w_eqb WT _ _); auto. now apply mr_set_other. Qed.

Lemma setdefault_same m i w : inr i (dm_setdefault (w_eqb WT) DM m i w).
Proof.
  unfold dm_setdefault. destruct (w_eqb WT _ _) eqn:E; [apply mr_set_same|].
  destruct (mr_in R i m) eqn:H; auto. apply mr_out in H. rewrite H in E. unfold w_eqb in E.
  rewrite w_leb_refl in E. discriminate.
Qed.

Lemma define_in known l t i : known = None \/ t = false -> In i (map fst l) -> inr i (define_distances WT DM known l t).
Proof.
  intros Hk. unfold define_distances. destruct known as [m0|].
  - destruct Hk as [Hk|Hk]; [discriminate|]. rewrite Hk. clear Hk.
    assert (Hpre : forall l m, inr i m -> inr i (fold_left (fun m p => dm_setdefault (w_eqb WT) DM m (fst p) (snd p)) l m)).
    { induction l0 as [|p l0 IH]; simpl; auto. intros m Hm. apply IH. now apply setdefault_in. }
    revert m0. induction l as [|p l IH]; simpl; [contradiction|]. intros m [He|H].
    + apply Hpre. rewrite He. apply setdefault_same.
    + now apply IH.
  - clear Hk. generalize (dm_empty DM).
    assert (Hpre : forall l m, inr i m -> inr i (fold_left (fun m p => dm_set DM (fst p) (snd p) m) l m)).
    { induction l0 as [|p l0 IH]; simpl; auto. intros m Hm. apply IH. now apply mr_set_other. }
    induction l as [|p l IH]; simpl; [contradiction|]. intros m [He|H].
    + apply Hpre. rewrite He. apply mr_set_same.
    + now apply IH.
Qed.

Lemma define_starts known (f : V -> w_t WT) starts t v : known = None \/ t = false -> In v starts ->
  inr (vid v) (define_distances WT DM known (map (fun v => (vid v, f v)) starts) t).
Proof.
  intros Hk Hv. apply define_in; auto. rewrite map_map. simpl. now apply in_map.
Qed.

(** ** Dijkstra *)
Section Dij.
Variable next : V -> list (V * w_t WT * L).
Variable cfg : dij_cfg.

Definition dij_covered (s : @dij_state V I L WT DM PM LM) : Prop :=
  DijkstraModel.dc_is_tree cfg = true \/ forall e, In e (d_heap s) -> inr (vid (fst (snd e))) (d_distances s).

Lemma dij_covered_inside s : dij_covered s -> dij_inside vid WT DM PM LM R cfg s = true.
Proof.
  intros H. unfold dij_inside. destruct (d_pc s); auto. destruct (d_heap s) as [|[w [v k]] h] eqn:E; auto.
  destruct H as [H|H]; [now rewrite H|]. rewrite E in H. apply orb_true_iff. right. exact (H (w, (v, k)) (or_introl eq_refl)).
Qed.

Lemma dij_covered_step s o s' : dij_covered s -> dij_step vid WT DM PM LM next cfg s = Go o s' -> dij_covered s'.
Proof.
  intros H. unfold dij_covered. destruct (DijkstraModel.dc_is_tree cfg) eqn:Ht; [auto|]. destruct H as [H|H]; [congruence|].
  unfold dij_step. destruct (d_pc s) as [|v w k rest].
  - destruct (d_heap s) as [|[[w z] [v k]] h] eqn:E; [discriminate|].
    assert (Hh : forall e, In e h -> inr (vid (fst (snd e))) (d_distances s)) by (intros e He; apply H; now right).
    destruct (_ && _).
    + intros G. injection G as <- <-. right. exact Hh.
    + destruct (limit_check _) as [lim|]; [|discriminate]. intros G. injection G as <- <-. right. simpl. intros e He.
      destruct (_ || _); auto. now apply mr_set_other, Hh.
  - destruct rest as [|[[n ew] l] rest].
    + intros G. injection G as <- <-. right. exact H.
    + destruct (w_leb WT (w_inf WT) _); [discriminate|]. destruct (_ && _).
      * intros G. injection G as <- <-. right. exact H.
      * intros G. injection G as <- <-. right. simpl. rewrite Ht. intros e He. apply heappush_in in He. destruct He as [He|He].
        -- subst e. apply mr_set_same.
        -- now apply mr_set_other, H.
Qed.

Lemma start_entries_in dist e starts : forall no, In e (start_entries vid WT DM no dist starts) -> In (fst (snd e)) starts.
Proof.
  induction starts as [|v r IH]; simpl; [contradiction|]. intros no [He|He]; [subst; auto|eauto].
Qed.

Lemma dij_direct starts known lim n : known = None \/ DijkstraModel.dc_is_tree cfg = false ->
  dij_run_direct vid WT DM PM LM R next cfg starts known lim n = dij_run vid WT DM PM LM next cfg starts known lim n.
Proof.
  intros Hk. unfold dij_run_direct, dij_run.
  assert (Hs : forall v, In v starts -> inr (vid v) (d_distances (dij_init vid WT DM PM LM cfg starts known lim))).
  { intros v Hv. unfold dij_init. cbn [d_distances]. now apply define_starts. }
  assert (Hf : forallb (fun v => mr_in R (vid v) (d_distances (dij_init vid WT DM PM LM cfg starts known lim))) starts = true) by now apply forallb_forall.
  rewrite Hf. apply guarded_run with (Inv := dij_covered).
  - exact dij_covered_inside.
  - exact dij_covered_step.
  - right. intros e He. apply Hs. unfold dij_init in He. cbn [d_heap] in He. rewrite heapify_in in He. now apply start_entries_in in He.
Qed.
End Dij.

(** ** A* *)
Section Ast.
Variable next : V -> list (V * w_t WT * L).
Variable cfg : ast_cfg.
Variable heuristic : V -> w_t WT.

Definition ast_covered (s : @ast_state V I L WT DM PM LM) : Prop :=
  forall e, In e (a_heap s) -> (ac_is_tree cfg = true \/ inr (vid (fst (snd e))) (a_guesses s)) /\ inr (vid (fst (snd e))) (a_distances s).

Lemma ast_covered_inside s : ast_covered s -> ast_inside vid WT DM PM LM R cfg s = true.
Proof.
  intros H. unfold ast_inside. destruct (a_pc s); auto. destruct (a_heap s) as [|[w [v k]] h] eqn:E; auto.
  unfold ast_covered in H. rewrite E in H. destruct (H (w, (v, k)) (or_introl eq_refl)) as [H1 H2]. simpl in H1, H2. rewrite H2.
  destruct H1 as [-> | ->]; auto. now rewrite orb_true_r.
Qed.

Lemma ast_covered_step s o s' : ast_covered s -> ast_step vid WT DM PM LM next cfg heuristic s = Go o s' -> ast_covered s'.
Proof.
  intros H. unfold ast_step. destruct (a_pc s) as [|v w k rest].
  - destruct (a_heap s) as [|[[w z] [v k]] h] eqn:E; [discriminate|].
    assert (Hh : forall e, In e h -> (ac_is_tree cfg = true \/ inr (vid (fst (snd e))) (a_guesses s)) /\ inr (vid (fst (snd e))) (a_distances s)).
    { intros e He. apply H. rewrite E. now right. }
    destruct (_ && _).
    + intros G. injection G as <- <-. exact Hh.
    + destruct (limit_check _) as [lim|]; [|discriminate]. intros G. injection G as <- <-. exact Hh.
  - destruct rest as [|[[n ew] l] rest].
    + intros G. injection G as <- <-. exact H.
    + destruct (w_leb WT (w_inf WT) _); [discriminate|]. destruct (negb (ac_is_tree cfg) && _).
      * intros G. injection G as <- <-. exact H.
      * assert (Hpush : forall g nw, ast_covered (ast_push vid WT DM PM LM cfg (ast_store vid WT DM PM LM cfg s v n nw l) v w k n g rest)).
        { intros g nw e He. unfold ast_push in He |- *. cbn [a_heap a_guesses a_distances ast_store] in He |- *. apply heappush_in in He. destruct He as [He|He].
          - rewrite He. cbn [fst snd]. split; [|apply mr_set_same]. destruct (ac_is_tree cfg); auto. right. apply mr_set_same.
          - destruct (H e He) as [H1 H2]. split; [|now apply mr_set_other]. destruct (ac_is_tree cfg); auto. right. apply mr_set_other. tauto || (destruct H1; congruence || auto). }
        destruct (w_eqb WT (heuristic n) _).
        -- intros G. injection G as <- <-. apply Hpush.
        -- destruct (w_leb WT (w_inf WT) _); [discriminate|]. intros G. injection G as <- <-. apply Hpush.
Qed.

Lemma ast_entries_in g e starts : forall no, In e (ast_start_entries vid WT DM no g starts) -> In (fst (snd e)) starts.
Proof.
  induction starts as [|v r IH]; simpl; [contradiction|]. intros no [He|He]; [subst; auto|eauto].
Qed.

Lemma ast_direct starts kd kg lim n : kg = None \/ ac_is_tree cfg = false ->
  ast_run_direct vid WT DM PM LM R next cfg heuristic starts kd kg lim n = ast_run vid WT DM PM LM next cfg heuristic starts kd kg lim n.
Proof.
  intros Hk. unfold ast_run_direct, ast_run.
  assert (Hs : forall v, In v starts -> inr (vid v) (a_distances (ast_init vid WT DM PM LM cfg heuristic starts kd kg lim)) /\
                                        inr (vid v) (a_guesses (ast_init vid WT DM PM LM cfg heuristic starts kd kg lim))).
  { intros v Hv. unfold ast_init. cbn [a_distances a_guesses]. split.
    - apply define_starts; auto.
    - now apply (define_starts kg (fun v => w_add WT _ (heuristic v))). }
  match goal with |- context [forallb ?f starts] => assert (Hf : forallb f starts = true) end.
  { apply forallb_forall. intros v Hv. destruct (Hs v Hv) as [-> ->]. reflexivity. }
  rewrite Hf. apply guarded_run with (Inv := ast_covered).
  - exact ast_covered_inside.
  - exact ast_covered_step.
  - intros e He. unfold ast_init in He. cbn [a_heap] in He. rewrite heapify_in in He. apply ast_entries_in in He.
    destruct (Hs _ He) as [H1 H2]. auto.
Qed.
End Ast.

(** ** Bidirectional search *)
Section B2.
Variable V_dec : forall a b : V, {a = b} + {a <> b}.
Variables next_f next_b : V -> list (V * w_t WT * L).
Variables labeled build_path fail_silently : bool.

Definition b2_side_covered (b : @b2_side V I L WT DM PM LM) : Prop := forall e, In e (b2_heap b) -> inr (vid (snd e)) (b2_dist b).
Definition b2_covered (s : @b2_state V I L WT DM PM LM) : Prop := b2_side_covered (b2_current s) /\ b2_side_covered (b2_other s).

Lemma b2_covered_inside s : b2_covered s -> b2_inside vid WT DM PM LM R s = true.
Proof.
  intros [H _]. unfold b2_inside. destruct (b2_pc_of s); auto. destruct (b2_heap (b2_current s)) as [|[w v] h] eqn:E; auto.
  apply (H (w, v)). rewrite E. now left.
Qed.

Lemma b2_covered_step s o s' : b2_covered s -> b2_step V_dec vid WT DM PM LM next_f next_b labeled build_path fail_silently s = Go o s' -> b2_covered s'.
Proof.
  intros [H1 H2]. unfold b2_step. destruct (b2_pc_of s) as [|v w rest].
  - destruct (b2_heap (b2_current s)) as [|[[w z] v] h] eqn:E.
    + destruct (b2_failed _ _ _); discriminate.
    + assert (Hc : b2_side_covered (b2_popped WT DM PM LM (b2_current s) h)).
      { intros e He. apply H1. rewrite E. now right. }
      destruct (w_ltb WT _ _).
      * intros G. injection G as <- <-. now split.
      * destruct (_ && _); [discriminate|]. destruct (limit_check _); [|discriminate]. intros G. injection G as <- <-. now split.
  - destruct rest as [|[[n ew] l] rest].
    + intros G. injection G as <- <-. now split.
    + destruct (w_leb WT (w_inf WT) _); [discriminate|]. destruct (w_leb WT (dm_get _ _ _) _).
      * intros G. injection G as <- <-. now split.
      * intros G. injection G as <- <-. split; [|exact H2]. cbn [b2_current]. intros e He. unfold b2_improved in *. cbn [b2_heap b2_dist] in *.
        apply heappush_in in He. destruct He as [->|He]; [apply mr_set_same|]. now apply mr_set_other, H1.
Qed.

Lemma b2_entries_in dist e starts : forall no, In e (b2_entries vid WT DM no dist starts) -> In (snd e) starts.
Proof.
  induction starts as [|v r IH]; simpl; [contradiction|]. intros no [He|He]; [subst; auto|eauto].
Qed.

Lemma b2_direct first starts goals lim n :
  b2_loop_direct vid WT DM PM LM R V_dec next_f next_b labeled build_path fail_silently first starts goals lim n =
  run (b2_step V_dec vid WT DM PM LM next_f next_b labeled build_path fail_silently) n (b2_init vid WT DM PM LM build_path first starts goals lim).
Proof.
  unfold b2_loop_direct.
  assert (Hs : forall l v, In v l -> inr (vid v) (b2_dist (b2_start vid WT DM PM LM build_path l lim))).
  { intros l v Hv. unfold b2_start. cbn [b2_dist]. apply define_starts; auto. }
  assert (Hc : forall l, b2_side_covered (b2_start vid WT DM PM LM build_path l lim)).
  { intros l e He. apply Hs. unfold b2_start in He. cbn [b2_heap] in He. rewrite heapify_in in He. now apply b2_entries_in in He. }
  unfold b2_init at 1 2 3. cbn [b2_current b2_other].
  match goal with |- context [if ?b then _ else _] => replace b with true end.
  - apply guarded_run with (Inv := b2_covered).
    + exact b2_covered_inside.
    + exact b2_covered_step.
    + split; apply Hc.
  - symmetry. apply andb_true_iff. split; apply forallb_forall; intros v Hv; now apply Hs.
Qed.
End B2.
End Weighted.

(** * Strategies with sets *)
Section Sets.
Context {V I L : Type}.
Variable V_dec : forall a b : V, {a = b} + {a <> b}.
Variable vid : V -> I.
Variable VS : VSet I.
Variable PM : PMap I V.
Variable LM : PMap I L.
Variable R : set_range VS.
Variable next : V -> list (V * L).
Notation inv i m := (vs_mem VS i m = true).
Notation rd i m := (sr_read R i m = true).

(** ** Topological sort *)
Section Topo.
Variable cfg : topo_cfg.

Definition topo_covered (s : @topo_state V I L VS PM LM) : Prop :=
  tc_is_tree cfg = true \/
  (t_pc s = TWhile /\ t_depth s = 0%Z /\ length (t_stack s) <= 1 /\ (forall i, vs_mem VS i (t_trace_set s) = false) /\
   forall i, inv i (t_visited s) -> In i (map vid (t_stack s))) \/
  (forall i, inv i (t_visited s) -> rd i (t_trace_set s)).

Lemma topo_covered_inside s : topo_covered s -> topo_inside vid VS PM LM R cfg s = true.
Proof.
  intros H. unfold topo_inside. destruct (t_pc s) as [|v [|[n l] rest]] eqn:E; auto.
  destruct H as [H|[(H & _)|H]].
  - now rewrite H.
  - congruence.
  - destruct (vs_mem VS (vid n) (t_visited s)) eqn:M; [rewrite (H _ M)|]; now rewrite orb_true_r.
Qed.

Lemma topo_covered_step s o s' : topo_covered s -> topo_step vid VS PM LM next cfg s = Go o s' -> topo_covered s'.
Proof.
  intros H. unfold topo_covered, topo_step. destruct (tc_is_tree cfg) eqn:Ht; [auto|]. intros G. right.
  destruct H as [H|H]; [congruence|]. unfold topo_step_graph in G. destruct (t_pc s) as [|v rest] eqn:Epc.
  - destruct (t_stack s) as [|v q] eqn:Es; [discriminate|]. destruct (vs_mem VS (vid v) (t_trace_set s)) eqn:Mt.
    + destruct H as [(_ & _ & _ & H & _)|H]; [congruence|]. injection G as <- <-. right. cbn. intros i Hi. now apply sr_discard, H.
    + destruct H as [(_ & Hd & Hl & _ & H)|H].
      * rewrite Hd in G. cbn in G. unfold topo_go_expand in G. destruct (limit_check _); [|discriminate]. injection G as <- <-. right. cbn.
        rewrite Hd. cbn. intros i Hi. apply H in Hi. destruct q; [|cbn in Hl; lia]. cbn in Hi. destruct Hi as [<-|[]]. apply sr_add_same.
      * destruct (_ && _).
        -- injection G as <- <-. right. exact H.
        -- unfold topo_go_expand in G. destruct (limit_check _); [|discriminate]. injection G as <- <-. right. cbn.
           intros i Hi. destruct (0 <? t_depth s)%Z.
           ++ apply vs_mem_add in Hi. destruct Hi as [->|Hi]; [apply sr_add_same|]. now apply sr_add_other, H.
           ++ now apply sr_add_other, H.
  - destruct H as [(H & _)|H]; [congruence|]. right. destruct rest as [|[n l] rest].
    + injection G as <- <-. exact H.
    + destruct (vs_mem VS (vid n) (t_visited s)).
      * destruct (vs_mem VS (vid n) (t_trace_set s)); [discriminate|]. injection G as <- <-. exact H.
      * injection G as <- <-. exact H.
Qed.

Lemma topo_direct starts lim n : length starts <= 1 ->
  topo_run_direct vid VS PM LM R next cfg starts None lim n = topo_run vid VS PM LM next cfg starts None lim n.
Proof.
  intros Hl. unfold topo_run_direct, topo_run. apply guarded_run with (Inv := topo_covered).
  - exact topo_covered_inside.
  - exact topo_covered_step.
  - unfold topo_covered. destruct (tc_is_tree cfg) eqn:Ht; [auto|]. right. left. unfold topo_init. cbn. split; [|split; [|split; [|split]]]; auto.
    + now rewrite rev_length.
    + intros i. apply vs_mem_empty.
    + intros i. unfold define_visited. rewrite Ht. destruct starts as [|v [|]]; cbn in Hl |- *; [|rewrite vs_mem_add|lia].
      * rewrite vs_mem_empty. discriminate.
      * rewrite vs_mem_empty. intros [Hi|Hi]; [left; congruence|discriminate].
Qed.
End Topo.

(** ** Depth-first search *)
Section DFS.
Variable XM : DMap I Z 0%Z.
Variable RX : map_range XM.
Variable cfg : dfs_cfg.
Variable skip : nat -> bool.
Variable av : option (vs_t VS).
Hypothesis Hok : cfg_ok cfg (match av with Some _ => true | None => false end).
Hypothesis Hav : av = None \/ dc_report cfg BACK_EDGE = false.
Notation state := (@dfs_state V I L VS PM LM XM).

Record dfs_covered (s : state) : Prop := {
  dv_trace : dc_compute_on_trace cfg = true -> NoDup (map vid (f_trace s)) /\ forall v, In v (f_trace s) -> inv (vid v) (f_on_trace s);
  dv_visited : dc_mode cfg = DFS_TREE -> dc_is_tree cfg = false -> forall v, In v (f_trace s) -> inv (vid v) (f_visited s);
  dv_read : dc_mode cfg = DFS_TREE -> dc_is_tree cfg = false -> av = None -> forall i, inv i (f_visited s) ->
    (dc_compute_on_trace cfg = true -> rd i (f_on_trace s)) /\ (dc_compute_index cfg = true -> mr_in RX i (f_index s) = true)
}.

Lemma dfs_covered_inside s : dfs_covered s -> dfs_inside vid VS PM LM R XM RX cfg s = true.
Proof using Hok Hav.
  intros H. unfold dfs_inside. destruct (f_pc s) as [|b]; auto. destruct (f_markers s) as [|[|] m]; auto.
  - destruct (f_trace s) as [|v t] eqn:Et; auto. destruct (dc_compute_on_trace cfg) eqn:Ec; auto. cbn.
    apply sr_mem. apply (proj2 (dv_trace s H Ec)). rewrite Et. now left.
  - destruct (f_to_visit s) as [|v q]; auto. destruct (f_trace s) as [|p t] eqn:Et; auto.
    destruct (dc_is_tree cfg) eqn:Ht; auto. destruct (dc_mode cfg) eqn:Em; auto. cbn [negb is_dfs_tree andb].
    destruct (vs_mem VS (vid v) (f_visited s)) eqn:Mv; auto. cbn [andb]. match goal with |- (if ?b then _ else _) = true => destruct b; auto end.
    assert (Hp : inv (vid p) (f_visited s)). { apply (dv_visited s H Em Ht). rewrite Et. now left. }
    apply andb_true_iff. split.
    + destruct (dc_report cfg BACK_EDGE) eqn:Eb; auto. destruct Hav as [Ha|Ha]; [|congruence]. cbn.
      apply (dv_read s H Em Ht Ha); auto. now apply (ok_back _ _ Hok).
    + destruct (dc_report cfg FORWARD_EDGE || dc_report cfg CROSS_EDGE) eqn:Ei; auto. cbn. apply orb_true_iff in Ei.
      destruct (ok_index _ _ Hok Ei) as (Hi & Ha & _). assert (Ha' : av = None) by (destruct av; congruence).
      apply andb_true_iff. split; apply (dv_read s H Em Ht Ha'); auto.
Qed.

(** The invariant depends on some of the components, only. *)
Lemma dfs_covered_same s s' : f_trace s' = f_trace s -> f_on_trace s' = f_on_trace s -> f_index s' = f_index s -> f_visited s' = f_visited s ->
  dfs_covered s -> dfs_covered s'.
Proof. intros E1 E2 E3 E4 [H1 H2 H3]. constructor; rewrite ?E1, ?E2, ?E3, ?E4; auto. Qed.

Lemma dfs_covered_left s b v m t tl k : f_trace s = v :: t -> dfs_covered s -> dfs_covered (dfs_left vid VS PM LM XM cfg s b v m t tl k).
Proof.
  intros Et [H1 H2 H3]. rewrite Et in *. constructor; cbn.
  - intros Hc. rewrite Hc. destruct (H1 Hc) as [Hn Ho]. inversion Hn as [|? ? Hni Hnd]. split; auto. intros u Hu.
    apply vs_mem_discard. split; [|apply Ho; now right]. intros E. apply Hni. rewrite <- E. now apply in_map.
  - intros Hm Ht u Hu. apply H2; auto. now right.
  - intros Hm Ht Ha i Hi. destruct (H3 Hm Ht Ha i Hi) as [H4 H5]. split; auto. intros Hc. rewrite Hc. now apply sr_discard, H4.
Qed.

Lemma dfs_covered_leave s b m o s' : dfs_covered s -> dfs_leave vid VS PM LM XM cfg s b m = Go o s' -> dfs_covered s'.
Proof.
  intros H. unfold dfs_leave. destruct (f_trace s) as [|v t] eqn:Et; [discriminate|].
  assert (Hshow : forall (c : bool) ev, f_trace (if c then dfs_show VS PM LM XM s ev (v :: t) (f_trace_labels s) else s) = v :: t /\
      dfs_covered (if c then dfs_show VS PM LM XM s ev (v :: t) (f_trace_labels s) else s)).
  { intros c ev. destruct c; [|auto]. split; auto. now apply (dfs_covered_same s). }
  destruct m as [|b' m].
  - intros G. injection G as <- <-. apply dfs_covered_left; apply Hshow.
  - destruct (dc_labeled cfg).
    + match goal with |- match ?x with _ => _ end = _ -> _ => destruct x; [discriminate|] end. intros G. injection G as <- <-. apply dfs_covered_left; apply Hshow.
    + intros G. injection G as <- <-. apply dfs_covered_left; apply Hshow.
Qed.

Lemma dfs_covered_pop s m v s1 : dfs_covered s -> dfs_pop VS PM LM XM cfg s m = Some (v, s1) -> dfs_covered s1.
Proof.
  intros H. unfold dfs_pop. destruct (f_to_visit s) as [|u q]; [discriminate|]. destruct (dc_labeled cfg); [destruct q; [|destruct (f_to_visit_labels s); [discriminate|]]|];
    intros G; injection G as <- <-; now apply (dfs_covered_same s).
Qed.

Lemma dfs_covered_revisit s v back o s' : dfs_covered s -> dfs_revisit vid VS PM LM XM cfg s v back = Go o s' -> dfs_covered s'.
Proof.
  intros H. unfold dfs_revisit. destruct (f_trace s) as [|p t] eqn:Et.
  - destruct (dc_report cfg SKIPPING_START); intros G; injection G as <- <-; now apply (dfs_covered_same s).
  - destruct (dfs_classify vid VS PM LM XM cfg s v back).
    + destruct (dc_labeled cfg); [destruct (f_var_labels s); [|discriminate]|]; intros G; injection G as <- <-; now apply (dfs_covered_same s).
    + intros G; injection G as <- <-. exact H.
Qed.

Lemma dfs_covered_enter s v : dfs_covered s ->
  (dc_is_tree cfg = false -> match dc_mode cfg with
                             | DFS_TREE => vs_mem VS (vid v) (f_visited s) = false
                             | ALL_PATHS => vs_mem VS (vid v) (f_on_trace s) = false
                             | ALL_WALKS => True
                             end) ->
  dfs_covered (dfs_enter V_dec vid VS PM LM XM cfg s v).
Proof using Hok.
  intros [H1 H2 H3] Hn. constructor; cbn.
  - intros Hc. destruct (ok_on_trace _ _ Hok Hc) as [Ht Hw]. destruct (H1 Hc) as [Hd Ho]. specialize (Hn Ht). rewrite Ht, Hc.
    assert (Hni : ~ In (vid v) (map vid (f_trace s))).
    { intros Hi. apply in_map_iff in Hi. destruct Hi as (u & Eu & Hu). destruct (dc_mode cfg) eqn:Em; try congruence.
      - pose proof (H2 eq_refl Ht u Hu) as Hm. rewrite Eu in Hm. congruence.
      - pose proof (Ho u Hu) as Hm. rewrite Eu in Hm. congruence. }
    split; [now constructor|]. destruct (dc_mode cfg) eqn:Em; try congruence; cbn; intros u [->|Hu]; apply vs_mem_add; auto.
  - intros Hm Ht. rewrite Hm, Ht. cbn. intros u [->|Hu]; apply vs_mem_add; auto.
  - intros Hm Ht Ha i. specialize (H3 Hm Ht Ha). rewrite Hm, Ht. cbn. intros Hi. apply vs_mem_add in Hi. split.
    + intros Hc. rewrite Hc. cbn. destruct Hi as [->|Hi]; [apply sr_add_same|]. apply sr_add_other. now apply H3.
    + intros Hc. rewrite Hc. destruct Hi as [->|Hi]; [apply mr_set_same|]. apply mr_set_other. now apply H3.
Qed.

Lemma dfs_covered_visit s v o s' : dfs_covered s ->
  (dc_is_tree cfg = false -> match dc_mode cfg with
                             | DFS_TREE => vs_mem VS (vid v) (f_visited s) = false
                             | ALL_PATHS => vs_mem VS (vid v) (f_on_trace s) = false
                             | ALL_WALKS => True
                             end) ->
  dfs_visit V_dec vid VS PM LM XM next cfg skip s v = Go o s' -> dfs_covered s'.
Proof using Hok.
  intros H Hn G. pose proof (dfs_covered_enter s v H Hn) as He.
  assert (Hg : forall r, (let s1 := dfs_enter V_dec vid VS PM LM XM cfg s v in
      let show := dc_report cfg (if is_current_start V_dec VS PM LM XM s v then ENTERING_START else ENTERING_SUCCESSOR) in
      let o := if show then [dfs_observe VS PM LM XM v s1] else [] in
      if show && skip (f_count s) then Go o (dfs_count VS PM LM XM s1 (length o))
      else match limit_check (f_limit s1) with
           | None => Raise o RuntimeErrorLimit (dfs_count VS PM LM XM s1 (length o))
           | Some lim => Go o (dfs_expand VS PM LM XM next cfg s1 v lim (length o))
           end) = r -> forall o' s', r = Go o' s' -> dfs_covered s').
  { cbv zeta. intros r <- o' s''. destruct (_ && _).
    - intros G'. injection G' as <- <-. revert He. now apply dfs_covered_same.
    - destruct (limit_check _); [|discriminate]. intros G'. injection G' as <- <-. revert He. now apply dfs_covered_same. }
  unfold dfs_visit in G. destruct (f_trace s); [eapply Hg; eauto|].
  destruct (dc_labeled cfg); [destruct (f_var_labels s); [|discriminate]|]; eapply Hg; eauto.
Qed.

Lemma dfs_covered_step s o s' : dfs_covered s -> dfs_step V_dec vid VS PM LM XM next cfg skip s = Go o s' -> dfs_covered s'.
Proof using Hok.
  intros H. unfold dfs_step. destruct (f_pc s) as [|b].
  - destruct (f_starts s); [discriminate|]. intros G. injection G as <- <-. revert H. now apply dfs_covered_same.
  - destruct (f_markers s) as [|[|] m].
    + intros G. injection G as <- <-. revert H. now apply dfs_covered_same.
    + now apply dfs_covered_leave.
    + destruct (dfs_pop VS PM LM XM cfg s m) as [[v s1]|] eqn:Ep; [|discriminate]. apply dfs_covered_pop in Ep; auto.
      destruct (dc_is_tree cfg) eqn:Ht; cbn [negb andb].
      * apply dfs_covered_visit; auto. congruence.
      * destruct (dc_mode cfg) eqn:Em; cbn [is_all_walks is_dfs_tree negb].
        -- destruct (vs_mem VS (vid v) (f_visited s1)) eqn:Mv; [now apply dfs_covered_revisit|]. apply dfs_covered_visit; auto. now rewrite Em.
        -- destruct (vs_mem VS (vid v) (f_on_trace s1)) eqn:Mv; [now apply dfs_covered_revisit|]. apply dfs_covered_visit; auto. now rewrite Em.
        -- apply dfs_covered_visit; auto. now rewrite Em.
Qed.

Lemma dfs_direct starts lim n :
  dfs_run_direct V_dec vid VS PM LM R XM RX next cfg skip starts av lim n =
  run (dfs_step V_dec vid VS PM LM XM next cfg skip) n (dfs_init vid VS PM LM XM cfg starts av lim).
Proof using Hok Hav.
  unfold dfs_run_direct. apply guarded_run with (Inv := dfs_covered).
  - exact dfs_covered_inside.
  - exact dfs_covered_step.
  - constructor; cbn.
    + intros _. split; [constructor|tauto].
    + tauto.
    + intros _ Ht Ha i. rewrite Ha, Ht. unfold define_visited. cbn. rewrite vs_mem_empty. discriminate.
Qed.
End DFS.
End Sets.

(** * Errors *)
Lemma run_raised {S O} (step : S -> step_result S O exn) (Inv : S -> Prop) (Hstep : forall s o s', Inv s -> step s = Go o s' -> Inv s') :
  forall n s os x s', Inv s -> run step n s = (os, Raised x s') -> exists s1 o, Inv s1 /\ step s1 = Raise o x s'.
Proof.
  intros n s os x s' HI HR.
  destruct (run_inv_raised step (fun _ s => Inv s) (fun pre s o s' H E => Hstep s o s' H E) n [] s os x s' HI HR) as (os1 & o & s1 & _ & H1 & H2). eauto.
Qed.

Section Errors.
Context {V I L : Type}.
Variable vid : V -> I.

Lemma dij_errors WT DM (PM : PMap I V) (LM : PMap I L) next cfg starts known lim n os x s :
  dij_run vid WT DM PM LM next cfg starts known lim n = (os, Raised x s) -> x = RuntimeErrorLimit \/ x = OverflowErrorDistance.
Proof.
  intros H. destruct (run_raised _ (fun _ => True) (fun _ _ _ _ _ => Logic.I) n _ os x s Logic.I H) as (s1 & o & _ & E). revert E. unfold dij_step.
  repeat match goal with |- match ?y with _ => _ end = _ -> _ => destruct y; try discriminate end; intros E; injection E; auto.
Qed.

Lemma ast_errors WT DM (PM : PMap I V) (LM : PMap I L) next cfg heuristic starts kd kg lim n os x s :
  ast_run vid WT DM PM LM next cfg heuristic starts kd kg lim n = (os, Raised x s) -> x = RuntimeErrorLimit \/ x = OverflowErrorDistance.
Proof.
  intros H. destruct (run_raised _ (fun _ => True) (fun _ _ _ _ _ => Logic.I) n _ os x s Logic.I H) as (s1 & o & _ & E). revert E. unfold ast_step. cbv zeta.
  repeat match goal with |- match ?y with _ => _ end = _ -> _ => destruct y; try discriminate end; intros E; injection E; auto.
Qed.

Lemma b2_errors V_dec WT DM (PM : PMap I V) (LM : PMap I L) next_f next_b labeled build_path fail_silently s0 n os x s :
  run (b2_step V_dec vid WT DM PM LM next_f next_b labeled build_path fail_silently) n s0 = (os, Raised x s) ->
  x = RuntimeErrorLimit \/ x = OverflowErrorDistance \/ x = KeyErrorNotFound /\ fail_silently = false.
Proof.
  intros H. destruct (run_raised _ (fun _ => True) (fun _ _ _ _ _ => Logic.I) n _ os x s Logic.I H) as (s1 & o & _ & E). revert E. unfold b2_step, b2_failed. cbv zeta.
  repeat match goal with
         | |- match (if ?b then _ else _) with _ => _ end = _ -> _ => destruct b eqn:?; try discriminate
         | |- match ?y with _ => _ end = _ -> _ => destruct y; try discriminate
         end; intros E; injection E; auto.
Qed.

Lemma topo_errors VS (PM : PMap I V) (LM : PMap I L) next cfg starts av lim n os x s :
  topo_run vid VS PM LM next cfg starts av lim n = (os, Raised x s) -> x = RuntimeErrorLimit \/ x = RuntimeErrorCycle /\ tc_is_tree cfg = false.
Proof.
  intros H.
  assert (H0 : tc_is_tree cfg = true -> length (t_markers (topo_init vid VS PM LM cfg starts av lim)) = length (t_stack (topo_init vid VS PM LM cfg starts av lim))).
  { intros _. unfold topo_init. cbn [t_markers t_stack]. now rewrite map_length, rev_length. }
  assert (HS : forall s1 o s2, (tc_is_tree cfg = true -> length (t_markers s1) = length (t_stack s1)) -> topo_step vid VS PM LM next cfg s1 = Go o s2 ->
    tc_is_tree cfg = true -> length (t_markers s2) = length (t_stack s2)).
  { intros s1 o s2 HI E Ht. specialize (HI Ht). revert E. unfold topo_step. rewrite Ht. unfold topo_step_tree, topo_go_expand.
    destruct (t_pc s1) as [|v [|[n' l] rest]].
    + destruct (t_stack s1) as [|v q] eqn:Es; [discriminate|]. destruct (t_markers s1) as [|[|] m] eqn:Em; [discriminate| |].
      * intros E. injection E as <- <-. cbn in *. lia.
      * destruct (limit_check _); [|discriminate]. intros E. injection E as <- <-. cbn in *. rewrite Es. cbn. lia.
    + intros E. injection E as <- <-. exact HI.
    + intros E. injection E as <- <-. cbn. rewrite Ht. cbn. lia. }
  destruct (run_raised _ _ HS n _ os x s H0 H) as (s1 & o & HI & E).
  revert E. unfold topo_step. destruct (tc_is_tree cfg) eqn:Ht.
    + specialize (HI eq_refl). unfold topo_step_tree, topo_go_expand. destruct (t_pc s1) as [|v [|[n' l] rest]]; try discriminate.
      destruct (t_stack s1) as [|v q] eqn:Es; [discriminate|]. destruct (t_markers s1) as [|[|] m] eqn:Em; [discriminate|discriminate|].
      destruct (limit_check _); [discriminate|]. intros E. injection E; auto.
    + unfold topo_step_graph, topo_go_expand.
      repeat match goal with |- match ?y with _ => _ end = _ -> _ => destruct y; try discriminate end; intros E; injection E; auto.
Qed.
End Errors.
