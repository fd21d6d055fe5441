(** The traveling salesman problem with edges of equal weight, and statements for all results. *)
From Coq Require Import List ZArith Bool Lia Permutation Arith.
From Verif Require Import Machine GearSpec Common PathsModel PathModel Weight BiSPModel TspModel TspSpec TspBits TspProofs TspRun TspEqual TspMain.
Import ListNotations.
Local Open Scope Z_scope.

(** Every vertex of a route has an edge to the next, and from the one before. *)
Lemma route_out (w : Z -> Z -> option Z) x l : forall c, route_length w (l ++ [x]) = Some c -> forall v, In v l -> exists k, In k (l ++ [x]) /\ w v k <> None.
Proof.
  induction l as [|a l IH]; intros c HR v Hin; [destruct Hin|].
  assert (Hex : exists b r, l ++ [x] = b :: r) by (destruct l; simpl; eauto). destruct Hex as (b & r & Hex).
  cbn [app] in HR. rewrite Hex in HR. rewrite (@route_cons Z) in HR. destruct (w a b) as [y|] eqn:Ew; [|discriminate].
  destruct (route_length w (b :: r)) as [z|] eqn:Er; [|discriminate]. destruct Hin as [->|Hin].
  - exists b. split; [cbn [app]; rewrite Hex; right; now left|congruence].
  - rewrite <- Hex in Er. destruct (IH z Er v Hin) as (k & Hk & Hw). exists k. split; [now right|auto].
Qed.

Lemma route_in (w : Z -> Z -> option Z) a l : forall c, route_length w (a :: l) = Some c -> forall v, In v l -> exists k, In k (a :: l) /\ w k v <> None.
Proof.
  revert a. induction l as [|b l IH]; intros a c HR v Hin; [destruct Hin|]. rewrite (@route_cons Z) in HR. destruct (w a b) as [y|] eqn:Ew; [|discriminate].
  destruct (route_length w (b :: l)) as [z|] eqn:Er; [|discriminate]. destruct Hin as [->|Hin].
  - exists a. split; [now left|congruence].
  - destruct (IH b z Er v Hin) as (k & Hk & Hw). exists k. split; [now right|auto].
Qed.

Section Int.
Variable DM : DMap Z (option Z) None.
Variable PM : PMap Z Z.
Variable LM : PMap Z unit.
Variable g : list (list (option Z)).
Notation N := (length g).
Notation n := (Z.of_nat N).
Hypothesis Hsq : forall row, In row g -> length row = N.
Variable x0 : Z.
Hypothesis Heq : forall v w x, 0 <= v < n -> 0 <= w < n -> v <> w -> cell g v w = Some x -> x = x0.

Theorem tsp_int_complete longest passes e : tsp_int_vertices DM PM LM g longest passes = Some (inr e) -> (2 <= N)%nat ->
  forall order c, Permutation (0 :: order) (range N) -> route_length (wt g) (0 :: order ++ [0]) = Some c -> False.
Proof.
  intros HR HN order c HP Hr.
  assert (Hmem : forall v, In v (0 :: order ++ [0]) -> 0 <= v < n).
  { intros v Hv. apply range_in. apply (Permutation_in _ HP). destruct Hv as [<-|Hv]; [now left|]. apply in_app_iff in Hv. destruct Hv as [?|[<-|[]]]; [now right|now left]. }
  assert (Hall : forall v, 0 <= v < n -> In v (0 :: order)) by (intros v Hv; apply (Permutation_in _ (Permutation_sym HP)); now apply range_in).
  assert (Hcell : forall a b, wt g a b <> None -> a <> b /\ cell g a b <> None) by (intros a b; unfold wt; destruct (Z.eqb_spec a b); [congruence|auto]).
  unfold tsp_int_vertices in HR. destruct (if longest then _ else _) as [[negate off] changed] eqn:Echg.
  assert (Hpos : forall x, In x (iter_weights g) -> 0 <= chg negate off x).
  { destruct longest.
    - destruct (weight_changes_for_find_longest (iter_weights g) 0) as [a b] eqn:E. injection Echg as -> -> <-. destruct (changes_longest _ _ _ E) as [-> (_ & _ & HG)].
      intros x Hx. specialize (HG x Hx). unfold changed_weight. lia.
    - destruct (changes_negative _ _ _ _ Echg) as (-> & (_ & _ & HG) & _). intros x Hx. specialize (HG x Hx). unfold changed_weight. lia. }
  destruct (Nat.ltb_spec N 2) as [Hlt|_]; [lia|].
  replace (existsb (fun edges => negb (Nat.eqb (length edges) N)) g) with false in HR.
  2:{ symmetry. apply not_true_is_false. intros H. apply existsb_exists in H. destruct H as (row & Hrow & H). rewrite (Hsq row Hrow), Nat.eqb_refl in H. discriminate. }
  assert (Hch : forall (sw : bool) v w, 0 <= v < n -> 0 <= w < n -> (if sw then cell g w v else cell g v w) <> None -> cell (changed_graph g N negate off sw) v w <> None).
  { intros sw v w Hv Hw Hc. rewrite cell_changed. destruct (Nat.ltb_spec (Z.to_nat v) N); [|lia]. destruct (Nat.ltb_spec (Z.to_nat w) N); [|lia]. cbn [andb].
    destruct (if sw then _ else _); [discriminate|contradiction]. }
  assert (Hadj : forall (sw : bool) v w, 0 <= v < n -> 0 <= w < n -> v <> w -> (if sw then cell g w v else cell g v w) <> None -> adjacent (changed_graph g N negate off sw) N v =? 0 = false).
  { intros sw v w Hv Hw Hne Hc. apply Z.eqb_neq. intros C.
    assert (Hb : Z.testbit (adjacent (changed_graph g N negate off sw) N v) w = true) by (apply adjacent_bit; [lia|]; split; [lia|]; split; auto).
    rewrite C, Z.bits_0 in Hb. discriminate. }
  destruct (existsb (fun v => adjacent (changed_graph g N negate off false) N v =? 0) (range N)) eqn:E1.
  { apply existsb_exists in E1. destruct E1 as (v & Hv & E1). apply range_in in Hv.
    destruct (route_out (wt g) 0 (0 :: order) c Hr v (Hall v Hv)) as (k & Hk & Hw). destruct (Hcell _ _ Hw) as [H1 H2].
    rewrite (Hadj false v k) in E1; auto. discriminate. }
  destruct (existsb (fun v => adjacent (changed_graph g N negate off true) N v =? 0) (range N)) eqn:E2.
  { apply existsb_exists in E2. destruct E2 as (v & Hv & E2). apply range_in in Hv.
    assert (Hin : In v (order ++ [0])) by (apply in_or_app; destruct (Hall v Hv) as [<-|H]; [right; now left|auto]).
    destruct (route_in (wt g) 0 (order ++ [0]) c Hr v Hin) as (k & Hk & Hw). destruct (Hcell _ _ Hw) as [H1 H2].
    rewrite (Hadj true v k) in E2; auto. discriminate. }
  destruct (search_graph g negate off Hpos) as [Hsym Hp].
  assert (Hcr : exists c', route_length (wt (changed_graph g N negate off false)) (0 :: order ++ [0]) = Some c') by (rewrite route_changed, Hr by auto; simpl; eauto).
  destruct Hcr as (c' & Hcr).
  assert (Hsome : exists a b y, 0 <= a < n /\ 0 <= b < n /\ a <> b /\ cell g a b = Some y).
  { destruct (route_out (wt g) 0 (0 :: order) c Hr 0 (or_introl eq_refl)) as (k & Hk & Hw). destruct (Hcell _ _ Hw) as [H1 H2].
    destruct (cell g 0 k) as [y|] eqn:Ey; [|contradiction]. exists 0, k, y. split; [lia|]. auto. }
  destruct Hsome as (a & b & y & Ha & Hb & Hab & Hy). pose proof (Heq a b y Ha Hb Hab Hy). subst y.
  destruct (tsp_search DM PM LM _ _ N passes) as [os r] eqn:ER.
  pose proof (tsp_search_says DM PM LM _ _ N HN Hsym (Hp false) (Hp true) _ _ _ ER) as Hsays.
  destruct r as [s|s|e' s]; [destruct os; discriminate| |].
  - destruct Hsays as (x & c1 & states & order1 & -> & Hl & Hs & _). rewrite Hl, Hs in HR. discriminate.
  - apply (tsp_search_complete DM PM LM _ _ N HN Hsym (Hp false) (Hp true) (chg negate off x0)) with (order := order) (c := c') in ER; auto.
    + intros v w x Hv Hw Hne. rewrite cell_changed. destruct (_ && _); [|discriminate]. destruct (cell g v w) as [z|] eqn:Ez; [|discriminate]. simpl. intros Hx. injection Hx as <-.
      rewrite (Heq v w z Hv Hw Hne Ez). reflexivity.
Qed.
End Int.

Section Any.
Context {T : Type}.
Variable DM : DMap Z (option Z) None.
Variable PM : PMap Z Z.
Variable LM : PMap Z unit.
Variable vertices : list T.
Variable weights : T -> option (T -> option Z).
Notation g := (int_graph vertices weights).
Notation weight := (weight_of weights).
Notation tsp := (traveling_salesman DM PM LM vertices weights).

(** A tour is a route through the numbers of the vertices. *)
Lemma tour_numbers first rest route len : vertices = first :: rest -> NoDup vertices -> (2 <= length vertices)%nat -> is_tour weight vertices first route len ->
  exists order, Permutation (0 :: order) (range (length vertices)) /\ route_length (wt g) (0 :: order ++ [0]) = Some len.
Proof.
  intros Hv Hnd HN (others & -> & HPt & Hlt).
  assert (Hv0 : vert vertices first 0 = first) by (unfold vert; rewrite Hv; reflexivity).
  assert (HPt' : Permutation (first :: others) (map (vert vertices first) (range (length vertices)))) by (rewrite vert_range; exact HPt). clear HPt.
  apply Permutation_map_inv in HPt'. destruct HPt' as (l3 & Heq & HP3).
  destruct l3 as [|i0 order']; [discriminate|]. cbn [map] in Heq. injection Heq as Hi0 Ho.
  assert (Hi : i0 = 0).
  { assert (Hin : In i0 (range (length vertices))) by (apply (Permutation_in _ (Permutation_sym HP3)); now left). apply range_in in Hin.
    pose proof (vert_nth vertices first i0 Hin) as E. rewrite <- Hi0, <- Hv0 in E. rewrite <- (vert_nth vertices first 0) in E by lia.
    apply (NoDup_nth_error vertices) in E; auto; [|lia]. simpl in E. lia. }
  subst i0 others. exists order'. split; [now symmetry|].
  apply (route_back vertices weights first).
  - intros v Hin. apply range_in. apply (Permutation_in _ (Permutation_sym HP3)). destruct Hin as [<-|Hin]; [now left|]. apply in_app_iff in Hin. destruct Hin as [?|[<-|[]]]; [now right|now left].
  - intros l1 a b l2 E. change (0 :: order' ++ [0]) with ((0 :: order') ++ [0]) in E.
    assert (Hnd3 : NoDup (0 :: order')) by (apply (Permutation_NoDup HP3), range_nodup).
    assert (Hl3 : (2 <= length (0%Z :: order'))%nat) by (rewrite <- (Permutation_length HP3); unfold range; rewrite map_length, seq_length; exact HN).
    exact (nodup_steps (0 :: order') Hnd3 0 (or_introl eq_refl) Hl3 l1 a b l2 E eq_refl).
  - cbn [map]. rewrite map_app. cbn [map]. rewrite Hv0. exact Hlt.
Qed.

Theorem tsp_some longest : exists passes res, forall passes', (passes <= passes')%nat -> tsp longest passes' = Some res.
Proof.
  destruct (tsp_int_ends DM PM LM g longest) as (passes & res & HR).
  exists passes. exists (match res with inr x => inr x | inl (length, path) => inl (length, flat_map (fun v => match nth_error vertices (Z.to_nat v) with Some x => [x] | None => [] end) path) end).
  intros p' Hp. unfold traveling_salesman. rewrite (tsp_int_stable _ _ _ _ _ _ _ _ HR Hp). destruct res as [[l p]|x]; reflexivity.
Qed.

Theorem tsp_errors longest passes e : tsp longest passes = Some (inr e) ->
  (e = RuntimeErrorProblem /\ (length vertices < 2)%nat) \/ (e = KeyErrorNotFound /\ (2 <= length vertices)%nat).
Proof.
  unfold traveling_salesman. destruct (tsp_int_vertices DM PM LM g longest passes) as [[[l p]|x]|] eqn:EI; try discriminate. intros H. injection H as <-.
  apply tsp_int_says in EI; [|apply g_square]. rewrite g_length in EI. exact EI.
Qed.

Theorem tsp_too_few longest passes res : tsp longest passes = Some res -> (length vertices < 2)%nat -> res = inr RuntimeErrorProblem.
Proof.
  unfold traveling_salesman. destruct (tsp_int_vertices DM PM LM g longest passes) as [[[l p]|x]|] eqn:EI; try discriminate; intros H; injection H as <-; intros Hl.
  - apply tsp_int_says in EI; [|apply g_square]. rewrite g_length in EI. destruct EI as [C _]. lia.
  - apply tsp_int_says in EI; [|apply g_square]. rewrite g_length in EI. destruct EI as [[-> _]|[_ C]]; [reflexivity|lia].
Qed.

Theorem tsp_results longest passes res : tsp longest passes = Some res ->
  if (length vertices <? 2)%nat then res = inr RuntimeErrorProblem else res = inr KeyErrorNotFound \/ exists len tour, res = inl (len, tour).
Proof.
  intros HR. destruct (Nat.ltb_spec (length vertices) 2) as [H|H]; [eapply tsp_too_few; eauto|]. destruct res as [[l p]|e]; [right; eauto|left].
  destruct (tsp_errors _ _ _ HR) as [[_ C]|[-> _]]; [lia|reflexivity].
Qed.

Theorem tsp_equal first rest longest passes e x0 : vertices = first :: rest -> NoDup vertices -> (2 <= length vertices)%nat ->
  (forall a b x, In a vertices -> In b vertices -> a <> b -> weight a b = Some x -> x = x0) ->
  tsp longest passes = Some (inr e) -> forall route len, ~ is_tour weight vertices first route len.
Proof.
  intros Hv Hnd HN Hx HR route len Ht.
  destruct (tour_numbers first rest route len Hv Hnd HN Ht) as (order & HP & Hr).
  unfold traveling_salesman in HR. destruct (tsp_int_vertices DM PM LM g longest passes) as [[[l p]|x]|] eqn:EI; try discriminate.
  rewrite <- (g_length vertices weights) in HN, HP. apply (tsp_int_complete DM PM LM g (g_square vertices weights) x0) with (order := order) (c := len) in EI; auto.
  intros v w y Hv1 Hw1 Hne Hc. rewrite g_length in Hv1, Hw1. rewrite (cell_weight_of vertices weights first v w Hv1 Hw1) in Hc.
  eapply Hx; [| | |exact Hc].
  - eapply nth_error_In. apply vert_nth. exact Hv1.
  - eapply nth_error_In. apply vert_nth. exact Hw1.
  - intros C. apply Hne. pose proof (vert_nth vertices first v Hv1) as E. rewrite C, <- (vert_nth vertices first w Hw1) in E.
    apply (NoDup_nth_error vertices) in E; auto; lia.
Qed.
End Any.

(** ** Changed weights, all together *)
Theorem negative_changes weights negate offset changed : weight_changes_for_negative_weights weights 0 = (negate, offset, changed) ->
  (forall w, In w weights -> 0 <= changed_weight negate offset w) /\
  (changed = false <-> forall w, In w weights -> 0 <= w) /\
  (changed = false -> forall w, changed_weight negate offset w = w) /\
  (forall l l', length l = length l' ->
     total (map (changed_weight negate offset) l) <= total (map (changed_weight negate offset) l') <-> total l <= total l') /\
  (forall l, undo_weight_changes_in_travel_length (total (map (changed_weight negate offset) l)) (length l) 0 negate offset = total l).
Proof.
  intros H. destruct (changes_negative _ _ _ _ H) as (-> & (H1 & H2 & H3) & H4).
  assert (H0 : changed = false <-> offset = 0) by (destruct changed; split; intros; try congruence; [exfalso; now apply H4|destruct (Z.eq_dec offset 0) as [|Hn]; auto; apply H4 in Hn; discriminate]).
  split; [intros w Hw; specialize (H3 w Hw); unfold changed_weight; lia|]. split; [|split; [|split]].
  - rewrite H0. split; [intros -> w Hw; specialize (H3 w Hw); lia|]. intros Hp. destruct H1 as [H1|H1]; [lia|]. specialize (Hp _ H1). lia.
  - intros C w. apply H0 in C. unfold changed_weight. lia.
  - intros l l' Hl. rewrite !total_chg, Hl. lia.
  - intros l. apply undo_exact.
Qed.

Theorem longest_changes weights negate offset : weight_changes_for_find_longest weights 0 = (negate, offset) ->
  (forall w, In w weights -> 0 <= changed_weight negate offset w) /\
  (forall l l', length l = length l' ->
     total (map (changed_weight negate offset) l) <= total (map (changed_weight negate offset) l') <-> total l' <= total l) /\
  (forall l, undo_weight_changes_in_travel_length (total (map (changed_weight negate offset) l)) (length l) 0 negate offset = total l).
Proof.
  intros H. destruct (changes_longest _ _ _ H) as (-> & (H1 & H2 & H3)).
  split; [intros w Hw; specialize (H3 w Hw); unfold changed_weight; lia|]. split.
  - intros l l' Hl. rewrite !total_chg, Hl. lia.
  - intros l. apply undo_exact.
Qed.

(** ** Tours *)
Section Tours.
Context {T : Type}.
Variable DM : DMap Z (option Z) None.
Variable PM : PMap Z Z.
Variable LM : PMap Z unit.
Variable vertices : list T.
Variable weights : T -> option (T -> option Z).
Notation tsp := (traveling_salesman DM PM LM vertices weights).

Theorem tsp_twice first rest passes len path : vertices = first :: rest -> NoDup vertices -> (forall x, edge_weight (weight_of weights) vertices x -> 0 <= x) ->
  tsp false passes = Some (inl (len, path)) -> forall path' len', is_tour (weight_of weights) vertices first path' len' -> len <= 2 * len'.
Proof.
  intros Hv Hnd Hpos HR path' len' Ht.
  destruct (tsp_tour DM PM LM vertices weights first rest Hv false passes len path HR) as [_ Hn]. specialize (Hn Hnd path' len' Ht 0).
  assert (Hl : lowest 0 (edge_weight (weight_of weights) vertices)) by (split; [now left|split; [lia|exact Hpos]]). specialize (Hn Hl). lia.
Qed.

(** The result exactly says whether there is a tour, if the weights are equal. *)
Theorem tsp_hamiltonian first rest longest x0 : vertices = first :: rest -> rest <> [] -> NoDup vertices ->
  (forall a b x, In a vertices -> In b vertices -> a <> b -> weight_of weights a b = Some x -> x = x0) ->
  exists passes, forall passes', (passes <= passes')%nat ->
    (exists len path, tsp longest passes' = Some (inl (len, path)) /\ is_tour (weight_of weights) vertices first path len /\
                      forall path' len', is_tour (weight_of weights) vertices first path' len' -> len' = len) \/
    (tsp longest passes' = Some (inr KeyErrorNotFound) /\ forall path' len', ~ is_tour (weight_of weights) vertices first path' len').
Proof.
  intros Hv Hr Hnd Hx. destruct (tsp_some DM PM LM vertices weights longest) as (passes & res & HR). exists passes. intros p' Hp. specialize (HR p' Hp).
  assert (HN : (2 <= length vertices)%nat) by (rewrite Hv; destruct rest; [contradiction|simpl; lia]).
  destruct res as [[len path]|e].
  - left. exists len, path. split; auto. destruct (tsp_tour DM PM LM vertices weights first rest Hv longest p' len path HR) as [Ht _]. split; auto.
    assert (Hall : forall route l, is_tour (weight_of weights) vertices first route l -> l = Z.of_nat (length vertices) * x0).
    { intros route l Hi. pose proof Hi as (others & -> & HP & HL). destruct (tour_numbers vertices weights first rest _ _ Hv Hnd HN Hi) as (order & HP' & HL').
      assert (Hlen : length (0 :: order) = length vertices) by (rewrite (Permutation_length HP'); unfold range; rewrite map_length, seq_length; reflexivity).
      assert (Hgen : forall r c, (forall v, In v r -> 0 <= v < Z.of_nat (length vertices)) -> route_length (wt (int_graph vertices weights)) r = Some c -> c = Z.of_nat (pred (length r)) * x0).
      { induction r as [|a [|b r] IH]; intros c Hin Hc; [simpl in *; injection Hc as <-; lia|simpl in *; injection Hc as <-; lia|].
        rewrite (@route_cons Z) in Hc. destruct (wt _ a b) as [x|] eqn:Ew; [|discriminate]. destruct (route_length _ (b :: r)) as [y|] eqn:Er; [|discriminate]. injection Hc as <-.
        rewrite (IH y) by (auto; intros v Hi'; apply Hin; now right). unfold wt in Ew. destruct (Z.eqb_spec a b) as [|Hne]; [discriminate|].
        assert (Ha : 0 <= a < Z.of_nat (length vertices)) by (apply Hin; now left). assert (Hb : 0 <= b < Z.of_nat (length vertices)) by (apply Hin; right; now left).
        rewrite (cell_weight_of vertices weights first a b Ha Hb) in Ew.
        assert (x = x0).
        { eapply Hx; [| | |exact Ew].
          - eapply nth_error_In. apply vert_nth. exact Ha.
          - eapply nth_error_In. apply vert_nth. exact Hb.
          - intros C. apply Hne. pose proof (vert_nth vertices first a Ha) as E. rewrite C, <- (vert_nth vertices first b Hb) in E.
            apply (NoDup_nth_error vertices) in E; auto; lia. }
        subst x. cbn [length pred]. lia. }
      assert (Hmem : forall v, In v (0 :: order ++ [0]) -> 0 <= v < Z.of_nat (length vertices)).
      { intros v Hin. apply range_in. apply (Permutation_in _ HP'). destruct Hin as [<-|Hin]; [now left|]. apply in_app_iff in Hin. destruct Hin as [?|[<-|[]]]; [now right|now left]. }
      rewrite (Hgen _ _ Hmem HL').
      f_equal. f_equal. rewrite <- Hlen. cbn [length]. rewrite app_length. simpl. lia. }
    intros path' len' Ht'. rewrite (Hall _ _ Ht), (Hall _ _ Ht'). reflexivity.
  - right. destruct (tsp_errors DM PM LM vertices weights longest p' e HR) as [[_ C]|[-> _]]; [lia|]. split; auto.
    intros path' len'. eapply tsp_equal; eauto.
Qed.
End Tours.
