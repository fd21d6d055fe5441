(** The traveling salesman problem: changed weights, matrices, vertices of any type. *)
From Coq Require Import List ZArith Bool Lia Permutation Arith.
From Verif Require Import Machine GearSpec Common PathsModel PathModel Weight BiSPModel TspModel TspSpec TspBits TspProofs TspRun.
Import ListNotations.
Local Open Scope Z_scope.

(** ** Changed weights *)
Notation chg := changed_weight.
Notation lowestl m l := (lowest m (fun x => In x l)).
Notation greatestl m l := (greatest m (fun x => In x l)).

Lemma fold_min r : forall x, (In (fold_left Z.min r x) (x :: r)) /\ forall y, In y (x :: r) -> fold_left Z.min r x <= y.
Proof.
  induction r as [|a r IH]; intros x; simpl.
  - split; auto. intros y [<-|[]]. lia.
  - destruct (IH (Z.min x a)) as [H1 H2]. split.
    + destruct H1 as [H1|H1]; auto. destruct (Z.min_spec x a) as [[_ E]|[_ E]]; rewrite E in *; auto.
    + assert (Hm := H2 (Z.min x a) (or_introl eq_refl)). intros y [<-|[<-|Hy]]; [lia|lia|]. apply H2. now right.
Qed.

Lemma min_lowest l : lowestl (Z.min 0 (min_default l 0)) l.
Proof.
  unfold lowest, min_default. destruct l as [|x r]; cbn [In]; [repeat split; auto; [lia|intros ? []]|].
  destruct (fold_min r x) as [H1 H2]. destruct (Z.min_spec 0 (fold_left Z.min r x)) as [[Hm ->]|[Hm ->]].
  - split; auto. split; [lia|]. intros y Hy. specialize (H2 y Hy). lia.
  - split; auto.
Qed.

Lemma changes_negative l negate offset changed : weight_changes_for_negative_weights l 0 = (negate, offset, changed) ->
  negate = false /\ lowestl (- offset) l /\ (changed = true <-> offset <> 0).
Proof.
  unfold weight_changes_for_negative_weights. cbv zeta. set (off := 0 - Z.min 0 (min_default l 0)). intros H. injection H as <- <- <-. split; auto. split.
  - unfold off. set (m := Z.min 0 (min_default l 0)). match goal with |- lowest ?t _ => replace t with m by lia end. apply min_lowest.
  - destruct (Z.eqb_spec off 0); simpl; split; intros; congruence.
Qed.

Lemma changes_longest l negate offset : weight_changes_for_find_longest l 0 = (negate, offset) -> negate = true /\ greatestl offset l.
Proof.
  unfold weight_changes_for_find_longest. intros H. injection H as <- <-. split; auto.
  destruct (min_lowest (map (fun w => 0 - w) l)) as (H1 & H2 & H3). set (m := Z.min _ _) in *. split; [|split; [lia|]].
  - destruct H1 as [H1|H1]; [left; lia|]. right. apply in_map_iff in H1. destruct H1 as (x & Hx & Hin). match goal with |- In ?t l => replace t with x by lia end. exact Hin.
  - intros x Hx. specialize (H3 (0 - x)). assert (m <= 0 - x) by (apply H3; apply in_map_iff; eauto). lia.
Qed.

Lemma subtract_is len n off : subtract_repeatedly len n off = len - Z.of_nat n * off.
Proof. revert len. induction n as [|n IH]; intros len; [simpl; lia|]. cbn [subtract_repeatedly]. rewrite IH. lia. Qed.

Lemma total_chg negate off l : total (map (chg negate off) l) = (if negate then - total l else total l) + Z.of_nat (length l) * off.
Proof. unfold total. induction l as [|x l IH]; [simpl; destruct negate; lia|]. cbn [map fold_right length]. rewrite IH. unfold changed_weight. destruct negate; lia. Qed.

Lemma undo_exact negate off l : undo_weight_changes_in_travel_length (total (map (chg negate off) l)) (length l) 0 negate off = total l.
Proof. unfold undo_weight_changes_in_travel_length. rewrite subtract_is, total_chg. destruct negate; lia. Qed.

(** ** Matrices *)
Lemma nth_range n k : nth_error (range n) k = if (k <? n)%nat then Some (Z.of_nat k) else None.
Proof.
  unfold range. destruct (Nat.ltb_spec k n) as [Hlt|Hge].
  - apply map_nth_error. rewrite nth_error_nth' with (d := 0%nat) by (rewrite seq_length; exact Hlt). now rewrite seq_nth.
  - apply nth_error_None. rewrite map_length, seq_length. exact Hge.
Qed.

Lemma nth_ext_error {A} (l l' : list A) : (forall k, nth_error l k = nth_error l' k) -> l = l'.
Proof.
  revert l'. induction l as [|x l IH]; intros [|y l'] H; auto; try (specialize (H 0%nat); discriminate).
  f_equal; [specialize (H 0%nat); now injection H|]. apply IH. intros k. exact (H (S k)).
Qed.

Lemma nth_map {A B} (f : A -> B) l k : nth_error (map f l) k = option_map f (nth_error l k).
Proof. revert k. induction l as [|x l IH]; intros [|k]; simpl; auto. Qed.

Lemma cell_changed g N negate off swap v w :
  cell (changed_graph g N negate off swap) v w =
  if (Z.to_nat v <? N)%nat && (Z.to_nat w <? N)%nat
  then option_map (chg negate off) (if swap then cell g w v else cell g v w) else None.
Proof.
  assert (Hc : forall a b, cell g (Z.of_nat (Z.to_nat a)) (Z.of_nat (Z.to_nat b)) = cell g a b) by (intros; unfold cell; rewrite !Nat2Z.id; reflexivity).
  unfold cell at 1, changed_graph. rewrite nth_map, nth_range. destruct (Nat.ltb_spec (Z.to_nat v) N); simpl; auto.
  rewrite nth_map, nth_range. destruct (Nat.ltb_spec (Z.to_nat w) N); simpl; auto. rewrite !Hc. destruct swap; destruct (cell g _ _); reflexivity.
Qed.

Lemma cell_weight g v w x : cell g v w = Some x -> In x (iter_weights g).
Proof.
  unfold cell, iter_weights. destruct (nth_error g (Z.to_nat v)) as [row|] eqn:E1; [|discriminate]. destruct (nth_error row (Z.to_nat w)) as [y|] eqn:E2; [|discriminate].
  intros ->. apply nth_error_In in E1, E2. apply in_flat_map. exists row. split; auto. apply in_flat_map. exists (Some x). split; auto. now left.
Qed.

Lemma route_cons {T} (w : T -> T -> option Z) a b r : route_length w (a :: b :: r) = match w a b, route_length w (b :: r) with Some x, Some y => Some (x + y) | _, _ => None end.
Proof. reflexivity. Qed.

Definition wt (g : list (list (option Z))) (a b : Z) : option Z := if a =? b then None else cell g a b.

Lemma route_changed g N negate off r : (forall v, In v r -> 0 <= v < Z.of_nat N) ->
  route_length (wt (changed_graph g N negate off false)) r =
  option_map (fun d => (if negate then - d else d) + Z.of_nat (pred (length r)) * off) (route_length (wt g) r).
Proof.
  induction r as [|a [|b r] IH]; intros Hr; [simpl; destruct negate; simpl; f_equal; lia|simpl; destruct negate; simpl; f_equal; lia|].
  rewrite !route_cons.
  rewrite IH by (intros v Hv; apply Hr; now right). 
  change (wt (changed_graph g N negate off false) a b) with (if a =? b then None else cell (changed_graph g N negate off false) a b).
  change (wt g a b) with (if a =? b then None else cell g a b). destruct (Z.eqb_spec a b); auto. rewrite cell_changed.
  pose proof (Hr a (or_introl eq_refl)). pose proof (Hr b (or_intror (or_introl eq_refl))).
  destruct (Nat.ltb_spec (Z.to_nat a) N); [|lia]. destruct (Nat.ltb_spec (Z.to_nat b) N); [|lia]. cbn [andb].
  destruct (cell g a b) as [x|]; cbn [option_map]; auto.
  destruct (route_length (wt g) (b :: r)) as [y|]; cbn [option_map]; auto. f_equal. unfold changed_weight. cbn [length pred]. destruct negate; lia.
Qed.

Section Int.
Variable DM : DMap Z (option Z) None.
Variable PM : PMap Z Z.
Variable LM : PMap Z unit.
Variable g : list (list (option Z)).
Notation N := (length g).
Notation n := (Z.of_nat N).
Hypothesis Hsq : forall row, In row g -> length row = N.

Lemma greatest_unique m m' l : greatest m l -> greatest m' l -> m = m'.
Proof. intros (H1 & H2 & H3) (H1' & H2' & H3'). destruct H1 as [->|H1], H1' as [->|H1']; try lia; try (specialize (H3 _ H1')); try (specialize (H3' _ H1)); lia. Qed.
Lemma lowest_unique m m' l : lowest m l -> lowest m' l -> m = m'.
Proof. intros (H1 & H2 & H3) (H1' & H2' & H3'). destruct H1 as [->|H1], H1' as [->|H1']; try lia; try (specialize (H3 _ H1')); try (specialize (H3' _ H1)); lia. Qed.

Lemma search_graph negate off : (forall x, In x (iter_weights g) -> 0 <= chg negate off x) ->
  (forall v w, 0 <= v < n -> 0 <= w < n -> cell (changed_graph g N negate off true) v w = cell (changed_graph g N negate off false) w v) /\
  (forall sw v w x, cell (changed_graph g N negate off sw) v w = Some x -> 0 <= x).
Proof.
  intros Hpos. split.
  - intros v w Hv Hw. rewrite !cell_changed. rewrite andb_comm. reflexivity.
  - intros sw v w x. rewrite cell_changed. destruct (_ && _); [|discriminate]. destruct sw; destruct (cell g _ _) as [y|] eqn:E; simpl; intros H; try discriminate; injection H as <-; apply Hpos; eapply cell_weight; eauto.
Qed.

Theorem tsp_int_says longest passes res : tsp_int_vertices DM PM LM g longest passes = Some res ->
  match res with
  | inl (len, path) => (2 <= N)%nat /\ exists order, path = 0 :: order ++ [0] /\ Permutation (0 :: order) (range N) /\ route_length (wt g) path = Some len /\
      forall order' len', Permutation (0 :: order') (range N) -> route_length (wt g) (0 :: order' ++ [0]) = Some len' -> near longest n (fun x => In x (iter_weights g)) len len'
  | inr e => (e = RuntimeErrorProblem /\ (N < 2)%nat) \/ (e = KeyErrorNotFound /\ (2 <= N)%nat)
  end.
Proof.
  unfold tsp_int_vertices.
  assert (Hchg : exists negate off changed, (if longest then (weight_changes_for_find_longest (iter_weights g) 0, true) else weight_changes_for_negative_weights (iter_weights g) 0) = (negate, off, changed) /\
    (forall x, In x (iter_weights g) -> 0 <= chg negate off x) /\ negate = longest /\ (changed = false -> negate = false /\ off = 0) /\
    (if longest then greatestl off (iter_weights g) else lowestl (- off) (iter_weights g))).
  { destruct longest.
    - destruct (weight_changes_for_find_longest (iter_weights g) 0) as [negate off] eqn:E. destruct (changes_longest _ _ _ E) as [-> HG]. exists true, off, true.
      split; auto. split; [intros x Hx; destruct HG as (_ & _ & HG); specialize (HG x Hx); unfold changed_weight; lia|]. split; [reflexivity|]. split; [discriminate|exact HG].
    - destruct (weight_changes_for_negative_weights (iter_weights g) 0) as [[negate off] changed] eqn:E. destruct (changes_negative _ _ _ _ E) as (-> & HG & Hc). exists false, off, changed.
      split; auto. split; [intros x Hx; destruct HG as (_ & _ & HG); specialize (HG x Hx); unfold changed_weight; lia|]. split; auto. split; auto.
      intros ->. split; auto. destruct (Z.eq_dec off 0) as [|Ho]; auto. apply Hc in Ho. discriminate. }
  destruct Hchg as (negate & off & changed & -> & Hpos & Hneg & Hunc & Hbd).
  destruct (Nat.ltb_spec N 2) as [Hlt|HN]; [intros H; injection H as <-; auto|].
  replace (existsb (fun edges => negb (Nat.eqb (length edges) N)) g) with false.
  2:{ symmetry. apply not_true_is_false. intros H. apply existsb_exists in H. destruct H as (row & Hrow & H). rewrite (Hsq row Hrow), Nat.eqb_refl in H. discriminate. }
  destruct (existsb _ (range N)); [intros H; injection H as <-; auto|].
  destruct (existsb _ (range N)); [intros H; injection H as <-; auto|].
  destruct (search_graph negate off Hpos) as [Hsym Hp].
  destruct (tsp_search DM PM LM _ _ N passes) as [os r] eqn:ER.
  apply (tsp_search_says DM PM LM _ _ N HN Hsym (Hp false) (Hp true)) in ER.
  destruct r as [s|s|e s]; [destruct os; discriminate| |subst e; destruct os; intros H; injection H as <-; auto].
  destruct ER as (x & c & states & order & -> & -> & -> & Hm & HP & Hr & Hopt). intros H. injection H as <-. split; auto.
  exists order. split; [exact Hm|]. split; [exact HP|].
  assert (Hmem : forall o, Permutation (0 :: o) (range N) -> (forall v, In v (0 :: o ++ [0]) -> 0 <= v < n) /\ length (0 :: o ++ [0]) = S N).
  { intros o Ho. split.
    - intros v Hv. apply range_in. apply (Permutation_in _ Ho). destruct Hv as [<-|Hv]; [now left|]. apply in_app_iff in Hv. destruct Hv as [?|[<-|[]]]; [now right|now left].
    - apply Permutation_length in Ho. unfold range in Ho. rewrite map_length, seq_length in Ho. simpl in *. rewrite app_length. simpl. lia. }
  assert (Hlen : forall o c0, Permutation (0 :: o) (range N) -> route_length (wt (changed_graph g N negate off false)) (0 :: o ++ [0]) = Some c0 ->
     exists d, route_length (wt g) (0 :: o ++ [0]) = Some d /\ c0 = (if negate then - d else d) + n * off).
  { intros o c0 Ho Hc0. destruct (Hmem o Ho) as [M1 M2]. rewrite route_changed, M2 in Hc0 by auto. destruct (route_length (wt g) _) as [d|]; [|discriminate]. injection Hc0 as <-. eauto. }
  destruct (Hlen order c HP Hr) as (d & Hd & Hcd).
  assert (Hund : (if changed then undo_weight_changes_in_travel_length c N 0 negate off else c) = d).
  { destruct changed; [unfold undo_weight_changes_in_travel_length; rewrite subtract_is; subst c; destruct negate; lia|]. destruct Hunc as [-> ->]; auto. lia. }
  rewrite Hund, Hm. split; [exact Hd|]. intros order' len' HP' Hr'.
  destruct (Hmem order' HP') as [M1 M2].
  assert (Hc' : route_length (wt (changed_graph g N negate off false)) (0 :: order' ++ [0]) = Some ((if negate then - len' else len') + n * off)).
  { rewrite route_changed, M2, Hr' by auto. reflexivity. }
  pose proof (Hopt order' _ HP' Hc') as Hle. unfold near. subst negate. destruct longest.
  - intros m Hmg. rewrite (greatest_unique m off _ Hmg Hbd). lia.
  - intros m Hml. rewrite (lowest_unique m (- off) _ Hml Hbd). lia.
Qed.

Theorem tsp_int_ends longest : exists passes res, tsp_int_vertices DM PM LM g longest passes = Some res.
Proof.
  unfold tsp_int_vertices.
  destruct (if longest then _ else _) as [[negate off] changed] eqn:Echg.
  assert (Hpos : forall x, In x (iter_weights g) -> 0 <= chg negate off x).
  { destruct longest.
    - destruct (weight_changes_for_find_longest (iter_weights g) 0) as [a b] eqn:E. injection Echg as -> -> <-. destruct (changes_longest _ _ _ E) as [-> (_ & _ & HG)].
      intros x Hx. specialize (HG x Hx). unfold changed_weight. lia.
    - destruct (changes_negative _ _ _ _ Echg) as (-> & (_ & _ & HG) & _). intros x Hx. specialize (HG x Hx). unfold changed_weight. lia. }
  destruct (Nat.ltb_spec N 2) as [Hlt|HN]; [exists 0%nat; eauto|].
  destruct (existsb _ g); [exists 0%nat; eauto|]. destruct (existsb _ (range N)); [exists 0%nat; eauto|]. destruct (existsb _ (range N)); [exists 0%nat; eauto|].
  destruct (search_graph negate off Hpos) as [Hsym Hp].
  destruct (tsp_search_ends DM PM LM _ _ N HN (Hp false) (Hp true)) as (passes & os & r & HR & Hn).
  exists passes. rewrite HR. destruct r as [s|s|e s]; [exfalso; now apply (Hn s)| |destruct os; eauto].
  destruct os as [|x os]; eauto. destruct (b2_length x); eauto. destruct (path_vertices_from_start _ _); eauto.
Qed.
End Int.

Theorem tsp_int_stable DM PM LM g longest p p' res : tsp_int_vertices DM PM LM g longest p = Some res -> (p <= p')%nat -> tsp_int_vertices DM PM LM g longest p' = Some res.
Proof.
  intros H Hle. unfold tsp_int_vertices in *. destruct (if longest then _ else _) as [[negate off] changed]. destruct (length g <? 2)%nat; auto. destruct (existsb _ g); auto.
  destruct (existsb _ (range (length g))); auto. destruct (existsb _ (range (length g))); auto.
  assert (Hst : forall os r, tsp_search DM PM LM (changed_graph g (length g) negate off false) (changed_graph g (length g) negate off true) (length g) p = (os, r) -> (forall s, r <> Running s) ->
     tsp_search DM PM LM (changed_graph g (length g) negate off false) (changed_graph g (length g) negate off true) (length g) p' = (os, r)).
  { unfold tsp_search, b2_run. intros os r. destruct (b2_common _ _ _ _); auto. intros HR Hn.
    destruct (run _ p _) as [os1 r1] eqn:E1. injection HR as <- <-. destruct r1 as [s|s|e s]; [exfalso; now apply (Hn (Some s))| |].
    - rewrite (run_ended_mono _ _ _ _ _ _ E1 Hle). reflexivity.
    - rewrite (run_raised_mono _ _ _ _ _ _ _ E1 Hle). reflexivity. }
  destruct (tsp_search DM PM LM _ _ _ p) as [os r] eqn:ER. specialize (Hst os r eq_refl).
  destruct r as [s|s|e s]; [destruct os; discriminate| |]; rewrite Hst by discriminate; exact H.
Qed.

(** ** Vertices of any type *)
Section Any.
Context {T : Type}.
Variable DM : DMap Z (option Z) None.
Variable PM : PMap Z Z.
Variable LM : PMap Z unit.
Variable vertices : list T.
Variable weights : T -> option (T -> option Z).
Notation g := (int_graph vertices weights).
Notation weight := (weight_of weights).

Lemma g_length : length g = length vertices.
Proof. apply map_length. Qed.
Lemma g_square row : In row g -> length row = length g.
Proof. rewrite g_length. intros H. apply in_map_iff in H. destruct H as (v & <- & _). destruct (weights v); apply map_length. Qed.

Lemma g_weights x : In x (iter_weights g) <-> edge_weight weight vertices x.
Proof.
  unfold iter_weights, int_graph, edge_weight, weight_of. rewrite in_flat_map. split.
  - intros (row & Hrow & Hx). apply in_map_iff in Hrow. destruct Hrow as (v & <- & Hv). apply in_flat_map in Hx. destruct Hx as (o & Ho & Hx).
    exists v. destruct (weights v) as [edges|]; apply in_map_iff in Ho; destruct Ho as (w & <- & Hw); [|destruct Hx]. exists w. split; auto. split; auto.
    destruct (edges w); [|destruct Hx]. destruct Hx as [<-|[]]. reflexivity.
  - intros (a & b & Ha & Hb & Hw). exists (match weights a with None => map (fun _ => None) vertices | Some edges => map edges vertices end). split; [apply in_map_iff; eauto|].
    destruct (weights a) as [edges|]; [|discriminate]. apply in_flat_map. exists (Some x). split; [apply in_map_iff; eauto|now left].
Qed.

Lemma near_weights longest k len len' : near longest k (fun x => In x (iter_weights g)) len len' -> near longest k (edge_weight weight vertices) len len'.
Proof.
  unfold near. destruct longest; intros H m (H1 & H2 & H3); apply H; (split; [|split; [exact H2|]]).
  - destruct H1 as [?|H1]; auto. right. now apply g_weights.
  - intros x Hx. apply H3. now apply g_weights.
  - destruct H1 as [?|H1]; auto. right. now apply g_weights.
  - intros x Hx. apply H3. now apply g_weights.
Qed.

Variable first : T.
Variable rest : list T.
Hypothesis Hv : vertices = first :: rest.
Definition vert (v : Z) : T := nth (Z.to_nat v) vertices first.

Lemma vert_nth v : 0 <= v < Z.of_nat (length vertices) -> nth_error vertices (Z.to_nat v) = Some (vert v).
Proof. intros H. apply nth_error_nth'. lia. Qed.

Lemma cell_weight_of v w : 0 <= v < Z.of_nat (length vertices) -> 0 <= w < Z.of_nat (length vertices) -> cell g v w = weight (vert v) (vert w).
Proof.
  intros H1 H2. unfold cell, int_graph. rewrite nth_map, (vert_nth v H1). cbn [option_map]. unfold weight_of.
  destruct (weights (vert v)) as [edges|]; rewrite nth_map, (vert_nth w H2); reflexivity.
Qed.

Lemma vert_range : map vert (range (length vertices)) = vertices.
Proof.
  apply nth_ext_error. intros k. rewrite nth_map, nth_range. destruct (Nat.ltb_spec k (length vertices)) as [H|H].
  - cbn [option_map]. rewrite <- (vert_nth (Z.of_nat k)) by lia. now rewrite Nat2Z.id.
  - symmetry. now apply nth_error_None.
Qed.

Lemma route_vert r d : (forall v, In v r -> 0 <= v < Z.of_nat (length vertices)) -> route_length (wt g) r = Some d -> route_length weight (map vert r) = Some d.
Proof.
  revert d. induction r as [|a [|b r] IH]; intros d Hr H; [exact H|exact H|].
  cbn [map] in *. rewrite route_cons. rewrite route_cons in H. change (wt g a b) with (if a =? b then None else cell g a b) in H. destruct (a =? b); [discriminate|]. rewrite cell_weight_of in H by (apply Hr; simpl; auto).
  destruct (weight (vert a) (vert b)) as [x|]; [|discriminate].
  destruct (route_length (wt g) (b :: r)) as [y|] eqn:Ey; [|discriminate].
  rewrite (IH y (fun v Hv => Hr v (or_intror Hv)) eq_refl). exact H.
Qed.

Lemma route_back r d : (forall v, In v r -> 0 <= v < Z.of_nat (length vertices)) -> (forall l1 a b l2, r = l1 ++ a :: b :: l2 -> a <> b) ->
  route_length weight (map vert r) = Some d -> route_length (wt g) r = Some d.
Proof.
  revert d. induction r as [|a [|b r] IH]; intros d Hr Hne H; [exact H|exact H|].
  cbn [map] in *. rewrite route_cons. rewrite route_cons in H. change (wt g a b) with (if a =? b then None else cell g a b). destruct (Z.eqb_spec a b) as [C|_]; [exfalso; exact (Hne [] a b r eq_refl C)|]. rewrite cell_weight_of by (apply Hr; simpl; auto).
  destruct (weight (vert a) (vert b)) as [x|]; [|discriminate].
  destruct (route_length weight (vert b :: map vert r)) as [y|] eqn:Ey; [|discriminate].
  rewrite (IH y (fun v Hv => Hr v (or_intror Hv)) (fun l1 c e l2 Heq => Hne (a :: l1) c e l2 (f_equal (cons a) Heq)) eq_refl). exact H.
Qed.

Lemma flat_vert r : (forall v, In v r -> 0 <= v < Z.of_nat (length vertices)) -> flat_map (fun v => match nth_error vertices (Z.to_nat v) with Some x => [x] | None => [] end) r = map vert r.
Proof.
  induction r as [|a r IH]; intros H; [reflexivity|]. cbn [flat_map map]. rewrite vert_nth, IH by (intros; apply H; simpl; auto). reflexivity.
Qed.

Lemma nodup_steps (l : list Z) : NoDup l -> forall x, In x l -> (2 <= length l)%nat -> forall l1 a b l2, l ++ [x] = l1 ++ a :: b :: l2 -> (x = hd x l) -> a <> b.
Proof.
  intros HN x Hx Hl l1 a b l2 Heq Hhd ->.
  destruct l2 as [|c l2] using rev_ind.
  - assert (E : l = l1 ++ [b] /\ x = b).
    { replace (l1 ++ [b; b]) with ((l1 ++ [b]) ++ [b]) in Heq by (rewrite <- app_assoc; reflexivity). now apply app_inj_tail in Heq. }
    destruct E as [-> ->]. rewrite app_length in Hl. simpl in Hl. destruct l1 as [|z l1]; [simpl in Hl; lia|]. simpl in Hhd. subst z.
    inversion HN; subst. apply H1. apply in_or_app. right. now left.
  - replace (l1 ++ b :: b :: l2 ++ [c]) with ((l1 ++ b :: b :: l2) ++ [c]) in Heq by (rewrite <- app_assoc; reflexivity). apply app_inj_tail in Heq. destruct Heq as [-> _].
    apply NoDup_remove_2 in HN. apply HN. apply in_or_app. right. now left.
Qed.

Theorem tsp_tour longest passes len path : traveling_salesman DM PM LM vertices weights longest passes = Some (inl (len, path)) ->
  is_tour weight vertices first path len /\
  (NoDup vertices -> forall route' len', is_tour weight vertices first route' len' -> near longest (Z.of_nat (length vertices)) (edge_weight weight vertices) len len').
Proof.
  unfold traveling_salesman. destruct (tsp_int_vertices DM PM LM g longest passes) as [[[l p]|e]|] eqn:EI; try discriminate. intros H. injection H as <- <-.
  apply tsp_int_says in EI; [|exact g_square]. rewrite g_length in EI. destruct EI as (HN & order & Hp & HP & Hr & Hopt).
  assert (Hmem : forall o, Permutation (0 :: o) (range (length vertices)) -> forall v, In v (0 :: o ++ [0]) -> 0 <= v < Z.of_nat (length vertices)).
  { intros o Ho v Hin. apply range_in. apply (Permutation_in _ Ho). destruct Hin as [<-|Hin]; [now left|]. apply in_app_iff in Hin. destruct Hin as [?|[<-|[]]]; [now right|now left]. }
  assert (Hv0 : vert 0 = first) by (unfold vert; rewrite Hv; reflexivity).
  rewrite Hp in *. rewrite (flat_vert (0 :: order ++ [0])) by (apply (Hmem order HP)). split.
  - exists (map vert order). cbn [map]. rewrite map_app. cbn [map]. rewrite Hv0. split; auto. split.
    + transitivity (map vert (range (length vertices))); [|rewrite vert_range; reflexivity]. rewrite <- HP. cbn [map]. rewrite Hv0. reflexivity.
    + pose proof (route_vert _ _ (Hmem order HP) Hr) as H. cbn [map] in H. rewrite map_app in H. cbn [map] in H. rewrite Hv0 in H. exact H.
  - intros Hnd route' len' (others & -> & HPt & Hlt).
    assert (HPt' : Permutation (first :: others) (map vert (range (length vertices)))) by (rewrite vert_range; exact HPt). clear HPt. apply Permutation_map_inv in HPt'. rename HPt' into HPt. destruct HPt as (l3 & Heq & HP3).
    destruct l3 as [|i0 order']; [discriminate|]. cbn [map] in Heq. injection Heq as Hi0 Ho.
    assert (Hi : i0 = 0).
    { assert (Hin : In i0 (range (length vertices))) by (apply (Permutation_in _ (Permutation_sym HP3)); now left). apply range_in in Hin.
      pose proof (vert_nth i0 Hin) as E. rewrite <- Hi0, <- Hv0 in E. rewrite <- (vert_nth 0) in E by lia.
      apply (NoDup_nth_error vertices) in E; auto; [|lia]. simpl in E. lia. }
    subst i0. apply near_weights, (Hopt order' len' (Permutation_sym HP3)). subst others.
    apply route_back.
    + apply Hmem. now symmetry.
    + intros l1 a b l2 E. change (0 :: order' ++ [0]) with ((0 :: order') ++ [0]) in E.
      assert (Hnd3 : NoDup (0 :: order')) by (apply (Permutation_NoDup HP3), range_nodup).
      assert (Hl3 : (2 <= length (0%Z :: order'))%nat) by (rewrite <- (Permutation_length HP3); unfold range; rewrite map_length, seq_length; exact HN).
      exact (nodup_steps (0 :: order') Hnd3 0 (or_introl eq_refl) Hl3 l1 a b l2 E eq_refl).
    + cbn [map]. rewrite map_app. cbn [map]. rewrite Hv0. exact Hlt.
Qed.
End Any.
