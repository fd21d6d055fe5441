(** Proofs about histories of operations on one traversal. *)
From Coq Require Import List Bool Arith Lia Sorted.
From Verif Require Import Machine Common GoModel HistoryModel HistorySpec.
Import ListNotations.

Section P.
Context {O I : Type}.
Variable I_dec : forall a b : I, {a = b} + {a <> b}.
Variable id : O -> I.
Notation entry := (entry O I).
Notation operation := (operation O I).
Notation execute := (execute I_dec id).
Notation execute_all := (execute_all I_dec id).
Notation advance := (advance I_dec id).

(** * Fetching *)
Lemma fetch_until_spec wanted : forall l e sk a g, fetch_until wanted l e = (sk, a, g) ->
  (forall x, In x sk -> wanted x = false) /\
  match a with
  | Delivers o => l = sk ++ o :: g_rest g /\ wanted o = true /\ g_end g = e
  | _ => l = sk /\ g_rest g = [] /\ a = fst (@fetch_end O e) /\ g_end g = match e with SMore => SMore | _ => SEnd end
  end.
Proof.
  induction l as [|v r IH]; intros e sk a g; simpl.
  - destruct e; intros [= <- <- <-]; simpl; repeat split; tauto.
  - destruct (wanted v) eqn:E.
    + intros [= <- <- <-]. simpl. repeat split; auto; tauto.
    + destruct (fetch_until wanted r e) as [[sk1 a1] g1] eqn:F. intros [= <- <- <-]. specialize (IH e sk1 a1 g1 F). destruct IH as [H1 H2].
      split; [intros x [<-|Hx]; auto|]. destruct a1; simpl; try (destruct H2 as (-> & H3 & H4); now auto).
Qed.

(** * Iterators *)
Definition made_by (op : operation) (it : iterator O I) : Prop :=
  match op, it with
  | _, IDone => creates op = true
  | GoForVerticesIn w fs, IVertices w' fs' None => w' = w /\ fs' = fs
  | GoForVerticesIn w fs, IVertices w' fs' (Some (c, _)) => (forall i, In i w' <-> In i w) /\ fs' = fs /\ c <> 0
  | GoForRange ge lt, IRange ge' lt' _ => ge' = ge /\ lt' = lt
  | _, _ => False
  end.

Definition budget (it : iterator O I) : nat :=
  match it with
  | IVertices w _ None => length (nodup I_dec w)
  | IVertices _ _ (Some (c, true)) => c - 1
  | IVertices _ _ (Some (c, false)) => c
  | _ => 0
  end.

Definition is_vertices (op : operation) : bool := match op with GoForVerticesIn _ _ => true | _ => false end.

(** The reports an iterator looks for *)
Definition seeks (op : operation) (x : O) : Prop :=
  match op with GoForVerticesIn w _ => In (id x) w | GoForRange ge lt => ge x = true /\ lt x = true | _ => False end.
Definition accepts (op : operation) (x : O) : Prop :=
  match op with GoForRange _ lt => lt x = true | _ => seeks op x end.

Definition at_end (e : source_end) : source_end := match e with SMore => SMore | _ => SEnd end.

(** What a step does to the generator: reports are taken from the front; the end is changed only when nothing is left. *)
Definition taking (taken : list O) (a : option (answer O)) (g g' : generator O) : Prop :=
  g_rest g = taken ++ g_rest g' /\
  (g_end g' = g_end g \/ g_rest g' = [] /\ g_end g' = at_end (g_end g)) /\
  match a with
  | Some (Raises x) => x = KeyErrorNotFound \/ g_end g = SExn x /\ g_end g' = SEnd /\ g_rest g' = []
  | Some Waits => g_rest g' = [] /\ g_end g = SMore
  | _ => True
  end.

Lemma range_loop_spec ge lt : forall g taken a g' it',
  range_loop (I := I) ge lt g = (taken, a, g', it') ->
  taking taken (Some a) g g' /\ (it' = IDone \/ it' = IRange ge lt false) /\
  match a with Delivers o => taken = [o] /\ lt o = true | _ => forall x, In x taken -> lt x = false end.
Proof.
  intros g taken a g' it'. unfold range_loop. destruct (g_rest g) as [|v r] eqn:El; simpl.
  - destruct (g_end g) as [| |x] eqn:Ee; intros [= <- <- <- <-]; (split; [|split; [auto|simpl; tauto]]); unfold taking; rewrite El, Ee; simpl; auto.
    split; [reflexivity|]. split; [right; auto|]. right. auto.
  - destruct (lt v) eqn:Ev; simpl; intros [= <- <- <- <-]; (split; [|split; [auto|]]); unfold taking; rewrite ?El; simpl; auto.
    intros x [<-|[]]. exact Ev.
Qed.

Lemma vertices_loop_spec w fs c : forall g taken a g' it',
  vertices_loop I_dec id w fs c g = (taken, a, g', it') -> c <> 0 ->
  taking taken (Some a) g g' /\ (it' = IDone \/ exists b, it' = IVertices w fs (Some (c, b))) /\
  match a with
  | Delivers o => exists sk, taken = sk ++ [o] /\ In (id o) w /\ (forall x, In x sk -> ~ In (id x) w) /\ it' = IVertices w fs (Some (c, true))
  | _ => forall x, In x taken -> ~ In (id x) w
  end.
Proof.
  intros g taken a g' it'. unfold vertices_loop.
  destruct (fetch_until _ (g_rest g) (g_end g)) as [[sk a1] g1] eqn:F. apply fetch_until_spec in F. destruct F as [Hsk Ha].
  assert (Hn : forall x, In x sk -> ~ In (id x) w).
  { intros x Hx Hi. specialize (Hsk x Hx). destruct (in_dec I_dec (id x) w); [discriminate|contradiction]. }
  destruct a1 as [o| |x|].
  - destruct Ha as (Hl & Ho & He). intros [= <- <- <- <-] Hc. split; [|split; [eauto|]].
    + unfold taking. rewrite Hl, <- app_assoc. simpl. auto.
    + exists sk. repeat split; auto. destruct (in_dec I_dec (id o) w); [auto|discriminate].
  - destruct Ha as (Hl & Hr & Hf & He). destruct fs; intros [= <- <- <- <-] Hc; (split; [|split; [auto|exact Hn]]); unfold taking; rewrite Hl, Hr, app_nil_r; simpl; auto.
  - destruct Ha as (Hl & Hr & Hf & He). intros [= <- <- <- <-] Hc. split; [|split; [auto|exact Hn]]. unfold taking. rewrite Hl, Hr, app_nil_r.
    split; auto. split; auto. right. destruct (g_end g); try discriminate Hf. injection Hf as <-. auto.
  - destruct Ha as (Hl & Hr & Hf & He). intros [= <- <- <- <-] Hc. split; [|split; [eauto|exact Hn]]. unfold taking. rewrite Hl, Hr, app_nil_r.
    split; auto. split; auto. destruct (g_end g); try discriminate Hf. auto.
Qed.

Lemma advance_spec op it : forall g taken a g' it',
  made_by op it -> advance it g = (taken, a, g', it') ->
  taking taken (Some a) g g' /\ made_by op it' /\
  match a with
  | Delivers o => (exists sk, taken = sk ++ [o] /\ accepts op o /\ forall x, In x sk -> ~ seeks op x) /\ (is_vertices op = true -> S (budget it') <= budget it)
  | _ => (forall x, In x taken -> ~ seeks op x) /\ (is_vertices op = true -> budget it' <= budget it)
  end.
Proof.
  intros g taken a g' it' Hm Ha. destruct it as [w' fs' c|ge' lt' first|].
  - destruct op as [|t f|w fs|ge lt|k]; try destruct Hm.
    assert (Hv : forall s n, (forall i, In i s <-> In i w) -> n <> 0 -> vertices_loop I_dec id s fs' n g = (taken, a, g', it') -> n <= budget (IVertices w' fs' c) ->
       fs' = fs ->
       taking taken (Some a) g g' /\ made_by (GoForVerticesIn w fs) it' /\
       match a with
       | Delivers o => (exists sk, taken = sk ++ [o] /\ accepts (GoForVerticesIn w fs) o /\ forall x, In x sk -> ~ seeks (GoForVerticesIn w fs) x) /\
            (is_vertices (GoForVerticesIn w fs) = true -> S (budget it') <= budget (IVertices w' fs' c))
       | _ => (forall x, In x taken -> ~ seeks (GoForVerticesIn w fs) x) /\ (is_vertices (GoForVerticesIn w fs) = true -> budget it' <= budget (IVertices w' fs' c))
       end).
    { intros s n Hs Hn Hl Hb Hf. apply vertices_loop_spec in Hl; auto. destruct Hl as (H1 & H2 & H3). split; [exact H1|]. split.
      - destruct H2 as [->|[b ->]]; simpl; auto.
      - destruct a as [o| |x|].
        + destruct H3 as (sk & -> & Ho & Hsk & ->). split; [exists sk; split; [auto|split; [now apply Hs|intros x Hx Hi; now apply (Hsk x Hx), Hs]]|].
          intros _. change (S (n - 1) <= budget (IVertices w' fs' c)). lia.
        + split; [intros y Hy Hi; apply (H3 y Hy), Hs; exact Hi|]. intros _. destruct H2 as [->|[[] ->]]; simpl in *; lia.
        + split; [intros y Hy Hi; apply (H3 y Hy), Hs; exact Hi|]. intros _. destruct H2 as [->|[[] ->]]; simpl in *; lia.
        + split; [intros y Hy Hi; apply (H3 y Hy), Hs; exact Hi|]. intros _. destruct H2 as [->|[[] ->]]; simpl in *; lia. }
    assert (Hd : forall n, ([], Stops, g, IDone) = (taken, a, g', it') ->
       taking taken (Some a) g g' /\ made_by (GoForVerticesIn w fs) it' /\
       match a with
       | Delivers o => (exists sk, taken = sk ++ [o] /\ accepts (GoForVerticesIn w fs) o /\ forall x, In x sk -> ~ seeks (GoForVerticesIn w fs) x) /\
            (is_vertices (GoForVerticesIn w fs) = true -> S (budget it') <= n)
       | _ => (forall x, In x taken -> ~ seeks (GoForVerticesIn w fs) x) /\ (is_vertices (GoForVerticesIn w fs) = true -> budget it' <= n)
       end).
    { intros n [= <- <- <- <-]. split; [unfold taking; auto|]. split; [reflexivity|]. split; [intros x []|]. simpl. lia. }
    destruct c as [[c b]|].
    + destruct Hm as (Hw & -> & Hc). destruct b; simpl in Ha.
      * destruct (c - 1) as [|c'] eqn:Ec; [now apply Hd|]. apply (Hv w' (S c')); auto; try discriminate. simpl. lia.
      * apply (Hv w' c); auto.
    + destruct Hm as [-> ->]. simpl in Ha. destruct (length (nodup I_dec w)) as [|c'] eqn:Ec; [now apply Hd|].
      apply (Hv (nodup I_dec w) (S c')); auto; try discriminate; [apply nodup_In|simpl; lia].
  - destruct op as [|t f|w fs|ge lt|k]; try destruct Hm. subst ge' lt'.
    assert (Hm2 : forall it2, it2 = IDone \/ it2 = IRange ge lt false -> made_by (GoForRange ge lt) it2) by (intros ? [->| ->]; simpl; auto).
    assert (Hb : forall n, is_vertices (GoForRange ge lt) = true -> n) by (simpl; discriminate).
    assert (Hnl : forall x, lt x = false -> ~ seeks (GoForRange ge lt) x) by (simpl; intros x E [_ H]; congruence).
    assert (Hng : forall x, ge x = false -> ~ seeks (GoForRange ge lt) x) by (simpl; intros x E [H _]; congruence).
    destruct first; simpl in Ha.
    + destruct (fetch_until ge (g_rest g) (g_end g)) as [[sk a1] g1] eqn:F. apply fetch_until_spec in F. destruct F as [Hsk F].
      destruct a1 as [o| |x|].
      * destruct F as (Hl & Ho & He). destruct (lt o) eqn:Elt.
        -- injection Ha as <- <- <- <-. split; [unfold taking; rewrite Hl, <- app_assoc; simpl; auto|]. split; [simpl; auto|].
           split; [|apply Hb]. exists sk. repeat split; auto.
        -- destruct (range_loop ge lt g1) as [[[sk2 a2] g2] it2] eqn:R. injection Ha as <- <- <- <-. apply range_loop_spec in R. destruct R as ((R1 & R2 & R3) & R4 & R5).
           split.
           { unfold taking. rewrite Hl, R1, <- app_assoc. simpl. rewrite He in *. auto. }
           split; [auto|].
           destruct a2 as [o2| |x2|]; [|split; [|apply Hb]; intros y Hy; apply in_app_or in Hy; destruct Hy as [Hy|[<-|Hy]]; auto..].
           destruct R5 as [-> R5]. split; [|apply Hb]. exists (sk ++ [o]). rewrite <- app_assoc. repeat split; auto.
           intros y Hy. apply in_app_or in Hy. destruct Hy as [Hy|[<-|[]]]; auto.
      * destruct F as (Hl & Hr & Hf & He). destruct (range_loop ge lt g1) as [[[sk2 a2] g2] it2] eqn:R. injection Ha as <- <- <- <-.
        assert (Ee : g_end g = SEnd) by (destruct (g_end g); try discriminate Hf; auto). rewrite Ee in He.
        unfold range_loop in R. rewrite Hr, He in R. simpl in R. injection R as <- <- <- <-. rewrite app_nil_r.
        split; [unfold taking; simpl; rewrite Hl, app_nil_r, Ee; auto|]. split; [reflexivity|]. split; [intros y Hy; auto|apply Hb].
      * destruct F as (Hl & Hr & Hf & He). injection Ha as <- <- <- <-.
        split; [|split; [reflexivity|split; [intros y Hy; auto|apply Hb]]].
        unfold taking. rewrite Hl, Hr, app_nil_r. split; auto. split; auto. right. destruct (g_end g); try discriminate Hf. injection Hf as <-. auto.
      * destruct F as (Hl & Hr & Hf & He). injection Ha as <- <- <- <-.
        split; [|split; [simpl; auto|split; [intros y Hy; auto|apply Hb]]].
        unfold taking. rewrite Hl, Hr, app_nil_r. split; auto. split; auto. destruct (g_end g); try discriminate Hf. auto.
    + apply range_loop_spec in Ha. destruct Ha as (H1 & H2 & H3). split; [auto|]. split; [auto|]. destruct a as [o| |x|]; [|split; [intros y Hy; auto|apply Hb]..].
      destruct H3 as [-> H3]. split; [|apply Hb]. exists []. repeat split; auto.
  - simpl in Ha. injection Ha as <- <- <- <-. split; [unfold taking; auto|]. split; [destruct op; exact Hm|]. split; [intros x []|auto].
Qed.

(** * Operations *)
Definition consistent (before : list operation) (its : list (iterator O I)) : Prop := Forall2 made_by (filter creates before) its.

Lemma replace_Forall2 {A B} (R : A -> B -> Prop) : forall l m k x y, Forall2 R l m -> nth_error l k = Some x -> R x y -> Forall2 R l (replace m k y).
Proof.
  intros l m k x y H. revert k. induction H as [|a b l m Hab H IH]; intros [|k] Hn Hr; simpl in *; try discriminate; constructor; auto. congruence.
Qed.

Lemma Forall2_nth {A B} (R : A -> B -> Prop) : forall l m k y, Forall2 R l m -> nth_error m k = Some y -> exists x, nth_error l k = Some x /\ R x y.
Proof. intros l m k y H. revert k. induction H as [|a b l m Hab H IH]; intros [|k] Hn; simpl in *; try discriminate; [injection Hn as <-; eauto|auto]. Qed.

Lemma execute_ok before s op e s' :
  consistent before (o_iterators s) -> execute s op = (e, s') ->
  e_operation e = op /\ entry_ok id before e /\ taking (e_taken e) (e_answer e) (o_generator s) (o_generator s') /\ consistent (before ++ [op]) (o_iterators s') /\
  (delivers e = true -> e_taken e <> []) /\
  (op = Next \/ (exists t fs, op = GoTo t fs) -> delivers e = false -> g_rest (o_generator s') = []).
Proof.
  intros Hc. assert (Hkeep : creates op = false -> consistent (before ++ [op]) (o_iterators s)).
  { intros E. unfold consistent. rewrite filter_app. simpl. rewrite E, app_nil_r. exact Hc. }
  destruct op as [|t fs|w fs|ge lt|k]; cbn [HistoryModel.execute].
  - destruct (fetch_until _ _ _) as [[sk a] g] eqn:F. intros [= <- <-]. apply fetch_until_spec in F. destruct F as [Hsk F]. cbn [e_operation e_taken e_answer o_generator o_iterators].
    split; auto. assert (Hs : sk = []) by (destruct sk as [|x]; auto; specialize (Hsk x (or_introl eq_refl)); discriminate). subst sk. simpl.
    destruct a as [o| |x|]; unfold taking, entry_ok; simpl.
    + destruct F as (Hl & _ & He). repeat split; auto; try discriminate. exists []. repeat split; auto.
    + destruct F as (Hl & Hr & Hf & He). rewrite Hl, Hr. repeat split; auto; discriminate.
    + destruct F as (Hl & Hr & Hf & He). rewrite Hl, Hr. repeat split; auto; try discriminate. right. destruct (g_end (o_generator s)); try discriminate Hf. injection Hf as <-. auto.
    + destruct F as (Hl & Hr & Hf & He). rewrite Hl, Hr. repeat split; auto; try discriminate. destruct (g_end (o_generator s)); try discriminate Hf. auto.
  - destruct (fetch_until _ _ _) as [[sk a] g] eqn:F. intros [= <- <-]. apply fetch_until_spec in F. destruct F as [Hsk F]. cbn [e_operation e_taken e_answer o_generator o_iterators].
    split; auto. assert (Hn : forall x, In x sk -> id x <> t).
    { intros x Hx E. specialize (Hsk x Hx). destruct (I_dec (id x) t); [discriminate|contradiction]. }
    destruct a as [o| |x|]; unfold taking, entry_ok; simpl.
    + destruct F as (Hl & Ho & He). rewrite Hl, <- app_assoc. repeat split; auto; try discriminate.
      * exists sk. repeat split; auto. destruct (I_dec (id o) t); [auto|discriminate].
      * intros _ E. apply app_eq_nil in E. destruct E; discriminate.
    + destruct F as (Hl & Hr & Hf & He). rewrite Hl, Hr, !app_nil_r. destruct fs; repeat split; auto; discriminate.
    + destruct F as (Hl & Hr & Hf & He). rewrite Hl, Hr, !app_nil_r. repeat split; auto; try discriminate. right. destruct (g_end (o_generator s)); try discriminate Hf. injection Hf as <-. auto.
    + destruct F as (Hl & Hr & Hf & He). rewrite Hl, Hr, !app_nil_r. repeat split; auto; try discriminate. destruct (g_end (o_generator s)); try discriminate Hf. auto.
  - intros [= <- <-]. simpl. split; auto. split; [intros x []|]. split; [unfold taking; auto|]. split; [|split; [discriminate|intros [E|(t & f & E)]; discriminate E]].
    unfold consistent. rewrite filter_app. simpl. apply Forall2_app; auto. constructor; simpl; auto.
  - intros [= <- <-]. simpl. split; auto. split; [intros x []|]. split; [unfold taking; auto|]. split; [|split; [discriminate|intros [E|(t & f & E)]; discriminate E]].
    unfold consistent. rewrite filter_app. simpl. apply Forall2_app; auto. constructor; simpl; auto.
  - destruct (nth_error (o_iterators s) k) as [it|] eqn:En.
    + destruct (advance it (o_generator s)) as [[[taken a] g'] it'] eqn:A. intros [= <- <-]. cbn [e_operation e_taken e_answer o_generator o_iterators].
      destruct (Forall2_nth _ _ _ _ _ Hc En) as (op & Hop & Hm). apply (advance_spec op) in A; auto. destruct A as (A1 & A2 & A3).
      assert (Hso : forall x, sought id before (NextOf k) x <-> seeks op x).
      { intros x. simpl. unfold creator. rewrite Hop. destruct op; simpl; tauto. }
      assert (Hac : forall x, accepts op x -> acceptable id before (NextOf k) x).
      { intros x. simpl. unfold creator. rewrite Hop. destruct op; simpl; tauto. }
      split; auto. split; [|split; [exact A1|split; [|split]]].
      * unfold entry_ok. simpl e_answer. destruct a as [o| |x|]; [destruct A3 as [(sk & Ht & Ho & Hsk) _]; exists sk; split; [exact Ht|split; [now apply Hac|]]; intros y Hy Hs; apply (Hsk y Hy), Hso, Hs|..];
        destruct A3 as [A3 _]; intros y Hy Hs; apply (A3 y Hy), Hso, Hs.
      * unfold consistent. rewrite filter_app. simpl. rewrite app_nil_r. apply (replace_Forall2 _ _ _ _ op); auto.
      * unfold delivers. simpl. destruct a as [o| |x|]; try discriminate. destruct A3 as [(sk & -> & _) _]. intros _ E. apply app_eq_nil in E. destruct E; discriminate.
      * intros [E|(t & f & E)]; discriminate E.
    + intros [= <- <-]. simpl. split; auto. split; [intros x []|]. split; [unfold taking; auto|]. split; [auto|]. split; [discriminate|]. intros [E|(t & f & E)]; discriminate E.
Qed.

Lemma execute_all_ok : forall ops before s h s',
  consistent before (o_iterators s) -> execute_all s ops = (h, s') ->
  map e_operation h = ops /\ g_rest (o_generator s) = flat_map e_taken h ++ g_rest (o_generator s') /\
  (forall h1 e h2, h = h1 ++ e :: h2 -> entry_ok id (before ++ map e_operation h1) e /\ (delivers e = true -> e_taken e <> [])) /\
  (forall h1 e h2, h = h1 ++ e :: h2 -> e_operation e = Next \/ (exists t fs, e_operation e = GoTo t fs) -> delivers e = false ->
     g_rest (o_generator s) = flat_map e_taken (h1 ++ [e])).
Proof.
  induction ops as [|op ops IH]; intros before s h s' Hc; cbn [HistoryModel.execute_all].
  - intros [= <- <-]. simpl. repeat split; auto; destruct h1; discriminate.
  - destruct (execute s op) as [e s1] eqn:E. destruct (execute_all s1 ops) as [h1 s2] eqn:E2. intros [= <- <-].
    destruct (execute_ok _ _ _ _ _ Hc E) as (H1 & H2 & H3 & H4 & H5 & H6). destruct (IH (before ++ [op]) s1 h1 s2 H4 E2) as (I1 & I2 & I3 & I4).
    destruct H3 as (T1 & T2 & T3). split; [|split; [|split]].
    + simpl. now rewrite H1, I1.
    + simpl. now rewrite T1, I2, app_assoc.
    + intros [|x a] e' b; simpl.
      * intros [= <- <-]. rewrite app_nil_r. auto.
      * intros [= <- ->]. destruct (I3 a e' b eq_refl) as [J1 J2]. rewrite <- app_assoc in J1. simpl in J1. rewrite H1. auto.
    + intros [|x a] e' b; simpl.
      * intros [= <- <-] Hn Hd. rewrite app_nil_r, T1. rewrite H1 in Hn. rewrite (H6 Hn Hd), app_nil_r. reflexivity.
      * intros [= <- ->] Hn Hd. rewrite T1. f_equal. apply (I4 a e' b eq_refl Hn Hd).
Qed.

(** The traversal's own exception is seen once at most. *)
Lemma execute_all_own : forall ops before s h s',
  consistent before (o_iterators s) -> execute_all s ops = (h, s') ->
  (forall x e, In e h -> e_answer e = Some (Raises x) -> x = KeyErrorNotFound \/ g_end (o_generator s) = SExn x) /\
  (g_end (o_generator s) = SEnd -> filter raises_own h = []) /\
  length (filter raises_own h) <= 1.
Proof.
  induction ops as [|op ops IH]; intros before s h s' Hc; cbn [HistoryModel.execute_all].
  - intros [= <- <-]. simpl. split; [intros x e []|auto].
  - destruct (execute s op) as [e s1] eqn:E. destruct (execute_all s1 ops) as [h1 s2] eqn:E2. intros [= <- <-].
    destruct (execute_ok _ _ _ _ _ Hc E) as (H1 & H2 & (T1 & T2 & T3) & H4 & _ & _). destruct (IH (before ++ [op]) s1 h1 s2 H4 E2) as (I1 & I2 & I3).
    assert (Hend : forall x, g_end (o_generator s1) = SExn x -> g_end (o_generator s) = SExn x).
    { intros x Hx. destruct T2 as [T2|[_ T2]]; [congruence|]. rewrite T2 in Hx. destruct (g_end (o_generator s)); discriminate Hx. }
    split; [|split].
    + intros x e' [<-|Hin] Ha.
      * rewrite Ha in T3. destruct T3 as [->|(T3 & _)]; auto.
      * destruct (I1 x e' Hin Ha) as [->|Hx]; auto.
    + intros Hs. simpl. assert (Hs1 : g_end (o_generator s1) = SEnd).
      { destruct T2 as [T2|[_ T2]]; rewrite Hs in T2; auto. }
      unfold raises_own at 1. destruct (e_answer e) as [[o| |x|]|] eqn:Ea; try (apply I2; exact Hs1).
      destruct T3 as [->|(T3 & _)]; [apply I2; exact Hs1|congruence].
    + simpl. destruct (raises_own e) eqn:Er; [|exact I3]. unfold raises_own in Er. destruct (e_answer e) as [[o| |x|]|] eqn:Ea; try discriminate Er.
      destruct T3 as [->|(_ & T3 & _)]; [discriminate Er|]. rewrite (I2 T3). simpl. lia.
Qed.

(** An iterator over a set of vertices does not deliver more vertices than there are in the set. *)
Definition left_of (its : list (iterator O I)) (k : nat) : nat := match nth_error its k with Some it => budget it | None => 0 end.

Lemma replace_nth {A} : forall (l : list A) k x j, nth_error (replace l k x) j = if Nat.eqb j k then match nth_error l k with Some _ => Some x | None => None end else nth_error l j.
Proof. induction l as [|a l IH]; intros [|k] x [|j]; simpl; auto; try (now destruct (j =? k)). Qed.

Lemma execute_all_count w fs k : forall ops before s h s',
  consistent before (o_iterators s) -> execute_all s ops = (h, s') -> creator (before ++ ops) k = Some (GoForVerticesIn w fs) ->
  length (filter (fun e => is_next_of k e && delivers e) h) <= if k <? length (o_iterators s) then left_of (o_iterators s) k else length (nodup I_dec w).
Proof.
  induction ops as [|op ops IH]; intros before s h s' Hc; cbn [HistoryModel.execute_all].
  - intros [= <- <-] _. simpl. lia.
  - destruct (execute s op) as [e s1] eqn:E. destruct (execute_all s1 ops) as [h1 s2] eqn:E2. intros [= <- <-] Hcr.
    destruct (execute_ok _ _ _ _ _ Hc E) as (H1 & H2 & H3 & H4 & _ & _).
    specialize (IH (before ++ [op]) s1 h1 s2 H4 E2). rewrite <- app_assoc in IH. specialize (IH Hcr).
    assert (Hlen : length (o_iterators s) = length (filter creates before)) by (clear - Hc; unfold consistent in Hc; induction Hc; simpl; congruence).
    assert (Hcre : forall it, o_iterators s1 = o_iterators s ++ [it] -> creates op = true -> made_by op it -> budget it = match op with GoForVerticesIn w' _ => length (nodup I_dec w') | _ => 0 end ->
       is_next_of k e && delivers e = false ->
       length (filter (fun e => is_next_of k e && delivers e) (e :: h1)) <= if k <? length (o_iterators s) then left_of (o_iterators s) k else length (nodup I_dec w)).
    { intros it Es Ho Hm Hb Hn. simpl. rewrite Hn. rewrite Es in IH. rewrite app_length in IH. simpl in IH.
      destruct (k <? length (o_iterators s)) eqn:Ek.
      - apply Nat.ltb_lt in Ek. assert (Ek2 : k <? length (o_iterators s) + 1 = true) by (apply Nat.ltb_lt; lia). rewrite Ek2 in IH.
        unfold left_of in *. rewrite nth_error_app1 in IH by lia. exact IH.
      - apply Nat.ltb_ge in Ek. destruct (Nat.eq_dec k (length (o_iterators s))) as [Ek2|Ek2].
        + rewrite Ek2 in IH. replace (length (o_iterators s) <? length (o_iterators s) + 1) with true in IH by (symmetry; apply Nat.ltb_lt; lia).
          unfold left_of in IH. rewrite nth_error_app2, Nat.sub_diag in IH by lia. simpl in IH. rewrite Hb in IH.
          unfold creator in Hcr. rewrite filter_app in Hcr. simpl in Hcr. rewrite Ho in Hcr. rewrite nth_error_app2 in Hcr by lia.
          rewrite Ek2, Hlen, Nat.sub_diag in Hcr. simpl in Hcr. injection Hcr as ->. rewrite Ek2. exact IH.
        + assert (Ek3 : k <? length (o_iterators s) + 1 = false) by (apply Nat.ltb_ge; lia). rewrite Ek3 in IH. exact IH. }
    destruct op as [|t f|w' fs'|ge lt|j]; cbn [HistoryModel.execute] in E.
    + destruct (fetch_until _ _ _) as [[sk a] g] in E. injection E as <- <-. exact IH.
    + destruct (fetch_until _ _ _) as [[sk a] g] in E. injection E as <- <-. exact IH.
    + injection E as <- <-. apply (Hcre (IVertices w' fs' None)); simpl; auto.
    + injection E as <- <-. apply (Hcre (IRange ge lt true)); simpl; auto.
    + destruct (nth_error (o_iterators s) j) as [it|] eqn:En.
      * destruct (advance it (o_generator s)) as [[[taken a] g'] it'] eqn:A. injection E as <- <-. cbn [o_iterators] in IH.
        assert (Hll : length (replace (o_iterators s) j it') = length (o_iterators s)).
        { clear. revert j. induction (o_iterators s) as [|y l IHl]; intros [|j]; simpl; auto. }
        rewrite Hll in IH. destruct (Forall2_nth _ _ _ _ _ Hc En) as (op & Hop & Hm). apply (advance_spec op) in A; auto. destruct A as (_ & _ & A3).
        simpl. unfold is_next_of at 1. simpl. destruct (Nat.eqb j k) eqn:Ejk.
        -- apply Nat.eqb_eq in Ejk. subst j. assert (Hk : k < length (o_iterators s)) by (apply nth_error_Some; congruence).
           apply Nat.ltb_lt in Hk. rewrite Hk in *. unfold left_of in *. rewrite replace_nth, Nat.eqb_refl, En in IH. rewrite En.
           assert (Hv : is_vertices op = true).
           { unfold creator in Hcr. rewrite filter_app in Hcr. rewrite nth_error_app1 in Hcr by (apply nth_error_Some; congruence). rewrite Hop in Hcr. injection Hcr as ->. reflexivity. }
           unfold delivers at 1. simpl. destruct a as [o| |x|]; simpl; destruct A3 as [_ A3]; specialize (A3 Hv); lia.
        -- simpl. unfold left_of in *. rewrite replace_nth in IH. rewrite Nat.eqb_sym, Ejk in IH. exact IH.
      * injection E as <- <-. simpl. unfold is_next_of at 1. simpl. destruct (Nat.eqb j k); simpl; exact IH.
Qed.

(** * More passes *)
Definition more (l : list O) (e : source_end) (g : generator O) : generator O := {| g_rest := g_rest g ++ l; g_end := e |}.

Lemma fetch_more wanted l' e' : forall l sk a g, fetch_until wanted l SMore = (sk, a, g) -> a <> Waits ->
  fetch_until wanted (l ++ l') e' = (sk, a, more l' e' g).
Proof.
  induction l as [|v r IH]; intros sk a g; simpl; [intros [= <- <- <-] H; congruence|].
  destruct (wanted v); [intros [= <- <- <-] _; reflexivity|].
  destruct (fetch_until wanted r SMore) as [[sk1 a1] g1] eqn:F. intros [= <- <- <-] H. now rewrite (IH sk1 a1 g1 eq_refl H).
Qed.

Lemma fetch_more_end wanted : forall l sk a g, fetch_until (O := O) wanted l SMore = (sk, a, g) -> match a with Delivers _ => g_end g = SMore | Waits => True | _ => False end.
Proof.
  induction l as [|v r IH]; intros sk a g; simpl; [intros [= <- <- <-]; auto|].
  destruct (wanted v); [intros [= <- <- <-]; reflexivity|].
  destruct (fetch_until wanted r SMore) as [[sk1 a1] g1] eqn:F. intros [= <- <- <-]. eapply IH; eauto.
Qed.

Lemma vertices_more w fs c l e : forall g taken a g' it', g_end g = SMore -> vertices_loop I_dec id w fs c g = (taken, a, g', it') -> a <> Waits ->
  vertices_loop I_dec id w fs c (more l e g) = (taken, a, more l e g', it') /\ g_end g' = SMore.
Proof.
  intros g taken a g' it' He. unfold vertices_loop, more at 1 2. cbn [g_rest g_end]. rewrite He.
  destruct (fetch_until _ (g_rest g) SMore) as [[sk a1] g1] eqn:F. pose proof (fetch_more_end _ _ _ _ _ F) as F2.
  destruct a1 as [o| |x|]; try tauto; intros [= <- <- <- <-] H; [|congruence].
  rewrite (fetch_more _ l e _ _ _ _ F) by discriminate. auto.
Qed.

Lemma range_more ge lt l e : forall g taken a g' it', g_end g = SMore -> range_loop (I := I) ge lt g = (taken, a, g', it') -> a <> Waits ->
  range_loop ge lt (more l e g) = (taken, a, more l e g', it') /\ g_end g' = SMore.
Proof.
  intros g taken a g' it' He. unfold range_loop, more at 1 2. cbn [g_rest g_end]. rewrite He.
  destruct (fetch_until _ (g_rest g) SMore) as [[sk a1] g1] eqn:F. pose proof (fetch_more_end _ _ _ _ _ F) as F2.
  destruct a1 as [o| |x|]; try tauto; [|intros [= <- <- <- <-] H; congruence].
  intros HH H. rewrite (fetch_more _ l e _ _ _ _ F) by discriminate.
  destruct (negb (lt o)); injection HH as <- <- <- <-; auto.
Qed.

Lemma advance_more l e it : forall g taken a g' it', g_end g = SMore -> advance it g = (taken, a, g', it') -> a <> Waits ->
  advance it (more l e g) = (taken, a, more l e g', it') /\ g_end g' = SMore.
Proof.
  intros g taken a g' it' He. destruct it as [w fs [[c []]|]|ge lt []|]; simpl.
  - destruct (c - 1); [intros [= <- <- <- <-]; auto|apply vertices_more; auto].
  - apply vertices_more; auto.
  - destruct (length _); [intros [= <- <- <- <-]; auto|apply vertices_more; auto].
  - rewrite He. destruct (fetch_until _ (g_rest g) SMore) as [[sk a1] g1] eqn:F. pose proof (fetch_more_end _ _ _ _ _ F) as F2.
    destruct a1 as [o| |x|]; try tauto; [|intros [= <- <- <- <-] H; congruence].
    rewrite (fetch_more _ l e _ _ _ _ F) by discriminate. destruct (lt o); [intros [= <- <- <- <-]; auto|].
    destruct (range_loop ge lt g1) as [[[sk2 a2] g2] it2] eqn:R. intros [= <- <- <- <-] Hw.
    destruct (range_more ge lt l e _ _ _ _ _ F2 R Hw) as [-> ?]. auto.
  - apply range_more; auto.
  - intros [= <- <- <- <-]; auto.
Qed.

Definition more_objects (l : list O) (e : source_end) (s : objects O I) : objects O I := {| o_generator := more l e (o_generator s); o_iterators := o_iterators s |}.

Lemma execute_more l e s op en s' : g_end (o_generator s) = SMore -> execute s op = (en, s') -> e_answer en <> Some Waits ->
  execute (more_objects l e s) op = (en, more_objects l e s') /\ g_end (o_generator s') = SMore.
Proof.
  intros He. destruct op as [|t f|w fs|ge lt|k]; cbn [HistoryModel.execute more_objects o_generator o_iterators more g_rest g_end].
  - rewrite He. destruct (fetch_until _ (g_rest (o_generator s)) SMore) as [[sk a] g] eqn:F. pose proof (fetch_more_end _ _ _ _ _ F) as F2.
    intros [= <- <-] H. destruct a as [o| |x|]; try (now destruct F2); try (exfalso; apply H; reflexivity). rewrite (fetch_more _ l e _ _ _ _ F) by discriminate. auto.
  - rewrite He. destruct (fetch_until _ (g_rest (o_generator s)) SMore) as [[sk a] g] eqn:F. pose proof (fetch_more_end _ _ _ _ _ F) as F2.
    intros [= <- <-] H. destruct a as [o| |x|]; try (now destruct F2); try (exfalso; apply H; reflexivity). rewrite (fetch_more _ l e _ _ _ _ F) by discriminate. auto.
  - intros [= <- <-]; auto.
  - intros [= <- <-]; auto.
  - destruct (nth_error (o_iterators s) k) as [it|]; [|intros [= <- <-]; auto].
    destruct (advance it (o_generator s)) as [[[taken a] g'] it'] eqn:A. intros [= <- <-] H. simpl in H.
    destruct (advance_more l e it _ _ _ _ _ He A) as [A2 ?]; [intros ->; apply H; reflexivity|]. fold (more l e (o_generator s)). rewrite A2. auto.
Qed.

Lemma execute_all_more l e : forall ops s h s', g_end (o_generator s) = SMore -> execute_all s ops = (h, s') -> (forall en, In en h -> e_answer en <> Some Waits) ->
  execute_all (more_objects l e s) ops = (h, more_objects l e s').
Proof.
  induction ops as [|op ops IH]; intros s h s' He; cbn [HistoryModel.execute_all]; [intros [= <- <-]; auto|].
  destruct (execute s op) as [en s1] eqn:E. destruct (execute_all s1 ops) as [h1 s2] eqn:E2. intros [= <- <-] H.
  destruct (execute_more l e _ _ _ _ He E) as [E3 He1]; [apply H; left; reflexivity|]. rewrite E3. rewrite (IH s1 h1 s2 He1 E2); [reflexivity|]. intros; apply H; right; auto.
Qed.

(** * For started traversals *)
Lemma history_ok os e ops :
  let h := history I_dec id os e ops in
  map e_operation h = ops /\ (exists rest, os = flat_map e_taken h ++ rest) /\
  (forall h1 en h2, h = h1 ++ en :: h2 -> entry_ok id (map e_operation h1) en /\ (delivers en = true -> e_taken en <> [])) /\
  (forall h1 en h2, h = h1 ++ en :: h2 -> e_operation en = Next \/ (exists t fs, e_operation en = GoTo t fs) -> delivers en = false ->
     os = flat_map e_taken (h1 ++ [en])).
Proof.
  unfold history. destruct (execute_all (started os e) ops) as [h s'] eqn:E. simpl.
  destruct (execute_all_ok ops [] _ _ _ (Forall2_nil _ : consistent [] (o_iterators (started os e))) E) as (H1 & H2 & H3 & H4). simpl in *. eauto.
Qed.

Lemma history_own os e ops :
  let h := history I_dec id os e ops in
  (forall x en, In en h -> e_answer en = Some (Raises x) -> x = KeyErrorNotFound \/ e = SExn x) /\ length (filter raises_own h) <= 1.
Proof.
  unfold history. destruct (execute_all (started os e) ops) as [h s'] eqn:E. simpl.
  destruct (execute_all_own ops [] _ _ _ (Forall2_nil _ : consistent [] (o_iterators (started os e))) E) as (H1 & _ & H3). simpl in *. eauto.
Qed.

Lemma history_count os e ops k w fs : creator ops k = Some (GoForVerticesIn w fs) ->
  length (filter (fun en => is_next_of k en && delivers en) (history I_dec id os e ops)) <= length (nodup I_dec w).
Proof.
  intros Hc. unfold history. destruct (execute_all (started os e) ops) as [h s'] eqn:E. simpl.
  pose proof (execute_all_count w fs k ops [] _ _ _ (Forall2_nil _ : consistent [] (o_iterators (started os e))) E Hc) as H. simpl in H.
  destruct k; exact H.
Qed.

Lemma history_more os l e ops : (forall en, In en (history I_dec id os SMore ops) -> e_answer en <> Some Waits) ->
  history I_dec id (os ++ l) e ops = history I_dec id os SMore ops.
Proof.
  unfold history. destruct (execute_all (started os SMore) ops) as [h s'] eqn:E. simpl. intros H.
  pose proof (execute_all_more l e ops (started os SMore) h s' eq_refl E H) as H2. unfold more_objects, more, started in H2. simpl in H2. unfold started. now rewrite H2.
Qed.
End P.

Section More.
Context {O I : Type}.
Variable I_dec : forall a b : I, {a = b} + {a <> b}.
Variable id : O -> I.

Lemma NoDup_app_parts {A} (a b : list A) : NoDup (a ++ b) -> NoDup a /\ NoDup b /\ forall x, In x a -> ~ In x b.
Proof.
  induction a as [|y a IH]; simpl; intros H; [repeat split; auto; constructor|].
  inversion H as [|? ? Hn Hd]; subst. destruct (IH Hd) as (H1 & H2 & H3). repeat split; auto.
  - constructor; auto. intros Hy. apply Hn, in_or_app; auto.
  - intros x [<-|Hx] Hb; [apply Hn, in_or_app; auto|exact (H3 x Hx Hb)].
Qed.

Lemma delivered_distinct : forall (h : list (entry O I)),
  (forall h1 e h2, h = h1 ++ e :: h2 -> entry_ok id (map e_operation h1) e /\ (delivers e = true -> e_taken e <> [])) ->
  NoDup (map id (flat_map e_taken h)) -> NoDup (map id (delivered h)).
Proof.
  intros h Hok Hnd.
  assert (Hsub : forall h' p, h = p ++ h' -> incl (delivered h') (flat_map e_taken h') /\ (NoDup (map id (flat_map e_taken h')) -> NoDup (map id (delivered h')))).
  { induction h' as [|e h' IH]; intros p Hp; [split; [intros x []|intros _; constructor]|].
    destruct (IH (p ++ [e])) as [I1 I2]; [now rewrite <- app_assoc|].
    destruct (Hok p e h' Hp) as [He _]. unfold entry_ok in He. unfold delivered. simpl. change (flat_map (fun e0 => match e_answer e0 with Some (Delivers o) => [o] | _ => [] end) h') with (delivered h').
    destruct (e_answer e) as [[o| |x|]|] eqn:Ea; simpl;
      try (split; [intros y Hy; apply in_or_app; right; now apply I1|intros Hd; rewrite map_app in Hd; apply I2; now destruct (NoDup_app_parts _ _ Hd) as (_ & ? & _)]).
    destruct He as (sk & Ht & _). rewrite Ht. split.
    - intros y [<-|Hy]; apply in_or_app; [left; apply in_or_app; simpl; auto|right; now apply I1].
    - intros Hd. rewrite map_app in Hd. destruct (NoDup_app_parts _ _ Hd) as (_ & D2 & D3). constructor; [|now apply I2].
      intros Hi. apply (D3 (id o)); [apply in_map, in_or_app; simpl; auto|]. apply in_map_iff in Hi. destruct Hi as (z & <- & Hz). apply in_map. now apply I1. }
  exact (proj2 (Hsub h [] eq_refl) Hnd).
Qed.

Lemma history_distinct os e ops : NoDup (map id os) -> NoDup (map id (delivered (history I_dec id os e ops))).
Proof.
  intros Hnd. destruct (history_ok I_dec id os e ops) as (_ & (rest & Hr) & Hok & _). apply delivered_distinct; [exact Hok|].
  rewrite Hr, map_app in Hnd. now destruct (NoDup_app_parts _ _ Hnd).
Qed.

Lemma sorted_parts {A} (R : A -> A -> Prop) a b : StronglySorted R (a ++ b) -> StronglySorted R a /\ StronglySorted R b /\ forall x y, In x a -> In y b -> R x y.
Proof.
  induction a as [|z a IH]; simpl; intros H; [repeat split; auto; [constructor|intros ? ? []]|].
  inversion H as [|? ? Hd Hf]; subst. destruct (IH Hd) as (H1 & H2 & H3). rewrite Forall_forall in Hf. repeat split; auto.
  - constructor; auto. apply Forall_forall. intros y Hy. apply Hf, in_or_app; auto.
  - intros x y [<-|Hx] Hy; [apply Hf, in_or_app; auto|auto].
Qed.

Lemma delivered_sorted (R : O -> O -> Prop) : forall (h : list (entry O I)),
  (forall h1 e h2, h = h1 ++ e :: h2 -> entry_ok id (map e_operation h1) e /\ (delivers e = true -> e_taken e <> [])) ->
  incl (delivered h) (flat_map e_taken h) /\ (StronglySorted R (flat_map e_taken h) -> StronglySorted R (delivered h)).
Proof.
  intros h Hok.
  assert (Hsub : forall h' p, h = p ++ h' -> incl (delivered h') (flat_map e_taken h') /\ (StronglySorted R (flat_map e_taken h') -> StronglySorted R (delivered h'))).
  { induction h' as [|e h' IH]; intros p Hp; [split; [intros x []|intros _; constructor]|].
    destruct (IH (p ++ [e])) as [I1 I2]; [now rewrite <- app_assoc|].
    destruct (Hok p e h' Hp) as [He _]. unfold entry_ok in He. unfold delivered. simpl. change (flat_map (fun e0 => match e_answer e0 with Some (Delivers o) => [o] | _ => [] end) h') with (delivered h').
    destruct (e_answer e) as [[o| |x|]|] eqn:Ea; simpl;
      try (split; [intros y Hy; apply in_or_app; right; now apply I1|intros Hd; apply I2; now destruct (sorted_parts _ _ _ Hd) as (_ & ? & _)]).
    destruct He as (sk & Ht & _). rewrite Ht. split.
    - intros y [<-|Hy]; apply in_or_app; [left; apply in_or_app; simpl; auto|right; now apply I1].
    - intros Hd. destruct (sorted_parts _ _ _ Hd) as (_ & D2 & D3). constructor; [now apply I2|].
      apply Forall_forall. intros y Hy. apply D3; [apply in_or_app; simpl; auto|now apply I1]. }
  exact (Hsub h [] eq_refl).
Qed.

Lemma history_sorted (R : O -> O -> Prop) os e ops :
  incl (delivered (history I_dec id os e ops)) os /\ (StronglySorted R os -> StronglySorted R (delivered (history I_dec id os e ops))).
Proof.
  destruct (history_ok I_dec id os e ops) as (_ & (rest & Hr) & Hok & _). destruct (delivered_sorted R _ Hok) as [H1 H2]. split.
  - intros x Hx. rewrite Hr. apply in_or_app. left. auto.
  - intros Hs. rewrite Hr in Hs. apply H2. now destruct (sorted_parts _ _ _ Hs).
Qed.

Lemma history_after os e ops h1 en h2 : history I_dec id os e ops = h1 ++ en :: h2 ->
  e_operation en = Next \/ (exists t fs, e_operation en = GoTo t fs) -> delivers en = false ->
  os = flat_map e_taken (h1 ++ [en]) /\ forall e', In e' h2 -> e_taken e' = [] /\ delivers e' = false.
Proof.
  intros Hh Ho Hd. destruct (history_ok I_dec id os e ops) as (_ & (rest & Hr) & Hok & Hex). pose proof (Hex h1 en h2 Hh Ho Hd) as Hos. split; [exact Hos|].
  assert (Hnil : flat_map e_taken h2 = []).
  { rewrite Hh, flat_map_app in Hr. simpl in Hr. rewrite flat_map_app in Hos. simpl in Hos. rewrite app_nil_r in Hos. rewrite Hos in Hr. rewrite <- !app_assoc in Hr.
    apply app_inv_head in Hr. rewrite <- (app_nil_r (e_taken en)) in Hr at 1. apply app_inv_head in Hr. symmetry in Hr. apply app_eq_nil in Hr. tauto. }
  intros e' Hin. destruct (in_split _ _ Hin) as (a & b & ->).
  assert (Ht : e_taken e' = []).
  { rewrite flat_map_app in Hnil. apply app_eq_nil in Hnil. destruct Hnil as [_ Hnil]. simpl in Hnil. apply app_eq_nil in Hnil. tauto. }
  split; [exact Ht|]. destruct (Hok (h1 ++ en :: a) e' b) as [_ Hde]; [rewrite Hh, <- app_assoc; reflexivity|].
  destruct (delivers e'); auto. now destruct Hde.
Qed.

Lemma history_passes {S} (step : S -> step_result S O exn) s0 n m os s1 ops : run step n s0 = (os, Running s1) ->
  (forall en, In en (history I_dec id os SMore ops) -> e_answer en <> Some Waits) ->
  history I_dec id (fst (run step (n + m) s0)) (source_end_of (snd (run step (n + m) s0))) ops = history I_dec id os SMore ops.
Proof. intros Hr H. rewrite (run_add_running _ _ _ _ _ _ Hr). simpl. apply history_more. exact H. Qed.
End More.
