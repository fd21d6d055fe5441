(** Proofs for C86, part 2: the option fail_silently in a history of operations. *)
From Coq Require Import List Bool Arith Lia.
From Verif Require Import Machine Common GoModel HistoryModel HistorySpec HistoryProofs.
Import ListNotations.

Section P.
Context {O I : Type} (I_dec : forall a b : I, {a = b} + {a <> b}) (id : O -> I).

Lemma fetch_raises wanted l e sk a g x : fetch_until (O := O) wanted l e = (sk, a, g) -> a = Raises x -> e = SExn x.
Proof.
  intros F ->. apply (fetch_until_spec (fun o : O => o)) in F. destruct F as (_ & _ & _ & F & _). destruct e; try discriminate F. now injection F as <-.
Qed.
Lemma fetch_end_kept wanted l e sk a g x : fetch_until (O := O) wanted l e = (sk, a, g) -> g_end g = SExn x -> e = SExn x.
Proof.
  intros F Hx. apply (fetch_until_spec (fun o : O => o)) in F. destruct F as (_ & F). destruct a as [o| |y|]; [destruct F as (_ & _ & F); congruence|..]; destruct F as (_ & _ & _ & F); rewrite F in Hx; destruct e; discriminate Hx.
Qed.
Lemma range_raises ge lt g taken a g' it' x : range_loop (O := O) (I := I) ge lt g = (taken, a, g', it') -> a = Raises x -> g_end g = SExn x.
Proof.
  unfold range_loop. destruct (fetch_until _ _ _) as [[sk b] g1] eqn:F. intros H ->. destruct b as [o| |y|]; [destruct (negb (lt o))|..]; inversion H; subst; try discriminate.
  exact (fetch_raises _ _ _ _ _ _ _ F eq_refl).
Qed.
Lemma vertices_raises w fs c g taken a g' it' : vertices_loop I_dec id w fs c g = (taken, a, g', it') -> a = Raises KeyErrorNotFound -> g_end g <> SExn KeyErrorNotFound -> fs = false.
Proof.
  unfold vertices_loop. destruct (fetch_until _ _ _) as [[sk b] g1] eqn:F. intros H -> Hn. destruct b as [o| |y|]; inversion H; subst; try discriminate.
  - destruct fs; [discriminate|reflexivity].
  - destruct Hn. exact (fetch_raises _ _ _ _ _ _ _ F eq_refl).
Qed.
Lemma advance_raises op it g taken a g' it' : made_by op it -> advance I_dec id it g = (taken, a, g', it') -> a = Raises KeyErrorNotFound ->
  g_end g <> SExn KeyErrorNotFound -> exists w, op = GoForVerticesIn w false.
Proof.
  intros Hm HA Ha Hn. destruct it as [w fs st|ge lt first|]; cbn [advance] in HA.
  - destruct op as [|t f|w0 f|ge lt|k]; try (cbn in Hm; contradiction). exists w0. f_equal.
    destruct st as [[c b]|].
    + cbn in Hm. destruct Hm as (_ & <- & _). destruct b.
      * destruct (c - 1); [inversion HA; subst; discriminate|]. exact (vertices_raises _ _ _ _ _ _ _ _ HA Ha Hn).
      * exact (vertices_raises _ _ _ _ _ _ _ _ HA Ha Hn).
    + cbn in Hm. destruct Hm as (_ & <-). destruct (length (nodup I_dec w)); [inversion HA; subst; discriminate|]. exact (vertices_raises _ _ _ _ _ _ _ _ HA Ha Hn).
  - exfalso. destruct first; [|exact (Hn (range_raises _ _ _ _ _ _ _ _ HA Ha))].
    destruct (fetch_until ge (g_rest g) (g_end g)) as [[sk b] g1] eqn:F.
    destruct b as [o| |y|].
    + destruct (lt o); [inversion HA; subst; discriminate|]. destruct (range_loop ge lt g1) as [[[sk2 a2] g2] it2] eqn:R. inversion HA; subst.
      apply Hn. exact (fetch_end_kept _ _ _ _ _ _ _ F (range_raises _ _ _ _ _ _ _ _ R eq_refl)).
    + destruct (range_loop ge lt g1) as [[[sk2 a2] g2] it2] eqn:R. inversion HA; subst.
      apply Hn. exact (fetch_end_kept _ _ _ _ _ _ _ F (range_raises _ _ _ _ _ _ _ _ R eq_refl)).
    + inversion HA; subst. apply Hn. exact (fetch_raises _ _ _ _ _ _ _ F H1).
    + inversion HA; subst. discriminate.
  - inversion HA; subst. discriminate.
Qed.
Lemma execute_raises before s op en s' : consistent before (o_iterators s) -> execute I_dec id s op = (en, s') -> g_end (o_generator s) <> SExn KeyErrorNotFound ->
  (e_answer en = Some (Raises KeyErrorNotFound) -> may_raise before op) /\ (forall t, op = GoTo t false -> e_answer en <> Some Stops).
Proof.
  intros Hc HX Hn. destruct op as [|t fs|w fs|ge lt|k]; cbn [execute] in HX.
  - destruct (fetch_until _ _ _) as [[sk a] g] eqn:F. inversion HX; subst; cbn. split; [|discriminate]. intros [= ->]. destruct Hn. exact (fetch_raises _ _ _ _ _ _ _ F eq_refl).
  - destruct (fetch_until _ _ _) as [[sk a] g] eqn:F. inversion HX; subst; cbn. split.
    + destruct a as [o| |y|]; try discriminate.
      * destruct fs; [discriminate|reflexivity].
      * intros [= ->]. destruct Hn. exact (fetch_raises _ _ _ _ _ _ _ F eq_refl).
    + intros t' [= -> ->]. destruct a; discriminate.
  - inversion HX; subst; cbn. split; discriminate.
  - inversion HX; subst; cbn. split; discriminate.
  - split; [|discriminate]. destruct (nth_error (o_iterators s) k) as [it|] eqn:En; [|inversion HX; subst; cbn; discriminate].
    destruct (advance I_dec id it (o_generator s)) as [[[taken a] g'] it'] eqn:A. inversion HX; subst; cbn. intros [= ->].
    destruct (Forall2_nth _ _ _ _ _ Hc En) as (op & Hop & Hm). destruct (advance_raises _ _ _ _ _ _ _ Hm A eq_refl Hn) as (w & ->). exists w. exact Hop.
Qed.
Lemma execute_all_raises : forall ops before s h s', consistent before (o_iterators s) -> execute_all I_dec id s ops = (h, s') -> g_end (o_generator s) <> SExn KeyErrorNotFound ->
  forall h1 en h2, h = h1 ++ en :: h2 ->
  (e_answer en = Some (Raises KeyErrorNotFound) -> may_raise (before ++ map e_operation h1) (e_operation en)) /\ (forall t, e_operation en = GoTo t false -> e_answer en <> Some Stops).
Proof.
  induction ops as [|op ops IH]; intros before s h s' Hc HX Hn h1 en h2 Hh; cbn [execute_all] in HX.
  - inversion HX; subst. destruct h1; discriminate.
  - destruct (execute I_dec id s op) as [e s1] eqn:E. destruct (execute_all I_dec id s1 ops) as [h0 s2] eqn:E2. inversion HX; subst.
    destruct (execute_ok I_dec id _ _ _ _ _ Hc E) as (Q1 & _ & (_ & T2 & _) & Q4 & _).
    destruct h1 as [|e1 h1]; inversion H0; subst.
    + cbn. rewrite app_nil_r. exact (execute_raises _ _ _ _ _ Hc E Hn).
    + assert (Hn1 : g_end (o_generator s1) <> SExn KeyErrorNotFound).
      { intros C. destruct T2 as [T2|[_ T2]]; [congruence|]. rewrite T2 in C. unfold at_end in C. destruct (g_end (o_generator s)); discriminate C. }
      pose proof (IH _ _ _ _ Q4 E2 Hn1 h1 en h2 eq_refl) as K. cbn [map]. rewrite <- app_assoc in K. exact K.
Qed.
Lemma history_raises os e ops before en after : e <> SExn KeyErrorNotFound -> history I_dec id os e ops = before ++ en :: after ->
  (e_answer en = Some (Raises KeyErrorNotFound) -> may_raise (map e_operation before) (e_operation en)) /\
  (forall target, e_operation en = GoTo target false -> e_answer en <> Some Stops).
Proof.
  intros Hn Hh. unfold history in Hh. destruct (execute_all I_dec id (started os e) ops) as [h s'] eqn:E. cbn in Hh.
  exact (execute_all_raises ops [] _ _ _ (Forall2_nil _ : consistent [] (o_iterators (started os e))) E Hn _ _ _ Hh).
Qed.
End P.

(** An iterator of go_for_vertices_in without fail_silently ends regularly only when it has delivered as many vertices as there are in the set, or after an exception. *)
Section Missing.
Context {O I : Type} (I_dec : forall a b : I, {a = b} + {a <> b}) (id : O -> I).
Notation entry := (entry O I).
Definition fits (w : list I) (n : nat) (R : Prop) (it : iterator O I) : Prop :=
  match it with
  | IVertices _ fs _ => fs = false /\ n + budget I_dec it = length (nodup I_dec w)
  | IDone => R \/ n = length (nodup I_dec w)
  | _ => False
  end.
Lemma vertices_fits w w' c g taken a g' it' n R : vertices_loop I_dec id w' false c g = (taken, a, g', it') -> c <> 0 -> n + c = length (nodup I_dec w) ->
  a <> Stops /\ fits w (n + match a with Delivers _ => 1 | _ => 0 end) (R \/ exists x, a = Raises x) it'.
Proof.
  unfold vertices_loop. destruct (fetch_until _ _ _) as [[sk b] g1] eqn:F. intros H Hc Hn. destruct b as [o| |y|]; injection H as <- <- <- <-; cbn.
  - split; [discriminate|]. split; [reflexivity|lia].
  - split; [discriminate|]. eauto.
  - split; [discriminate|]. eauto.
  - split; [discriminate|]. split; [reflexivity|lia].
Qed.
Lemma advance_fits w it g taken a g' it' n (R : Prop) : made_by (GoForVerticesIn w false) it -> fits w n R it -> advance I_dec id it g = (taken, a, g', it') ->
  (a = Stops -> R \/ n = length (nodup I_dec w)) /\ fits w (n + match a with Delivers _ => 1 | _ => 0 end) (R \/ exists x, a = Raises x) it'.
Proof.
  intros Hm Hf HA. destruct it as [w' fs st|ge lt first|]; cbn [fits] in Hf; [|contradiction|].
  - destruct Hf as [-> Hb]. destruct st as [[c b]|]; cbn [advance budget] in *.
    + cbn in Hm. destruct Hm as (_ & _ & Hc). destruct b.
      * destruct (c - 1) as [|c'] eqn:Ec.
        -- injection HA as <- <- <- <-. rewrite Nat.add_0_r in *. cbn. auto.
        -- destruct (vertices_fits w _ _ _ _ _ _ _ n R HA) as [K1 K2]; [lia|exact Hb|]. split; [congruence|exact K2].
      * destruct (vertices_fits w _ _ _ _ _ _ _ n R HA Hc Hb) as [K1 K2]. split; [congruence|exact K2].
    + cbn in Hm. destruct Hm as (-> & _). destruct (length (nodup I_dec w)) as [|c'] eqn:Ec.
      * injection HA as <- <- <- <-. rewrite Nat.add_0_r in *. cbn. rewrite Ec. auto.
      * destruct (vertices_fits w _ _ _ _ _ _ _ n R HA) as [K1 K2]; [lia|lia|]. split; [congruence|exact K2].
  - cbn [advance] in HA. injection HA as <- <- <- <-. rewrite Nat.add_0_r. cbn. tauto.
Qed.
Definition found_by (k : nat) (past : list entry) : nat := length (filter (fun en => is_next_of k en && delivers en) past).
Definition raised_by (k : nat) (past : list entry) : Prop := exists en x, In en past /\ is_next_of k en = true /\ e_answer en = Some (Raises x).
Definition good (past : list entry) (its : list (iterator O I)) : Prop :=
  forall k w it, creator (map e_operation past) k = Some (GoForVerticesIn w false) -> nth_error its k = Some it -> fits w (found_by k past) (raised_by k past) it.
Lemma found_app k past en : found_by k (past ++ [en]) = found_by k past + if is_next_of k en && delivers en then 1 else 0.
Proof. unfold found_by. rewrite filter_app, app_length. cbn. destruct (is_next_of k en && delivers en); reflexivity. Qed.
Lemma fits_weaken w n (R R' : Prop) it : (R -> R') -> fits w n R it -> fits w n R' it.
Proof. destruct it; cbn; tauto. Qed.
Lemma raised_app k past en : raised_by k past -> raised_by k (past ++ [en]).
Proof. intros (e & x & H & K). exists e, x. split; [apply in_or_app; auto|exact K]. Qed.
Lemma consistent_length before (its : list (iterator O I)) : consistent before its -> length (filter creates before) = length its.
Proof. unfold consistent. induction 1; cbn; congruence. Qed.
(** An operation that changes no iterator *)
Lemma good_same past its en : good past its -> creates (e_operation en) = false -> (forall k, is_next_of k en && delivers en = false) -> good (past ++ [en]) its.
Proof.
  intros G Hc Hd k w it Hk Hi. rewrite found_app, Hd, Nat.add_0_r. apply (fits_weaken w _ (raised_by k past)); [apply raised_app|]. apply G; [|exact Hi].
  unfold creator in *. rewrite map_app, filter_app in Hk. cbn in Hk. rewrite Hc, app_nil_r in Hk. exact Hk.
Qed.
(** An operation that creates an iterator *)
Lemma good_new past its en it0 : good past its -> consistent (map e_operation past) its -> creates (e_operation en) = true -> (forall k, is_next_of k en = false) ->
  (forall k, found_by k past = 0 \/ k < length its) -> (forall w, e_operation en = GoForVerticesIn w false -> it0 = IVertices w false None) -> good (past ++ [en]) (its ++ [it0]).
Proof.
  intros G Hcons Hc Hd H0 Hit k w it Hk Hi. rewrite found_app, Hd, Nat.add_0_r. apply (fits_weaken w _ (raised_by k past)); [apply raised_app|].
  apply consistent_length in Hcons. unfold creator in Hk. rewrite map_app, filter_app in Hk. cbn in Hk. rewrite Hc in Hk.
  destruct (Nat.lt_ge_cases k (length its)) as [L|L].
  - rewrite nth_error_app1 in Hk by lia. rewrite nth_error_app1 in Hi by lia. now apply G.
  - rewrite nth_error_app2 in Hk by lia. rewrite nth_error_app2 in Hi by lia. rewrite Hcons in Hk.
    destruct (k - length its) as [|[|m]]; try discriminate. cbn in Hk, Hi. injection Hk as Hk. injection Hi as <-. rewrite (Hit w Hk). cbn.
    destruct (H0 k) as [->|C]; [auto|lia].
Qed.
Definition served (past : list entry) (its : list (iterator O I)) : Prop := forall k, found_by k past = 0 \/ k < length its.
Lemma replace_length {A} : forall (l : list A) k x, length (replace l k x) = length l.
Proof. induction l as [|a l IH]; intros [|k] x; cbn; auto. Qed.
Lemma execute_good past s op en s' : consistent (map e_operation past) (o_iterators s) -> good past (o_iterators s) -> served past (o_iterators s) -> execute I_dec id s op = (en, s') ->
  good (past ++ [en]) (o_iterators s') /\ served (past ++ [en]) (o_iterators s') /\
  (forall k w, op = NextOf k -> creator (map e_operation past) k = Some (GoForVerticesIn w false) -> e_answer en = Some Stops -> raised_by k past \/ found_by k past = length (nodup I_dec w)).
Proof.
  intros Hc G Hs HX.
  assert (Keep : forall its, (forall k, is_next_of k en && delivers en = false) -> length (o_iterators s) <= length its -> served (past ++ [en]) its).
  { intros its Hd Hl k. rewrite found_app, Hd, Nat.add_0_r. destruct (Hs k); [auto|right; lia]. }
  destruct op as [|t fs|w fs|ge lt|j]; cbn [execute] in HX.
  - destruct (fetch_until _ _ _) as [[sk a] g] eqn:F. injection HX as <- <-. cbn [o_iterators]. split; [apply good_same; auto|]. split; [apply Keep; auto|discriminate].
  - destruct (fetch_until _ _ _) as [[sk a] g] eqn:F. injection HX as <- <-. cbn [o_iterators]. split; [apply good_same; auto|]. split; [apply Keep; auto|discriminate].
  - injection HX as <- <-. cbn [o_iterators]. split; [apply good_new; auto; cbn; congruence|]. split; [apply Keep; [auto|rewrite app_length; lia]|discriminate].
  - injection HX as <- <-. cbn [o_iterators]. split; [apply good_new; auto; cbn; congruence|]. split; [apply Keep; [auto|rewrite app_length; lia]|discriminate].
  - destruct (nth_error (o_iterators s) j) as [it|] eqn:En.
    + destruct (advance I_dec id it (o_generator s)) as [[[taken a] g'] it'] eqn:A. injection HX as <- <-. cbn [o_iterators].
      assert (Step : forall w, creator (map e_operation past) j = Some (GoForVerticesIn w false) ->
        (a = Stops -> raised_by j past \/ found_by j past = length (nodup I_dec w)) /\ fits w (found_by j past + match a with Delivers _ => 1 | _ => 0 end) (raised_by j past \/ exists x, a = Raises x) it').
      { intros w Hw. destruct (Forall2_nth _ _ _ _ _ Hc En) as (op & Hop & Hm). unfold creator in Hw. rewrite Hop in Hw. injection Hw as ->.
        apply (advance_fits w it (o_generator s) taken a g' it'); auto. }
      split; [|split].
      * intros k w it2 Hk Hi. unfold creator in Hk. rewrite map_app, filter_app in Hk. cbn in Hk. rewrite app_nil_r in Hk. rewrite replace_nth in Hi.
        rewrite found_app. unfold is_next_of at 1, delivers at 1. cbn [e_operation e_answer]. rewrite (Nat.eqb_sym k j) in Hi.
        destruct (Nat.eqb j k) eqn:Ejk.
        -- apply Nat.eqb_eq in Ejk. subst k. rewrite En in Hi. injection Hi as <-. destruct (Step w Hk) as [_ K].
           replace (if true && match a with Delivers _ => true | _ => false end then 1 else 0) with (match a with Delivers _ => 1 | _ => 0 end) by (destruct a; reflexivity).
           revert K. apply fits_weaken. intros [K|(x & K)]; [now apply raised_app|].
           eexists. exists x. split; [apply in_or_app; right; left; reflexivity|]. cbn. rewrite Nat.eqb_refl, K. auto.
        -- rewrite Nat.add_0_r. apply (fits_weaken w _ (raised_by k past)); [apply raised_app|]. now apply G.
      * intros k. rewrite replace_length. destruct (Nat.eq_dec k j) as [->|Hkj]; [right; apply nth_error_Some; congruence|].
        rewrite found_app. unfold is_next_of at 1. cbn [e_operation]. assert (Ejk : Nat.eqb j k = false) by (apply Nat.eqb_neq; congruence). rewrite Ejk, Nat.add_0_r. apply Hs.
      * intros k w [= <-] Hw [= ->]. destruct (Step w Hw) as [K _]. now apply K.
    + injection HX as <- <-. split; [apply good_same; auto; intros k; cbn; apply andb_false_r|]. split; [apply Keep; [intros k; cbn; apply andb_false_r|lia]|discriminate].
Qed.
Lemma execute_all_good : forall ops past s h s', consistent (map e_operation past) (o_iterators s) -> good past (o_iterators s) -> served past (o_iterators s) ->
  execute_all I_dec id s ops = (h, s') -> forall h1 en h2 k w, h = h1 ++ en :: h2 -> e_operation en = NextOf k ->
  creator (map e_operation (past ++ h1)) k = Some (GoForVerticesIn w false) -> e_answer en = Some Stops -> raised_by k (past ++ h1) \/ found_by k (past ++ h1) = length (nodup I_dec w).
Proof.
  induction ops as [|op ops IH]; intros past s h s' Hc G Hs HX h1 en h2 k w Hh Ho Hw Ha; cbn [execute_all] in HX.
  - injection HX as <- <-. destruct h1; discriminate.
  - destruct (execute I_dec id s op) as [e s1] eqn:E. destruct (execute_all I_dec id s1 ops) as [h0 s2] eqn:E2. injection HX as <- <-.
    destruct (execute_ok I_dec id _ _ _ _ _ Hc E) as (Q1 & _ & _ & Q4 & _). destruct (execute_good _ _ _ _ _ Hc G Hs E) as (G1 & S1 & K).
    destruct h1 as [|e1 h1]; injection Hh as <- Hh.
    + rewrite app_nil_r in *. apply (K k w); auto. congruence.
    + assert (Hc1 : consistent (map e_operation (past ++ [e])) (o_iterators s1)) by (rewrite map_app; cbn; rewrite Q1; exact Q4).
      pose proof (IH _ _ _ _ Hc1 G1 S1 E2 h1 en h2 k w Hh Ho) as K1. rewrite <- app_assoc in K1. cbn in K1. now apply K1.
Qed.
Lemma history_missing os e ops before en after k w : history I_dec id os e ops = before ++ en :: after -> e_operation en = NextOf k ->
  creator (map e_operation before) k = Some (GoForVerticesIn w false) -> e_answer en = Some Stops ->
  (exists earlier x, In earlier before /\ is_next_of k earlier = true /\ e_answer earlier = Some (Raises x)) \/
  length (filter (fun en => is_next_of k en && delivers en) before) = length (nodup I_dec w).
Proof.
  intros Hh. unfold history in Hh. destruct (execute_all I_dec id (started os e) ops) as [h s'] eqn:E. cbn in Hh.
  apply (execute_all_good ops [] (started os e) h s') with (h2 := after); auto.
  - apply Forall2_nil.
  - intros j v it Hj. destruct j; discriminate.
  - intros j. left. reflexivity.
Qed.
End Missing.
