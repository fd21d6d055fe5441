(** Proofs about the model of demo_traveling_salesman. *)
From Coq Require Import List ZArith Bool Arith Lia Permutation.
From Verif Require Import Machine GearSpec Common PathsModel PathsSpec PathsExact Weight WeightSpec TraversalSpec DijkstraModel DijkstraPlain TspSpec DemoTspModel.
Import ListNotations.
Open Scope nat_scope.

(** Adjacent vertices of a delivered path differ. *)
Lemma loop_adjacent {V I} (V_dec : forall a b : V, {a = b} + {a <> b}) (vid : V -> I) (PM : PMap I V) pred fuel : forall v l,
  vertices_to_start_loop V_dec vid PM pred fuel v = POk l ->
  (exists l', l = v :: l') /\ forall l1 x y l2, l = l1 ++ x :: y :: l2 -> x <> y.
Proof.
  induction fuel as [|fuel IH]; intros v l H; [discriminate H|]. cbn in H.
  destruct (pm_get PM (vid v) pred) as [u|]; [|discriminate H]. destruct (V_dec v u) as [e|ne].
  - injection H as <-. split; [eauto|]. intros l1 x y l2 E. destruct l1 as [|? [|? ?]]; discriminate E.
  - destruct (vertices_to_start_loop V_dec vid PM pred fuel u) as [l0|x|] eqn:E0; try discriminate H. injection H as <-. destruct (IH u l0 E0) as ((l' & ->) & Hadj).
    split; [eauto|]. intros l1 x y l2 E. destruct l1 as [|a l1]; cbn in E; injection E; [intros <- <- <-; exact ne|]. intros E1 <-. eapply Hadj; exact E1.
Qed.

Lemma from_start_adjacent {V I} (V_dec : forall a b : V, {a = b} + {a <> b}) (vid : V -> I) (PM : PMap I V) pred fuel v l l1 x y l2 :
  iter_vertices_from_start V_dec vid PM pred fuel v = POk l -> l = l1 ++ x :: y :: l2 -> x <> y.
Proof.
  unfold iter_vertices_from_start, iter_vertices_to_start. destruct (paths_contains vid PM pred v); [|discriminate].
  destruct (vertices_to_start_loop V_dec vid PM pred fuel v) as [r|e|] eqn:E; try discriminate. cbn. intros [= <-] H.
  destruct (loop_adjacent V_dec vid PM pred fuel v r E) as (_ & Hadj).
  intros ->. apply (Hadj (rev l2) y y (rev l1)); [|reflexivity]. rewrite <- (rev_involutive r), H, rev_app_distr. cbn. rewrite <- !app_assoc. reflexivity.
Qed.

(** All sublists *)
Fixpoint subs (l : list nat) : list (list nat) := match l with [] => [[]] | a :: r => subs r ++ map (cons a) (subs r) end.
Lemma subs_self l : In l (subs l).
Proof. induction l; cbn; auto. apply in_or_app. right. apply in_map. exact IHl. Qed.
Lemma subs_without w : forall l t, In t (subs l) -> In (set_without w t) (subs l).
Proof.
  induction l as [|a l IH]; cbn [subs]; intros t H.
  - destruct H as [<-|[]]. left. reflexivity.
  - apply in_app_or in H. destruct H as [H|H]; [apply in_or_app; left; apply IH; exact H|].
    apply in_map_iff in H. destruct H as (t' & <- & Ht'). cbn. specialize (IH t' Ht'). destruct (negb (a =? w)); apply in_or_app; [right; apply in_map; exact IH|left; exact IH].
Qed.
Lemma subs_incl l : forall t x, In t (subs l) -> In x t -> In x l.
Proof.
  induction l as [|a l IH]; cbn [subs]; intros t x H Hx.
  - destruct H as [<-|[]]. exact Hx.
  - apply in_app_or in H. destruct H as [H|H]; [right; eapply IH; eauto|]. apply in_map_iff in H. destruct H as (t' & <- & Ht'). destruct Hx as [<-|Hx]; [left; reflexivity|right; eapply IH; eauto].
Qed.

Lemma without_in x y s : In y (set_without x s) <-> In y s /\ y <> x.
Proof. unfold set_without. rewrite filter_In, negb_true_iff, Nat.eqb_neq. reflexivity. Qed.
Lemma without_nodup x s : NoDup s -> NoDup (set_without x s).
Proof. apply NoDup_filter. Qed.
Lemma without_perm x s : NoDup s -> In x s -> Permutation (x :: set_without x s) s.
Proof.
  intros Hnd Hx. apply NoDup_Permutation; [constructor; [rewrite without_in; tauto|apply without_nodup; exact Hnd]|exact Hnd|].
  intros y. cbn. rewrite without_in. destruct (Nat.eq_dec x y) as [->|ne]; [tauto|]. split; [intros [?|[? ?]]; [congruence|assumption]|intros H; right; split; [exact H|congruence]].
Qed.

Section Proofs.
Variable graph : list (list Z).
Variable order : list nat -> list nat.
Hypothesis order_perm : forall s, Permutation (order s) s.
Notation next := (next_states graph order).
Notation N := (no_of_vertices graph).
Notation chain_ := (@chain tstate unit ZInfWeights next).
Definition vertices_of (p : list (tstate * option Z * unit)) : list nat := map (fun e => fst (fst (fst e))) p.
Lemma vertices_cons x w l p : vertices_of ((x, w, l) :: p) = fst x :: vertices_of p.
Proof. reflexivity. Qed.

Lemma next_in v s x w u : In (x, w, u) (next (v, s)) <-> exists t, (s = [] /\ t = 0 \/ In t s) /\ x = (t, set_without t s) /\ w = Some (entry graph v t) /\ u = tt.
Proof.
  unfold next_states. rewrite in_map_iff. split.
  - intros (t & E & Ht). injection E as <- <- <-. exists t. split; [|auto]. destruct s as [|a s]; [left; destruct Ht as [<-|[]]; auto|right]. eapply Permutation_in; [apply order_perm|exact Ht].
  - intros (t & Ht & -> & -> & ->). exists t. split; [reflexivity|]. destruct s as [|a s]; [destruct Ht as [[_ ->]|[]]; left; reflexivity|]. destruct Ht as [[? ?]|Ht]; [discriminate|]. eapply Permutation_in; [symmetry; apply order_perm|exact Ht].
Qed.

Lemma chain_split v s n w l p x : chain_ (v, s) ((n, w, l) :: p) x -> exists t, (s = [] /\ t = 0 \/ In t s) /\ n = (t, set_without t s) /\ w = Some (entry graph v t) /\ chain_ n p x.
Proof. intros H. inversion H; subst. match goal with K : In _ _ |- _ => apply next_in in K; destruct K as (t & ? & ? & ? & _) end. exists t. auto. Qed.

(** From a state without vertices to visit, only the state (0, []) is reached. *)
Lemma chain_after p : forall v x, chain_ (v, []) p x -> p = [] /\ x = (v, []) \/ x = (0, []) /\ exists e p', p = e :: p' /\ fst (fst e) = (0, []) /\ chain_ (0, []) p' x.
Proof.
  induction p as [|[[n w] l] p IH]; intros v x H.
  - inversion H; subst. left. auto.
  - right. apply chain_split in H. destruct H as (t & Ht & -> & -> & H). destruct Ht as [[_ ->]|[]]. cbn in H.
    split; [destruct (IH 0 x H) as [[_ ->]|[-> _]]; reflexivity|]. exists ((0, []), Some (entry graph v 0), l), p. auto.
Qed.

(** Chains visit the vertices to visit, and then vertex 0. *)
Lemma chain_shape p : forall v s x, NoDup s -> chain_ (v, s) p x ->
  Permutation (vertices_of p ++ snd x) s /\ (p = [] \/ exists q, vertices_of p = q ++ [fst x]) \/
  exists p1 p2 q, p = p1 ++ p2 /\ vertices_of p1 = q ++ [0] /\ Permutation q s /\ chain_ (v, s) p1 (0, []) /\ chain_ (0, []) p2 x.
Proof.
  induction p as [|[[n w] l] p IH]; intros v s x Hnd H.
  - inversion H; subst. left. split; [apply Permutation_refl|left; reflexivity].
  - pose proof H as H0. apply chain_split in H. destruct H as (t & Ht & -> & -> & H). destruct s as [|a s'].
    + right. destruct Ht as [[_ ->]|[]]. cbn in H. exists [((0, []), Some (entry graph v 0), l)], p, []. split; [reflexivity|]. split; [reflexivity|]. split; [constructor|]. split; [|exact H].
      econstructor; [|constructor]. apply next_in. exists 0. destruct l. auto.
    + destruct Ht as [[? _]|Ht]; [discriminate|]. set (s := a :: s') in *. destruct (IH t (set_without t s) x (without_nodup t s Hnd) H) as [[Hp Hl]|(p1 & p2 & q & -> & Hv & Hq & H1 & H2)].
      * left. split; [rewrite vertices_cons; cbn [fst app]; etransitivity; [apply perm_skip; exact Hp|apply without_perm; auto]|]. right. rewrite vertices_cons; cbn [fst]. destruct Hl as [->|(q & ->)]; [|exists (t :: q); reflexivity]. inversion H; subst. exists []. reflexivity.
      * right. exists (((t, set_without t s), Some (entry graph v t), l) :: p1), p2, (t :: q). split; [reflexivity|]. split; [rewrite vertices_cons; rewrite Hv; reflexivity|]. split; [etransitivity; [apply perm_skip; exact Hq|apply without_perm; auto]|].
        split; [|exact H2]. inversion H0; subst. econstructor; eassumption.
Qed.

Notation weight := (fun a b => Some (entry graph a b)).
Lemma chain_length p : forall v s x d, chain_ (v, s) p x -> exists r, route_length weight (v :: vertices_of p) = Some r /\ chain_weight ZInfWeights (Some d) p = Some (d + r)%Z.
Proof.
  induction p as [|[[n w] l] p IH]; intros v s x d H.
  - exists 0%Z. split; [reflexivity|]. cbn. rewrite Z.add_0_r. reflexivity.
  - apply chain_split in H. destruct H as (t & Ht & -> & -> & H). destruct (IH t (set_without t s) x (entry graph v t + d)%Z H) as (r & Hr & Hc).
    exists (entry graph v t + r)%Z. change (vertices_of ((t, set_without t s, Some (entry graph v t), l) :: p)) with (t :: vertices_of p). split.
    + change (match route_length weight (t :: vertices_of p) with Some y => Some (entry graph v t + y)%Z | None => None end = Some (entry graph v t + r)%Z). rewrite Hr. reflexivity.
    + change (chain_weight ZInfWeights (Some (entry graph v t + d)%Z) p = Some (d + (entry graph v t + r))%Z). rewrite Hc. f_equal. lia.
Qed.

Lemma tour_chain l : forall v s, NoDup s -> Permutation l s -> exists p, chain_ (v, s) p (0, []) /\ vertices_of p = l ++ [0].
Proof.
  induction l as [|t l IH]; intros v s Hnd Hp.
  - apply Permutation_nil in Hp. subst s. exists [((0, []), Some (entry graph v 0), tt)]. split; [|reflexivity]. econstructor; [|constructor]. apply next_in. exists 0. auto.
  - assert (Ht : In t s) by (eapply Permutation_in; [exact Hp|left; reflexivity]).
    destruct (IH t (set_without t s) (without_nodup t s Hnd)) as (p & Hc & Hv); [apply Permutation_cons_inv with t; etransitivity; [exact Hp|symmetry; apply without_perm; auto]|].
    exists (((t, set_without t s), Some (entry graph v t), tt) :: p). split; [|rewrite vertices_cons; rewrite Hv; reflexivity]. econstructor; [|exact Hc]. apply next_in. exists t. auto.
Qed.

Lemma chain_last p : forall s x, chain_ s p x -> exists l1, chain_vertices s p = l1 ++ [x].
Proof.
  induction p as [|[[n w] l] p IH]; intros s x H; inversion H; subst; [exists []; reflexivity|].
  destruct (IH n x) as (l1 & K); [assumption|]. exists (s :: l1). unfold chain_vertices in *. cbn in *. rewrite K. reflexivity.
Qed.

(** The graph on states *)
Definition E (i : tstate) (w : option Z) (j : tstate) : Prop := In (w, j) (map (fun e => (snd (fst e), fst (fst e))) (next i)).
Notation St := (is_start (fun s : tstate => s) [start_state graph]).
Lemma E_presents : presents_weighted ZInfWeights (fun s : tstate => s) next E.
Proof. intros u w j. reflexivity. Qed.
Lemma E_edge i w j : E i w j <-> In (j, w, tt) (next i).
Proof. unfold E. rewrite in_map_iff. split; [intros ([[j' w'] []] & [= <- <-] & H); exact H|intros H; exists (j, w, tt); auto]. Qed.
Lemma chain_wwalk s p x : chain_ s p x -> wwalk ZInfWeights E s (map (fun e => (snd (fst e), fst (fst e))) p) x.
Proof. induction 1 as [|s n w [] p v H _ IH]; cbn; [constructor|]. econstructor; [apply E_edge; exact H|exact IH]. Qed.
Lemma chain_walk_weight (p : list (tstate * option Z * unit)) : forall d, fold_left (fun d e => w_add ZInfWeights (fst e) d) (map (fun e => (snd (fst e), fst (fst e))) p) d = chain_weight ZInfWeights d p.
Proof. induction p as [|e p IH]; intros d; cbn; [reflexivity|apply IH]. Qed.

Hypothesis square : forall row, In row graph -> length row = length graph.
Hypothesis weights_nonneg : forall row w, In row graph -> In w row -> (0 <= w)%Z.
Hypothesis two : 2 <= length graph.

Lemma entry_nonneg a b : (0 <= entry graph a b)%Z.
Proof.
  unfold entry. destruct (nth_in_or_default a graph []) as [H|H]; [|rewrite H; destruct b; cbn; lia].
  destruct (nth_in_or_default b (nth a graph []) 0%Z) as [K|K]; [eapply weights_nonneg; eassumption|rewrite K; lia].
Qed.
Lemma E_nonneg : nonnegative ZInfWeights E.
Proof. intros i w j H. apply E_edge in H. destruct i as (v & s). apply next_in in H. destruct H as (t & _ & _ & -> & _). cbn. apply Z.leb_le, entry_nonneg. Qed.

Lemma wwalk_states s p x : wwalk ZInfWeights E s p x -> let ok := fun x : tstate => fst x < N /\ In (snd x) (subs (seq 1 (N - 1))) in ok s -> ok x.
Proof.
  induction 1 as [|i w j p k H _ IH]; cbn zeta; [auto|]. intros (H1 & H2). apply IH. apply E_edge in H. destruct i as (v & s). apply next_in in H. destruct H as (t & Ht & -> & _ & _). cbn in *. split; [|apply subs_without; exact H2].
  destruct Ht as [[_ ->]|Ht]; [lia|]. eapply subs_incl in Ht; [|exact H2]. apply in_seq in Ht. lia.
Qed.
Lemma all_states : exists l, forall x, wreachable ZInfWeights E St x -> In x l.
Proof.
  exists (list_prod (seq 0 N) (subs (seq 1 (N - 1)))). intros (v & t) (s & p & Hs & Hw). apply wwalk_states in Hw.
  - cbn in Hw. destruct Hw as (H1 & H2). apply in_prod; [apply in_seq; lia|exact H2].
  - destruct Hs as [<-|[]]. cbn. unfold no_of_vertices. split; [lia|apply subs_self].
Qed.

Variable DM : DMap tstate (option Z) None.
Variable PM : PMap tstate tstate.
Variable LM : PMap tstate unit.
Notation run_ n := (dij_run (fun s : tstate => s) ZInfWeights DM PM LM next demo_options [start_state graph] None None n).
Notation demo := (demo_traveling_salesman graph order DM PM LM).

Lemma start_only s : St s -> s = start_state graph.
Proof. intros [<-|[]]. reflexivity. Qed.
Lemma distinct : starts_distinct (fun s : tstate => s) [start_state graph].
Proof. intros a b _ _ H. exact H. Qed.

(** A report for the state (0, []) is the one with depth N; the stored path is a tour *)
Lemma report_tour n os r rep : run_ n = (os, r) -> In rep os -> dr_vertex rep = (0, []) \/ dr_depth rep = N ->
  dr_vertex rep = (0, []) /\ dr_depth rep = N /\ exists path len, dr_distance rep = Some len /\
   iter_vertices_from_start tstate_dec (fun s => s) PM (dr_pred rep) (S N) (dr_vertex rep) = POk path /\ is_tour weight (seq 0 N) 0 (map fst path) len.
Proof.
  intros HR Hin HV.
  destruct (dij_paths tstate_dec (fun s : tstate => s) ZInfWeights DM PM LM next demo_options eq_refl E E_presents E_nonneg [start_state graph] None n os r HR tstate_dec eq_refl distinct) as (HP & _).
  destruct (HP rep Hin) as (s0 & p & [<-|[]] & Hc & Hw & Hl & (Hd & _) & _). clear HP.
  destruct Hd as (_ & Hd).
  destruct (dij_reported tstate_dec (fun s : tstate => s) ZInfWeights DM PM LM next demo_options eq_refl E E_presents E_nonneg [start_state graph] None n os r HR) as (_ & Hns & _).
  destruct (Hns rep Hin) as (Hns' & _). clear Hns.
  assert (Hp0 : p <> []). { intros ->. inversion Hc as [s Hs K|]. apply Hns'. left. congruence. }
  assert (HN : N = S (length (seq 1 (N - 1)))) by (rewrite seq_length; unfold no_of_vertices in *; lia).
  unfold start_state in Hc. destruct (chain_shape p 0 (seq 1 (N - 1)) (dr_vertex rep) (seq_NoDup _ _) Hc) as [(Hperm & Hlast)|(p1 & p2 & q & -> & Hv & Hq & H1 & H2)].
  - exfalso. destruct HV as [HV|HV].
    + rewrite HV in *. cbn in Hperm. rewrite app_nil_r in Hperm. destruct Hlast as [?|(q & Hq)]; [auto|]. rewrite Hq in Hperm.
      assert (K : In 0 (seq 1 (N - 1))) by (eapply Permutation_in; [exact Hperm|apply in_or_app; right; left; reflexivity]). apply in_seq in K. lia.
    + apply Permutation_length in Hperm. rewrite app_length in Hperm. assert (Lp : length (vertices_of p) = dr_depth rep) by (rewrite <- Hl; apply map_length). lia.
  - assert (Hl1 : length p1 = N).
    { pose proof (Permutation_length Hq) as K. assert (Lp : length (vertices_of p1) = length p1) by apply map_length. rewrite Hv, app_length in Lp. cbn in Lp. etransitivity; [symmetry; exact Lp|]. lia. }
    assert (Hp2 : p2 = []).
    { destruct p2 as [|e p2]; [reflexivity|exfalso]. destruct (chain_after (e :: p2) 0 _ H2) as [[? _]|(_ & e' & p' & [= <- <-] & He & _)]; [discriminate|].
      destruct (Hd (length (chain_vertices (start_state graph) (p1 ++ e :: p2))) (le_n _)) as (Hit & _).
      assert (Hlastv : exists l1, chain_vertices (start_state graph) p1 = l1 ++ [(0, [])]).
      { exact (chain_last _ _ _ H1). }
      destruct Hlastv as (l1 & Hl1'). refine (from_start_adjacent _ _ _ _ _ _ _ l1 (0, []) (0, []) (map (fun e => fst (fst e)) p2) Hit _ eq_refl).
      unfold chain_vertices in *. rewrite map_app. destruct e as [[ne we] le]. cbn in He. rewrite He. cbn [map fst]. rewrite app_comm_cons, Hl1'. rewrite <- app_assoc. reflexivity. }
    subst p2. rewrite app_nil_r in *. assert (HV' : dr_vertex rep = (0, [])) by (inversion H2; congruence).
    split; [exact HV'|]. split; [lia|].
    destruct (chain_length p1 0 (seq 1 (N - 1)) (0, []) 0%Z H1) as (len & Hlen & Hcw).
    exists (chain_vertices (start_state graph) p1), len. split; [rewrite <- Hw; exact Hcw|]. split.
    + destruct (Hd (S N)) as (Hit & _); [unfold chain_vertices; cbn [length]; rewrite map_length; apply le_n_S, Nat.eq_le_incl; exact Hl1|exact Hit].
    + exists q. assert (Em : map fst (chain_vertices (start_state graph) p1) = 0 :: vertices_of p1) by (unfold chain_vertices, vertices_of; cbn; rewrite map_map; reflexivity).
      rewrite Em, Hv. split; [reflexivity|]. split; [|rewrite <- Hv; exact Hlen]. replace N with (S (N - 1)) by lia. cbn [seq]. apply perm_skip. exact Hq.
Qed.

Lemma optimal n os r rep len : run_ n = (os, r) -> In rep os -> dr_vertex rep = (0, []) -> dr_distance rep = Some len ->
  forall route len', is_tour weight (seq 0 N) 0 route len' -> (len <= len')%Z.
Proof.
  intros HR Hin HV Hd route len' (others & -> & Hp & Hr).
  destruct (dij_distances tstate_dec (fun s : tstate => s) ZInfWeights DM PM LM next demo_options eq_refl E E_presents E_nonneg [start_state graph] None n os r HR) as (HD & _).
  destruct (HD rep Hin) as (_ & Hmin). rewrite HV, Hd in Hmin.
  assert (Hp' : Permutation others (seq 1 (N - 1))) by (apply Permutation_cons_inv with 0; replace N with (S (N - 1)) in Hp by (unfold no_of_vertices in *; lia); cbn [seq] in Hp; exact Hp).
  destruct (tour_chain others 0 _ (seq_NoDup _ _) Hp') as (p & Hc & Hv).
  destruct (chain_length p 0 _ _ 0%Z Hc) as (x & Hx & Hcw).
  assert (K := Hmin (start_state graph) _ (or_introl eq_refl) (chain_wwalk _ _ _ Hc)).
  unfold walk_weight in K. rewrite chain_walk_weight in K. change (w_zero ZInfWeights) with (Some 0%Z) in K. rewrite Hcw in K. cbn in K. apply Z.leb_le in K.
  rewrite Hv in Hx. change (0 :: others ++ [0]) with (0 :: (others ++ [0])) in Hr. rewrite Hr in Hx. injection Hx as ->. lia.
Qed.

Lemma ended_reports n os s : run_ n = (os, Ended s) -> exists rep, In rep os /\ dr_vertex rep = (0, []).
Proof.
  intros HR.
  destruct (dij_reported tstate_dec (fun s : tstate => s) ZInfWeights DM PM LM next demo_options eq_refl E E_presents E_nonneg [start_state graph] None n os (Ended s) HR) as (_ & _ & Hall).
  destruct (tour_chain (seq 1 (N - 1)) 0 _ (seq_NoDup _ _) (Permutation_refl _)) as (p & Hc & _).
  destruct (Hall s eq_refl (0, [])) as [K|K].
  - exists (start_state graph), (map (fun e => (snd (fst e), fst (fst e))) p). split; [left; reflexivity|]. apply chain_wwalk. exact Hc.
  - apply start_only in K. unfold start_state in K. injection K as K. apply (f_equal (@length nat)) in K. rewrite seq_length in K. unfold no_of_vertices in *. cbn in K. lia.
  - unfold dij_ids in K. apply in_map_iff in K. destruct K as (rep & Hv & Hin). exists rep. auto.
Qed.

Lemma no_overflow n os s : run_ n = (os, Raised OverflowErrorDistance s) -> False.
Proof.
  intros HR.
  destruct (dij_overflow tstate_dec (fun s : tstate => s) ZInfWeights DM PM LM next demo_options eq_refl E E_presents E_nonneg [start_state graph] None n os _ HR) as (_ & _ & HO & _).
  destruct (HO s eq_refl) as (i & d & w & j & ((s0 & p & Hs & Hw & Hd) & _) & HE & K).
  assert (Hfin : exists z, d = Some z).
  { rewrite <- Hd. unfold walk_weight. clear - Hw order_perm. change (w_zero ZInfWeights) with (Some 0%Z). generalize 0%Z. induction Hw as [|i w j p k H _ IH]; intros z; [cbn; eauto|].
    apply E_edge in H. destruct i as (v & t). apply next_in in H. destruct H as (x & _ & _ & -> & _). cbn. apply IH. }
  destruct Hfin as (z & ->). apply E_edge in HE. destruct i as (v & t). apply next_in in HE. destruct HE as (x & _ & _ & -> & _). discriminate K.
Qed.

Lemma find_report n os r rep : run_ n = (os, r) -> In rep os -> dr_vertex rep = (0, []) -> exists d q, demo n = DFound d q.
Proof.
  intros HR Hin HV. destruct (report_tour n os r rep HR Hin (or_introl HV)) as (_ & Hd & _). unfold demo_traveling_salesman. rewrite HR.
  destruct (find (fun rep0 => dr_depth rep0 =? N) os) as [rep0|] eqn:F; [eauto|]. exfalso. eapply find_none in F; [|exact Hin]. cbn in F. apply Nat.eqb_neq in F. auto.
Qed.

Lemma demo_sound n d q : demo n = DFound d q -> exists len path, d = Some len /\ q = POk path /\
  is_tour weight (seq 0 N) 0 path len /\ forall route len', is_tour weight (seq 0 N) 0 route len' -> (len <= len')%Z.
Proof.
  unfold demo_traveling_salesman. destruct (run_ n) as [os r] eqn:HR. destruct (find (fun rep => dr_depth rep =? N) os) as [rep|] eqn:F; [|destruct r; discriminate].
  apply find_some in F. destruct F as (Hin & Hd). apply Nat.eqb_eq in Hd. intros [= <- <-].
  destruct (report_tour n os r rep HR Hin (or_intror Hd)) as (HV & _ & path & len & Hlen & Hit & Ht). exists len, (map fst path). split; [exact Hlen|]. split; [rewrite Hit; reflexivity|]. split; [exact Ht|]. eapply optimal; eauto.
Qed.

Lemma demo_ends : exists n d q, demo n = DFound d q.
Proof.
  destruct all_states as (l & Hl).
  destruct (dij_plain_terminates tstate_dec (fun s : tstate => s) ZInfWeights DM PM LM next demo_options eq_refl E E_presents E_nonneg [start_state graph] l Hl) as (n & os & s & [HR|HR]).
  - destruct (ended_reports n os s HR) as (rep & Hin & HV). exists n. eapply find_report; eauto.
  - exfalso. eapply no_overflow; eauto.
Qed.

Lemma demo_no_error n x : demo n <> DRaised x.
Proof.
  intros H. destruct demo_ends as (m & d & q & Hm). unfold demo_traveling_salesman in *. destruct (run_ n) as [os r] eqn:HR. destruct (run_ m) as [os' r'] eqn:HM.
  destruct (find (fun rep => dr_depth rep =? N) os) as [rep|] eqn:F; [discriminate|].
  destruct (find (fun rep => dr_depth rep =? N) os') as [rep|] eqn:F'; [|destruct r'; discriminate]. apply find_some in F'. destruct F' as (Hin & Hd).
  unfold dij_run in HR, HM. destruct (le_lt_dec n m) as [Hle|Hlt].
  - assert (os' = os). { destruct r as [s|s|y s]; [discriminate| |]; [eapply run_ended_mono in HR|eapply run_raised_mono in HR]; try exact Hle; rewrite HR in HM; injection HM as <- _; reflexivity. }
    subst os'. eapply find_none in F; [|exact Hin]. cbn in F. congruence.
  - destruct (run_prefix (dij_step (fun s : tstate => s) ZInfWeights DM PM LM next demo_options) m n (dij_init (fun s : tstate => s) ZInfWeights DM PM LM demo_options [start_state graph] None None)) as (ext & Hext); [lia|].
    rewrite HR, HM in Hext. cbn in Hext. subst os. eapply find_none in F; [|apply in_or_app; left; exact Hin]. cbn in F. congruence.
Qed.
End Proofs.
