(** Proofs about the model of the minimum spanning tree traversal. *)
From Coq Require Import List ZArith Bool Arith Lia Permutation Sorted.
From Verif Require Import Machine MachineMore GearSpec Spec TraversalSpec Common CommonProofs PathsModel PathsSpec PathsProofs PathsExact
  Weight WeightSpec HeapModel HeapProofs MSTModel MSTSpec MSTGraph.
Import ListNotations.

Section MSTProofs.
Context {V I L : Type}.
Variable I_dec : forall a b : I, {a = b} + {a <> b}.
Variable vid : V -> I.
Variable WT : Weights.
Notation W := (w_t WT).
Notation leb := (w_leb WT).
Variable VS : VSet I.
Variable PM : PMap I V.
Variable LM : PMap I L.
Variable next : V -> list (V * W * L).
Variable cfg : mst_cfg.
Variable E : I -> W -> I -> Prop.
Hypothesis Hnext : presents_weighted WT vid next E.
Variable starts : list V.
Notation St := (is_start vid starts).
Notation state := (@mst_state V I L WT VS PM LM).
Notation report := (@mst_report V I L WT PM LM).
Notation step := (mst_step vid WT VS PM LM next cfg).
Notation init := (mst_init vid WT VS PM LM cfg starts).
Notation mem i s := (vs_mem VS i s).

Definition mst_edges (os : list report) : list (I * W * I) :=
  flat_map (fun rep => match mr_edge rep with Some (u, (n, w, l)) => [(vid u, w, vid n)] | None => [] end) os.

Definition sids : list I := map vid starts.

Definition reported_edge (os : list report) (u n : V) (w : W) (l : L) : Prop :=
  exists rep, In rep os /\ mr_edge rep = Some (u, (n, w, l)).

(** [u] is a start vertex or has been reported. *)
Definition attached (os : list report) (u : V) : Prop := In u starts \/ In u (map mr_vertex os).

(** The paths container holds a path for [u] that uses reported edges. *)
Definition has_path (os : list report) (vis : vs_t VS) (pred : pm_t PM) (labels : pm_t LM) (u : V) : Prop :=
  exists s0 p, In s0 starts /\ chain next s0 p u /\
    ppath vid PM pred u (rev (chain_vertices s0 p)) /\
    (forall x, In x (chain_vertices s0 p) -> mem (vid x) vis = true) /\
    (forall a b l, In (a, b, l) (chain_edges s0 p) ->
       (exists w, reported_edge os a b w l) /\ (mc_labeled cfg = true -> pm_get LM (vid b) labels = Some l)).

Record MInv (os : list report) (s : state) : Prop := {
  mi_visited : forall i, mem i (m_visited s) = true <-> (St i \/ In i (mst_ids vid os));
  mi_edge : forall rep, In rep os -> exists u w l, mr_edge rep = Some (u, (mr_vertex rep, w, l)) /\
     In (mr_vertex rep, w, l) (next u);
  mi_prim : prim WT E sids (mst_edges os);
  mi_heap : forall e, In e (m_heap s) -> exists u n w l, e_val e = (u, (n, w, l)) /\ e_key e = w /\
     In (n, w, l) (next u) /\ attached os u;
  mi_sorted : heap_sorted WT (m_heap s);
  mi_cross : forall i w j, mem i (m_visited s) = true -> E i w j -> mem j (m_visited s) = false ->
     (exists e u n l, In e (m_heap s) /\ e_val e = (u, (n, w, l)) /\ vid n = j) \/
     (exists v rest n l, m_pc s = MEdges WT v rest /\ In (n, w, l) rest /\ vid n = j);
  mi_pc : match m_pc s with MStart _ _ => False | MLoop _ => True
          | MEdges _ v rest => attached os v /\ forall e, In e rest -> In e (next v) end;
  mi_paths : mc_build_paths cfg = true -> starts_distinct vid starts -> forall u, attached os u ->
     has_path os (m_visited s) (m_pred s) (m_labels s) u
}.

Lemma mst_edges_app o1 o2 : mst_edges (o1 ++ o2) = mst_edges o1 ++ mst_edges o2.
Proof. apply flat_map_app. Qed.

Lemma edges_ids os : (forall rep, In rep os -> exists u w l, mr_edge rep = Some (u, (mr_vertex rep, w, l)) /\
     In (mr_vertex rep, w, l) (next u)) -> map snd (mst_edges os) = mst_ids vid os.
Proof.
  induction os as [|rep os IH]; intros H; [reflexivity|]. simpl.
  destruct (H rep (or_introl eq_refl)) as (u & w & l & -> & _). simpl. f_equal. apply IH. intros. apply H. now right.
Qed.

Lemma mst_entries_in no (v : V) (es : list (V * W * L)) (e : @mst_entry V L WT) : In e (mst_entries WT no v es) -> exists n w l, e_val e = (v, (n, w, l)) /\ e_key e = w /\
  In (n, w, l) es.
Proof.
  revert no. induction es as [|[[n w] l] es IH]; simpl; intros no Hin; [contradiction|].
  destruct Hin as [<-|Hin]; [exists n, w, l; auto|]. destruct (IH _ Hin) as (n' & w' & l' & H1 & H2 & H3).
  exists n', w', l'. auto.
Qed.
Lemma in_mst_entries no (v : V) (es : list (V * W * L)) n w l : In (n, w, l) es -> exists e, In e (mst_entries WT no v es) /\ e_val e = (v, (n, w, l)).
Proof.
  revert no. induction es as [|[[n' w'] l'] es IH]; simpl; intros no Hin; [contradiction|].
  destruct Hin as [Heq|Hin].
  - injection Heq as -> -> ->. eexists. split; [left; reflexivity|reflexivity].
  - destruct (IH (no + 1)%Z Hin) as (e & H1 & H2). eauto.
Qed.
Lemma mst_start_entries_in (l : list V) : forall no (e : @mst_entry V L WT), In e (mst_start_entries WT next no l) ->
  exists v n w lb, In v l /\ e_val e = (v, (n, w, lb)) /\ e_key e = w /\ In (n, w, lb) (next v).
Proof.
  induction l as [|v l IH]; simpl; intros no e Hin; [contradiction|]. apply in_app_iff in Hin. destruct Hin as [Hin|Hin].
  - apply mst_entries_in in Hin. destruct Hin as (n & w & lb & H). exists v, n, w, lb. tauto.
  - destruct (IH _ _ Hin) as (v' & n & w & lb & H1 & H2). exists v', n, w, lb. tauto.
Qed.
Lemma in_mst_start_entries (l : list V) v n w lb : In v l -> In (n, w, lb) (next v) -> forall no,
  exists e, In e (mst_start_entries WT next no l) /\ e_val e = (v, (n, w, lb)).
Proof.
  intros Hv Hn. induction l as [|v' l IH]; simpl; intros no; [contradiction|]. destruct Hv as [->|Hv].
  - destruct (in_mst_entries no v (next v) n w lb Hn) as (e & H1 & H2). exists e. rewrite in_app_iff. auto.
  - destruct (IH Hv (no + Z.of_nat (length (next v')))%Z) as (e & H1 & H2). exists e. rewrite in_app_iff. auto.
Qed.

Lemma edge_of u n w l : In (n, w, l) (next u) -> E (vid u) w (vid n).
Proof. intros H. apply Hnext. apply in_map_iff. exists (n, w, l). auto. Qed.
Lemma edge_inv u w j : E (vid u) w j -> exists n l, In (n, w, l) (next u) /\ vid n = j.
Proof.
  intros H. apply Hnext in H. apply in_map_iff in H. destruct H as ([[n w'] l] & Heq & Hin).
  simpl in Heq. injection Heq as -> <-. eauto.
Qed.

Lemma MInv_begin s0 lim : m_visited s0 = vs_of_list VS (vs_empty VS) (map vid starts) ->
  m_pred s0 = create_predecessors vid PM (mc_build_paths cfg) starts ->
  MInv [] (mst_begin WT VS PM LM next s0 starts lim).
Proof.
  intros Hv Hp. constructor; simpl.
  - intros i. rewrite Hv, vs_mem_of_list, vs_mem_empty. unfold is_start. intuition discriminate.
  - contradiction.
  - constructor.
  - intros e Hin. apply (proj1 (heapify_in WT _ _)) in Hin. apply mst_start_entries_in in Hin.
    destruct Hin as (v & n & w & lb & H1 & H2 & H3 & H4). exists v, n, w, lb. repeat split; auto. now left.
  - apply heapify_sorted.
  - intros i w j Hi HE Hj. left. rewrite Hv, vs_mem_of_list, vs_mem_empty in Hi.
    destruct Hi as [Hi|Hi]; [|discriminate]. apply in_map_iff in Hi. destruct Hi as (v & <- & Hin).
    apply edge_inv in HE. destruct HE as (n & l & Hn & Hnj).
    destruct (in_mst_start_entries starts v n w l Hin Hn 0%Z) as (e & H1 & H2).
    exists e, v, n, l. split; [|auto]. apply (heapify_in WT). auto.
  - exact Logic.I.
  - intros Hb Hd u [Hu|[]]. exists u, []. split; [auto|]. split; [constructor|]. split; [|split].
    + simpl. apply pp_start. rewrite Hp. rewrite Hb. apply create_predecessors_start; auto.
    + simpl. intros x [<-|[]]. rewrite Hv, vs_mem_of_list. left. now apply in_map.
    + simpl. contradiction.
Qed.

Lemma mem_false i s : mem i s = false <-> ~ mem i s = true.
Proof. apply vs_mem_false_iff. Qed.

Lemma attached_mono os o u : attached os u -> attached (os ++ o) u.
Proof. intros [H|H]; [left; auto|right]. rewrite map_app, in_app_iff. auto. Qed.

Lemma attached_visited os s u : MInv os s -> attached os u -> mem (vid u) (m_visited s) = true.
Proof.
  intros HI Hu. apply (mi_visited _ _ HI). destruct Hu as [Hu|Hu].
  - left. apply in_map. auto.
  - right. unfold mst_ids. rewrite <- (map_map mr_vertex vid). apply in_map. auto.
Qed.

Lemma sids_visited os s i : MInv os s -> (In i (rev (map snd (mst_edges os)) ++ sids) <-> mem i (m_visited s) = true).
Proof.
  intros HI. rewrite (mi_visited _ _ HI), in_app_iff, <- in_rev, (edges_ids os (mi_edge _ _ HI)).
  unfold sids, is_start. tauto.
Qed.

Lemma has_path_mono os o vis vis' pred pred' labels labels' u :
  (forall i, mem i vis = true -> mem i vis' = true /\ pm_get PM i pred' = pm_get PM i pred /\
     pm_get LM i labels' = pm_get LM i labels) ->
  has_path os vis pred labels u -> has_path (os ++ o) vis' pred' labels' u.
Proof.
  intros Hm (s0 & p & H1 & H2 & H3 & H4 & H5). exists s0, p. split; [auto|]. split; [auto|]. split; [|split].
  - eapply ppath_ext; [exact H3|]. intros x Hx. apply in_rev in Hx. apply (Hm (vid x)). auto.
  - intros x Hx. apply (Hm (vid x)). auto.
  - intros a b l Hin. destruct (H5 a b l Hin) as [(w & rep & Hr & He) Hl]. split.
    + exists w, rep. rewrite in_app_iff. auto.
    + intros Hlab. rewrite <- (Hl Hlab). apply (Hm (vid b)). apply H4.
      assert (Hb : In (a, b) (pairs (chain_vertices s0 p))).
      { rewrite <- (chain_edges_fst WT p s0). apply in_map_iff. exists (a, b, l). auto. }
      revert Hb. generalize (chain_vertices s0 p). clear. intros l0. induction l0 as [|x l0 IH]; [contradiction|].
      destruct l0 as [|y l0]; [contradiction|]. intros Hb. destruct Hb as [Heq|Hb].
      * injection Heq as -> ->. simpl. auto.
      * right. apply IH. exact Hb.
Qed.

Lemma MInv_stale os s k v e h : MInv os s -> m_pc s = MLoop WT -> m_heap s = (k, (v, e)) :: h ->
  mem (vid (fst (fst e))) (m_visited s) = true -> MInv os (m_set_heap WT VS PM LM s h).
Proof.
  intros HI Hpc Hh Hm. destruct HI as [H1 H2 H3 H4 H5 H6 H7 H8]. constructor; simpl; auto.
  - intros e' Hin. apply H4. rewrite Hh. now right.
  - rewrite Hh in H5. inversion H5; auto.
  - intros i w j Hi HE Hj. destruct (H6 i w j Hi HE Hj) as [(e' & u & n & l & Hin & He & Hn)|H]; [left|right; auto].
    exists e', u, n, l. split; [|auto]. rewrite Hh in Hin. destruct Hin as [<-|Hin]; auto. simpl in He.
    injection He as -> ->. simpl in Hm. congruence.
Qed.

Lemma MInv_choose os s k v e h lim : MInv os s -> m_pc s = MLoop WT -> m_heap s = (k, (v, e)) :: h ->
  mem (vid (fst (fst e))) (m_visited s) = false ->
  let s2 := mst_choose vid WT VS PM LM cfg (m_set_heap WT VS PM LM s h) v e in
  let rep := mst_observe WT VS PM LM (fst (fst e)) s2 in
  MInv (os ++ [rep]) (mst_expand WT VS PM LM next s2 (fst (fst e)) lim) /\ attached os v.
Proof.
  intros HI Hpc Hh Hm s2 rep. destruct e as [[n w] l]. simpl in Hm.
  assert (HI' := HI). destruct HI' as [H1 H2 H3 H4 H5 H6 H7 H8].
  destruct (H4 (k, (v, (n, w, l)))) as (u & n' & w' & l' & Hv & Hk & Hin & Hatt); [rewrite Hh; now left|].
  simpl in Hv. injection Hv as <- <- <- <-.
  assert (Hsids := sids_visited os s). 
  assert (Hvm : forall i, mem i (vs_add VS (vid n) (m_visited s)) = true <-> (i = vid n \/ mem i (m_visited s) = true)).
  { intros i. apply vs_mem_add. }
  assert (Hids : mst_ids vid (os ++ [rep]) = mst_ids vid os ++ [vid n]).
  { unfold mst_ids. rewrite map_app. reflexivity. }
  assert (Hkey : forall i w' j, mem i (m_visited s) = true -> E i w' j -> mem j (m_visited s) = false -> leb w w' = true).
  { intros i w' j Hi HE Hj. destruct (H6 i w' j Hi HE Hj) as [(e' & u' & n' & l' & Hin' & He & Hn)|(v' & rest & n' & l' & Hpc' & _)].
    - rewrite Hh in Hin'. unfold heap_sorted in H5. rewrite Hh in H5. destruct Hin' as [<-|Hin'].
      + simpl in He. injection He as <- <- <- <-. apply w_leb_refl.
      + inversion H5 as [|? ? _ HF]; subst. rewrite Forall_forall in HF. specialize (HF e' Hin').
        rewrite Hk in HF. replace w' with (e_key e'); auto.
        destruct (H4 e') as (u2 & n2 & w2 & l2 & He2 & Hk2 & _); [rewrite Hh; now right|]. rewrite He2 in He.
        injection He as <- <- <- <-. exact Hk2.
    - congruence. }
  split; [|exact Hatt]. constructor; simpl.
  - intros i. rewrite Hvm, H1, Hids, in_app_iff. simpl. intuition.
  - intros r Hr. apply in_app_iff in Hr. destruct Hr as [Hr|[<-|[]]]; auto. exists v, w, l. auto.
  - rewrite mst_edges_app. simpl. apply prim_snoc; auto.
    + intros i Hi. rewrite in_app_iff, <- in_rev. tauto.
    + apply Hsids; auto. eapply attached_visited; eauto.
    + rewrite Hsids by auto. now rewrite Hm.
    + eapply edge_of; eauto.
    + intros i' w' j' Hi' HE Hj'. rewrite Hsids in Hi', Hj' by auto. eapply Hkey; eauto. now apply mem_false.
  - intros e' Hin'. destruct (H4 e') as (u2 & n2 & w2 & l2 & He2 & Hk2 & Hn2 & Ha2); [rewrite Hh; now right|].
    exists u2, n2, w2, l2. split; [auto|]. split; [auto|]. split; [auto|]. now apply attached_mono.
  - unfold heap_sorted in *. rewrite Hh in H5. inversion H5; auto.
  - intros i w' j Hi HE Hj. apply mem_false in Hj. rewrite Hvm in Hi, Hj.
    assert (Hj2 : mem j (m_visited s) = false) by (apply mem_false; tauto).
    destruct (I_dec i (vid n)) as [->|Hne].
    + right. apply edge_inv in HE. destruct HE as (n2 & l2 & Hn2 & Hj3). exists n, (next n), n2, l2. auto.
    + left. destruct Hi as [Hi|Hi]; [contradiction|].
      destruct (H6 i w' j Hi HE Hj2) as [(e' & u' & n' & l' & Hin' & He & Hn)|(v' & rest & n' & l' & Hpc' & _)]; [|congruence].
      exists e', u', n', l'. split; [|auto]. rewrite Hh in Hin'. destruct Hin' as [<-|Hin']; auto.
      simpl in He. injection He as <- <- <- <-. subst j. tauto.
  - split; [|auto]. right. rewrite map_app, in_app_iff. right. left. reflexivity.
  - intros Hb Hd u2 Hu2.
    assert (Hm2 : forall i, mem i (m_visited s) = true -> mem i (vs_add VS (vid n) (m_visited s)) = true /\
      pm_get PM i (if mc_build_paths cfg then pm_set PM (vid n) v (m_pred s) else m_pred s) = pm_get PM i (m_pred s) /\
      pm_get LM i (if mc_build_paths cfg && mc_labeled cfg then pm_set LM (vid n) l (m_labels s) else m_labels s)
        = pm_get LM i (m_labels s)).
    { intros i Hi. assert (Hne : i <> vid n) by congruence. split; [apply Hvm; auto|]. split.
      - destruct (mc_build_paths cfg); auto. now apply pm_get_set_other.
      - destruct (mc_build_paths cfg && mc_labeled cfg); auto. now apply pm_get_set_other. }
    assert (Hu3 : attached os u2 \/ u2 = n).
    { destruct Hu2 as [Hu2|Hu2]; [left; left; auto|]. rewrite map_app, in_app_iff in Hu2.
      destruct Hu2 as [Hu2|[Hu2|[]]]; [left; right; auto|right; symmetry; exact Hu2]. }
    destruct Hu3 as [Hu3| ->].
    + eapply has_path_mono; [exact Hm2|]. apply H8; auto.
    + destruct (has_path_mono os [rep] _ _ _ _ _ _ v Hm2 (H8 Hb Hd v Hatt)) as (s0 & p & K1 & K2 & K3 & K4 & K5).
      exists s0, (p ++ [(n, w, l)]). split; [auto|]. split; [eapply chain_snoc; eauto|].
      assert (Hnv : n <> v). { intros ->. rewrite (attached_visited os s v) in Hm; auto. discriminate. }
      split; [|split].
      * rewrite chain_vertices_snoc, rev_app_distr. simpl. apply pp_step with v; auto.
        rewrite Hb. apply pm_get_set_same.
      * intros x Hx. rewrite chain_vertices_snoc, in_app_iff in Hx. destruct Hx as [Hx|[<-|[]]]; auto.
        apply Hvm. now left.
      * intros a b l2 Hin2. rewrite (chain_edges_snoc WT next s0 p v) in Hin2 by auto.
        apply in_app_iff in Hin2. destruct Hin2 as [Hin2|[Heq|[]]]; auto. injection Heq as <- <- <-. split.
        -- exists w, rep. rewrite in_app_iff. split; [right; now left|reflexivity].
        -- intros Hlab. rewrite Hb, Hlab. simpl. apply pm_get_set_same.
Qed.

Lemma MInv_done os s v : MInv os s -> m_pc s = MEdges WT v [] -> MInv os (m_set_pc WT VS PM LM s (MLoop WT)).
Proof.
  intros [H1 H2 H3 H4 H5 H6 H7 H8] Hpc. constructor; simpl; auto.
  intros i w j Hi HE Hj. destruct (H6 i w j Hi HE Hj) as [H|(v' & rest & n & l & Hpc' & Hin & Hn)]; [left; auto|].
  rewrite Hpc in Hpc'. injection Hpc' as <- <-. contradiction.
Qed.

Lemma MInv_skip os s v e rest : MInv os s -> m_pc s = MEdges WT v (e :: rest) ->
  mem (vid (fst (fst e))) (m_visited s) = true -> MInv os (m_set_pc WT VS PM LM s (MEdges WT v rest)).
Proof.
  intros [H1 H2 H3 H4 H5 H6 H7 H8] Hpc Hm. constructor; simpl; auto.
  - intros i w j Hi HE Hj. destruct (H6 i w j Hi HE Hj) as [H|(v' & rest' & n & l & Hpc' & Hin & Hn)]; [left; auto|].
    rewrite Hpc in Hpc'. injection Hpc' as <- <-. right. exists v, rest, n, l. split; [auto|]. split; [|auto].
    destruct Hin as [->|Hin]; auto. simpl in Hm. congruence.
  - rewrite Hpc in H7. destruct H7 as [Ha Hr]. split; auto. intros. apply Hr. now right.
Qed.

Lemma MInv_push os s v e rest : MInv os s -> m_pc s = MEdges WT v (e :: rest) ->
  MInv os (mst_push WT VS PM LM s v e rest).
Proof.
  intros [H1 H2 H3 H4 H5 H6 H7 H8] Hpc. rewrite Hpc in H7. destruct H7 as [Ha Hr]. destruct e as [[n w] l].
  constructor; simpl; auto.
  - intros e' Hin. apply heappush_in in Hin. destruct Hin as [->|Hin]; auto. exists v, n, w, l.
    repeat split; auto. apply Hr. now left.
  - now apply heappush_sorted.
  - intros i w' j Hi HE Hj. destruct (H6 i w' j Hi HE Hj) as [(e' & u & n' & l' & Hin & He & Hn)|(v' & rest' & n' & l' & Hpc' & Hin & Hn)].
    + left. exists e', u, n', l'. split; [apply (heappush_in WT); auto|auto].
    + rewrite Hpc in Hpc'. injection Hpc' as <- <-. destruct Hin as [Heq|Hin].
      * injection Heq as <- <- <-. left. exists (w, m_no s, (v, (n, w, l))), v, n, l. split; [apply (heappush_in WT); auto|auto].
      * right. exists v, rest, n', l'. auto.
  - split; auto. intros. apply Hr. now right.
Qed.

(** What holds for each report, [o1] are the reports before it. *)
Definition rep_ok (o1 : list report) (rep : report) : Prop :=
  (exists u w l, mr_edge rep = Some (u, (mr_vertex rep, w, l)) /\ attached o1 u) /\
  (mc_build_paths cfg = true -> starts_distinct vid starts ->
     exists vis, has_path (o1 ++ [rep]) vis (mr_pred rep) (mr_labels rep) (mr_vertex rep)).
Definition reps_ok (os : list report) : Prop := forall o1 rep o2, os = o1 ++ rep :: o2 -> rep_ok o1 rep.

Lemma reps_ok_snoc os rep : reps_ok os -> rep_ok os rep -> reps_ok (os ++ [rep]).
Proof.
  intros H1 H2 o1 r o2 Heq. destruct o2 as [|x o2' _] using rev_ind.
  - apply app_inj_tail in Heq. destruct Heq as [<- <-]. auto.
  - rewrite app_comm_cons, app_assoc in Heq. apply app_inj_tail in Heq. destruct Heq as [-> _]. eapply H1; eauto.
Qed.

Variable lim : option Z.
Definition TInv (os : list report) (s : state) : Prop :=
  (os = [] /\ s = init lim) \/ (MInv os s /\ reps_ok os).

(** What holds for all reports, whatever the outcome is. *)
Definition TRep (os : list report) : Prop :=
  reps_ok os /\ prim WT E sids (mst_edges os) /\
  (forall rep, In rep os -> exists u w l, mr_edge rep = Some (u, (mr_vertex rep, w, l)) /\ In (mr_vertex rep, w, l) (next u)).

Lemma TInv_TRep os s : TInv os s -> TRep os.
Proof.
  intros [[-> _]|[HI Hr]].
  - split; [intros [|? ?] ? ? Heq; discriminate|]. split; [constructor|contradiction].
  - split; [auto|]. split; [apply (mi_prim _ _ HI)|apply (mi_edge _ _ HI)].
Qed.

Lemma TInv_step os s : TInv os s ->
  match step s with
  | Go o s' => TInv (os ++ o) s'
  | Halt o s' => o = [] /\ s' = s /\ MInv os s /\ m_pc s = MLoop WT /\ m_heap s = []
  | Raise o x s' => x = RuntimeErrorLimit /\ TRep (os ++ o)
  end.
Proof.
  intros [[-> ->]|[HI Hr]].
  - unfold mst_step. simpl. destruct (mst_limit_start lim (length starts)).
    + right. split; [|intros [|? ?] ? ? Heq; discriminate]. simpl. apply MInv_begin; reflexivity.
    + split; [auto|]. apply (TInv_TRep [] (init lim)). left. auto.
  - unfold mst_step. destruct (m_pc s) as [sl| |v [|e rest]] eqn:Hpc.
    + assert (H := mi_pc _ _ HI). rewrite Hpc in H. contradiction.
    + destruct (m_heap s) as [|[k [v e]] h] eqn:Hh; [auto|]. cbv zeta.
      destruct (mem (vid (fst (fst e))) (m_visited s)) eqn:Hm.
      * rewrite app_nil_r. right. split; auto. eapply MInv_stale; eauto.
      * assert (Hrep : forall lm, let s2 := mst_choose vid WT VS PM LM cfg (m_set_heap WT VS PM LM s h) v e in
          let rep := mst_observe WT VS PM LM (fst (fst e)) s2 in
          MInv (os ++ [rep]) (mst_expand WT VS PM LM next s2 (fst (fst e)) lm) /\ reps_ok (os ++ [rep])).
        { intros lm s2 rep. destruct (MInv_choose os s k v e h lm HI Hpc Hh Hm) as [HI2 Ha]. split; [exact HI2|].
          apply reps_ok_snoc; auto. destruct e as [[n w] l]. split.
          - exists v, w, l. split; [reflexivity|auto].
          - intros Hb Hd. exists (m_visited s2). apply (mi_paths _ _ HI2 Hb Hd). right. rewrite map_app, in_app_iff. right. now left. }
        destruct (limit_check (m_limit (mst_choose vid WT VS PM LM cfg (m_set_heap WT VS PM LM s h) v e))) as [lm|].
        -- right. apply Hrep.
        -- split; [auto|]. destruct (Hrep None) as [HI2 Hr2]. eapply TInv_TRep. right. split; [exact HI2|exact Hr2].
    + rewrite app_nil_r. right. split; auto. eapply MInv_done; eauto.
    + destruct (mem (vid (fst (fst e))) (m_visited s)) eqn:Hm; rewrite app_nil_r; right; split; auto.
      * eapply MInv_skip; eauto.
      * eapply MInv_push; eauto.
Qed.

Section Run.
Variables (n : nat) (os : list report) (r : outcome state exn).
Hypothesis HR : mst_run vid WT VS PM LM next cfg starts lim n = (os, r).

Lemma mst_reports : TRep os /\
  (forall s', r = Ended s' -> MInv os s' /\ m_pc s' = MLoop WT /\ m_heap s' = []) /\
  (forall x s', r = Raised x s' -> x = RuntimeErrorLimit).
Proof.
  assert (H := run_inv_any step TInv).
  assert (Hs : forall pre s o s', TInv pre s -> step s = Go o s' -> TInv (pre ++ o) s').
  { intros pre s o s' HI Hg. assert (H2 := TInv_step pre s HI). now rewrite Hg in H2. }
  destruct r as [s'|s'|x s'].
  - assert (HI : TInv ([] ++ os) s') by (eapply run_inv_running; [exact Hs| |exact HR]; left; auto).
    split; [eapply TInv_TRep; eauto|]. split; intros; discriminate.
  - destruct (run_inv_ended step TInv Hs n [] (init lim) os s') as (o1 & o & s1 & -> & HI & Hst); [left; auto|exact HR|].
    assert (H2 := TInv_step _ _ HI). rewrite Hst in H2. destruct H2 as (-> & -> & H3 & H4 & H5).
    simpl in *. rewrite app_nil_r in *. split; [eapply TInv_TRep; eauto|]. split; [|intros; discriminate].
    intros s2 Heq. injection Heq as <-. auto.
  - destruct (run_inv_raised step TInv Hs n [] (init lim) os x s') as (o1 & o & s1 & -> & HI & Hst); [left; auto|exact HR|].
    assert (H2 := TInv_step _ _ HI). rewrite Hst in H2. destruct H2 as (-> & H3). simpl in *.
    split; [auto|]. split; [intros; discriminate|]. intros x2 s2 Heq. now injection Heq.
Qed.
End Run.
End MSTProofs.
