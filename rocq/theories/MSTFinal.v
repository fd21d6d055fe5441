(** Results about minimum spanning trees in the form used by the property theorems. *)
From Coq Require Import List ZArith Bool Arith Lia Permutation.
From Verif Require Import Machine MachineMore GearSpec Spec TraversalSpec Common CommonProofs PathsModel PathsSpec PathsProofs PathsExact
  Weight WeightSpec AStarSpec HeapModel HeapProofs MSTModel MSTSpec MSTGraph MSTProofs LimitSim LimitAll.
Import ListNotations.

Section MSTFinal.
Context {V I L : Type}.
Variable V_dec : forall a b : V, {a = b} + {a <> b}.
Variable I_dec : forall a b : I, {a = b} + {a <> b}.
Variable vid : V -> I.
Variable WT : Weights.
Notation W := (w_t WT).
Notation leb := (w_leb WT).
Variable VS : VSet I.
Variable PM : PMap I V.
Variable LM : PMap I L.
Variable next : V -> list (V * W * L).
Variable cfg : mst_cfg.
Variable E : I -> W -> I -> Prop.
Hypothesis Hnext : presents_weighted WT vid next E.
Variable starts : list V.
Notation St := (is_start vid starts).
Notation state := (@mst_state V I L WT VS PM LM).
Notation report := (@mst_report V I L WT PM LM).
Notation step := (mst_step vid WT VS PM LM next cfg).
Notation init := (mst_init vid WT VS PM LM cfg starts).
Notation mem i s := (vs_mem VS i s).
Notation edges := (mst_edges vid WT PM LM).

Lemma reach_start i : St i -> wreachable WT E St i.
Proof. intros H. exists i, []. split; auto. constructor. Qed.
Lemma reach_step i w j : wreachable WT E St i -> E i w j -> wreachable WT E St j.
Proof. intros (s & p & Hs & Hw) He. exists s, (p ++ [(w, j)]). split; auto. eapply wwalk_snoc; eauto. Qed.

Lemma prim_reach T : forall sl, prim WT E sl T -> (forall i, In i sl -> wreachable WT E St i) ->
  forall k, In k (rev (map snd T) ++ sl) -> wreachable WT E St k.
Proof.
  induction T as [|[[i w] j] T IH]; intros sl Hp Hs k Hk; [auto|]. inversion Hp; subst.
  simpl in Hk. rewrite <- app_assoc in Hk. simpl in Hk. eapply IH; [eassumption| |exact Hk].
  intros i' [<-|Hi']; auto. eapply reach_step; eauto.
Qed.

Section Run.
Variables (lim : option Z) (n : nat) (os : list report) (r : outcome state exn).
Hypothesis HR : mst_run vid WT VS PM LM next cfg starts lim n = (os, r).

Lemma edges_eq o1 : (exists o2, os = o1 ++ o2) -> map snd (edges o1) = mst_ids vid o1.
Proof.
  intros [o2 ->]. destruct (mst_reports I_dec vid WT VS PM LM next cfg E Hnext starts lim n _ r HR) as ((_ & _ & He) & _).
  apply (edges_ids vid WT PM LM next). intros rep Hin. apply He. rewrite in_app_iff. auto.
Qed.

Lemma prim_app_inv T1 : forall T2 sl, prim WT E sl (T1 ++ T2) -> prim WT E sl T1 /\ prim WT E (rev (map snd T1) ++ sl) T2.
Proof.
  induction T1 as [|[[i w] j] T1 IH]; intros T2 sl Hp; [split; [constructor|auto]|].
  simpl in Hp. inversion Hp; subst.
  match goal with H : prim _ _ (j :: sl) _ |- _ => destruct (IH _ _ H) as [K1 K2] end.
  split; [constructor; auto|]. simpl. rewrite <- app_assoc. exact K2.
Qed.

Lemma mst_tree_all :
  (forall o1 rep o2, os = o1 ++ rep :: o2 ->
     exists u w l, mr_edge rep = Some (u, (mr_vertex rep, w, l)) /\ In (mr_vertex rep, w, l) (next u) /\
       (In u starts \/ In u (map mr_vertex o1)) /\
       ~ St (vid (mr_vertex rep)) /\ ~ In (vid (mr_vertex rep)) (mst_ids vid o1) /\
       (mc_build_paths cfg = true -> starts_distinct vid starts ->
        exists s0 p, In s0 starts /\ chain next s0 p (mr_vertex rep) /\
          (forall a b d, In (a, b, d) (chain_edges s0 p) ->
             exists rep' w', In rep' (o1 ++ [rep]) /\ mr_edge rep' = Some (a, (b, w', d))) /\
          delivers_exactly V_dec vid PM LM (mr_pred rep) (mr_labels rep) (mc_labeled cfg) (mr_vertex rep)
            (chain_vertices s0 p) (chain_edges s0 p))) /\
  acyclic WT (edges os) /\
  (forall s s', St s -> St s' -> linked WT (edges os) s s' -> s = s') /\
  (forall rep, In rep os -> exists s, St s /\ linked WT (edges os) (vid (mr_vertex rep)) s) /\
  (forall s', r = Ended s' -> forall i, wreachable WT E St i -> St i \/ In i (mst_ids vid os)).
Proof.
  destruct (mst_reports I_dec vid WT VS PM LM next cfg E Hnext starts lim n os r HR) as ((Hreps & Hprim & Hedge) & Hend & _).
  assert (Hids : map snd (edges os) = mst_ids vid os) by (apply edges_eq; exists []; now rewrite app_nil_r).
  split; [|split; [|split; [|split]]].
  - intros o1 rep o2 Heq. destruct (Hedge rep) as (u & w & l & He & Hin). { rewrite Heq, in_app_iff. right. now left. }
    destruct (Hreps o1 rep o2 Heq) as [(u2 & w2 & l2 & He2 & Hatt) Hpath]. rewrite He in He2. injection He2 as <- <- <-.
    exists u, w, l. split; [auto|]. split; [auto|]. split; [exact Hatt|].
    assert (Hfresh : ~ In (vid (mr_vertex rep)) (rev (map snd (edges o1)) ++ sids vid starts)).
    { rewrite Heq, (mst_edges_app vid WT PM LM) in Hprim. apply prim_app_inv in Hprim. destruct Hprim as [_ Hp].
      simpl in Hp. rewrite He in Hp. simpl in Hp. inversion Hp; subst. auto. }
    rewrite in_app_iff, <- in_rev, edges_eq in Hfresh by (exists (rep :: o2); auto).
    split; [|split].
    + intros HS. apply Hfresh. right. exact HS.
    + tauto.
    + intros Hb Hd. destruct (Hpath Hb Hd) as (vis & s0 & p & K1 & K2 & K3 & K4 & K5).
      exists s0, p. split; [auto|]. split; [auto|]. split.
      * intros a b d Hin2. destruct (K5 a b d Hin2) as [(w' & rep' & Hr & He') _]. eauto.
      * apply ppath_delivers_exactly; auto.
        -- apply chain_edges_fst.
        -- intros Hlab a b d Hin2. apply (K5 a b d Hin2). auto.
  - eapply prim_acyclic; eauto.
  - intros s s' Hs Hs' Hl. eapply (prim_separated I_dec); eauto.
  - intros rep Hin. assert (Hk : In (vid (mr_vertex rep)) (rev (map snd (edges os)) ++ sids vid starts)).
    { rewrite in_app_iff, <- in_rev, Hids. left. unfold mst_ids. apply in_map_iff. eauto. }
    destruct (prim_linked WT E _ _ Hprim _ Hk) as (s & Hs & Hl). exists s. split; auto.
  - intros s' Heq i (s & p & Hs & Hw). destruct (Hend s' Heq) as (HI & Hpc & Hh).
    assert (Hv : forall i, mem i (m_visited s') = true <-> (St i \/ In i (mst_ids vid os))) by apply (mi_visited _ _ _ _ _ _ _ _ _ _ _ HI).
    apply Hv. clear HR. assert (Hms : mem s (m_visited s') = true) by (apply Hv; auto). clear Hs.
    induction Hw as [i|i w j p k He Hw IH]; auto. apply IH.
    destruct (mem j (m_visited s')) eqn:Hj; auto.
    destruct (mi_cross _ _ _ _ _ _ _ _ _ _ _ HI i w j Hms He Hj) as [(e & u & nn & l & Hin & _)|(v & rest & nn & l & Hp & _)].
    + rewrite Hh in Hin. contradiction.
    + congruence.
Qed.

Lemma mst_min_all : undirected WT E -> forall F, attaches WT E St F ->
  exists F' rest, Permutation F (F' ++ rest) /\
    Forall2 (fun t f => leb (edge_weight WT t) (edge_weight WT f) = true) (edges os) F' /\
    attaches WT E St (edges os ++ rest).
Proof.
  intros Hsym F [HF Hat].
  destruct (mst_reports I_dec vid WT VS PM LM next cfg E Hnext starts lim n os r HR) as ((Hreps & Hprim & Hedge) & Hend & _).
  destruct (prim_exchange I_dec WT E (edges os) Hsym (wreachable WT E St) (sids vid starts) F Hprim)
    as (F' & rest & HP & HF2 & Hat2).
  - intros i w j Hin. apply (prim_reach _ _ Hprim).
    + intros k Hk. apply reach_start. exact Hk.
    + rewrite in_app_iff, <- in_rev. left. apply in_map_iff. exists (i, w, j). auto.
  - exact HF.
  - intros y Hy. destruct (Hat y Hy) as (s & Hs & Hl). exists s. split; [exact Hs|exact Hl].
  - exists F', rest. split; [auto|]. split; [auto|]. split.
    + intros i w j Hin. apply in_app_iff in Hin. destruct Hin as [Hin|Hin].
      * eapply (prim_in WT E); eauto.
      * apply HF. apply (Permutation_in (i, w, j) (Permutation_sym HP)). apply in_app_iff. auto.
    + intros i Hi. destruct (Hat2 i Hi) as (k & Hk & Hl).
      destruct (prim_linked WT E _ _ Hprim k Hk) as (s & Hs & Hl2). exists s. split; [exact Hs|].
      eapply linked_trans; (eapply linked_incl; [|eassumption]); intros e He; apply in_app_iff; auto.
Qed.

Lemma mst_total_all s' : undirected WT E -> exact WT -> r = Ended s' ->
  attaches WT E St (edges os) /\
  forall F, attaches WT E St F ->
    length F = length (edges os) \/ nonnegative WT E -> leb (total_weight WT (edges os)) (total_weight WT F) = true.
Proof.
  intros Hsym Hx Heq.
  destruct (mst_reports I_dec vid WT VS PM LM next cfg E Hnext starts lim n os r HR) as ((Hreps & Hprim & Hedge) & Hend & _).
  destruct mst_tree_all as (_ & _ & _ & Hlink & Hcomp). split.
  - split; [apply (prim_in WT E _ _ Hprim)|]. intros i Hi. destruct (Hcomp s' Heq i Hi) as [Hs|Hin].
    + exists i. split; auto. constructor.
    + unfold mst_ids in Hin. apply in_map_iff in Hin. destruct Hin as (rep & <- & Hin). auto.
  - intros F HF Hor. destruct (mst_min_all Hsym F HF) as (F' & rest & HP & HF2 & _).
    rewrite (total_perm WT F (F' ++ rest) Hx HP). apply total_le; auto.
    destruct Hor as [Hlen|Hnn].
    + assert (Hl : length rest = 0).
      { apply Permutation_length in HP. rewrite app_length in HP. assert (Hl2 : length (edges os) = length F') by (clear -HF2; induction HF2; simpl; auto). lia. }
      destruct rest; [contradiction|discriminate].
    + intros [[i w] j] Hin. apply (Hnn i w j). apply (proj1 HF). apply (Permutation_in _ (Permutation_sym HP)).
      apply in_app_iff. auto.
Qed.
End Run.

(** ** Termination *)
Section Termination.
Variable ids : list I.
Hypothesis Hids : forall i, wreachable WT E St i -> In i ids.

Definition unvisited (s : state) : nat := length (filter (fun i => negb (mem i (m_visited s))) ids).
Definition m1 (s : state) : nat := match m_pc s with MStart _ _ => 1 | _ => 0 end.
Definition m3 (s : state) : nat :=
  length (m_heap s) + match m_pc s with MEdges _ _ rest => 1 + 2 * length rest | _ => 0 end.

Lemma filter_less (f g : I -> bool) j : forall l, (forall i, f i = true -> g i = true) -> In j l -> f j = false -> g j = true ->
  length (filter f l) < length (filter g l).
Proof.
  intros l Hfg. assert (Hle : forall l, length (filter f l) <= length (filter g l)).
  { induction l0 as [|a l0 IH]; simpl; auto. destruct (f a) eqn:Hf.
    - rewrite (Hfg a Hf). simpl. lia.
    - destruct (g a); simpl; lia. }
  induction l as [|a l IH]; simpl; intros Hin Hf Hg; [contradiction|]. destruct Hin as [->|Hin].
  - rewrite Hf, Hg. simpl. specialize (Hle l). lia.
  - specialize (IH Hin Hf Hg). destruct (f a) eqn:Hfa; [rewrite (Hfg a Hfa); simpl; lia|]. destruct (g a); simpl; lia.
Qed.

Lemma heap_len (e : @mst_entry V L WT) h : length (heappush WT e h) = S (length h).
Proof. rewrite (Permutation_length (heappush_perm WT e h)). reflexivity. Qed.

Lemma mst_terminates : exists n os s, mst_run vid WT VS PM LM next cfg starts None n = (os, Ended s).
Proof.
  assert (HT : exists n os r, run step n (init None) = (os, r) /\ (forall s', r <> Running s')).
  { apply (run_terminates_wf step (lex3 m1 unvisited m3) (fun s => exists os, TInv vid WT VS PM LM next cfg E starts None os s)).
    - apply lex3_wf.
    - intros s o s' [os HI] Hst. split.
      { exists (os ++ o). assert (H := TInv_step I_dec vid WT VS PM LM next cfg E Hnext starts None os s HI).
        now rewrite Hst in H. }
      destruct HI as [[-> ->]|[HI _]].
      + unfold mst_step in Hst. simpl in Hst. injection Hst as <- <-. left. unfold m1. simpl. lia.
      + unfold mst_step in Hst. unfold lex3, m1, m3. destruct (m_pc s) as [sl| |v [|e rest]] eqn:Hpc.
        * assert (H := mi_pc _ _ _ _ _ _ _ _ _ _ _ HI). rewrite Hpc in H. contradiction.
        * destruct (m_heap s) as [|[k [v e]] h] eqn:Hh; [discriminate|]. cbv zeta in Hst.
          destruct (mem (vid (fst (fst e))) (m_visited s)) eqn:Hm.
          -- injection Hst as <- <-. simpl. rewrite Hpc. right. split; [reflexivity|]. right. split; [reflexivity|]. simpl. lia.
          -- destruct (limit_check _) as [lm|]; [|discriminate]. injection Hst as <- <-. simpl. right. split; [reflexivity|]. left.
             unfold unvisited. simpl. apply filter_less with (vid (fst (fst e))).
             ++ intros i Hi. apply negb_true_iff in Hi. apply negb_true_iff. apply vs_mem_false_iff in Hi.
                apply vs_mem_false_iff. rewrite vs_mem_add in Hi. tauto.
             ++ apply Hids.
                destruct (MInv_choose I_dec vid WT VS PM LM next cfg E Hnext starts os s k v e h None HI Hpc Hh Hm) as [HI2 _].
                eapply (prim_reach _ _ (mi_prim _ _ _ _ _ _ _ _ _ _ _ HI2)).
                ** intros i Hi. apply reach_start. exact Hi.
                ** apply (sids_visited vid WT VS PM LM next cfg E starts _ _ _ HI2). simpl. apply vs_mem_add. auto.
             ++ apply negb_false_iff. apply vs_mem_add. auto.
             ++ now apply negb_true_iff.
        * injection Hst as <- <-. simpl. right. split; [reflexivity|]. right. split; [reflexivity|]. simpl. lia.
        * destruct (mem (vid (fst (fst e))) (m_visited s)); injection Hst as <- <-; simpl;
            (right; split; [auto|]; right; split; [reflexivity|]).
          -- lia.
          -- rewrite heap_len. unfold mst_entry in *. lia.
    - exists []. left. auto. }
  destruct HT as (n & os & r & Hr & Hn). exists n, os.
  destruct (mst_reports I_dec vid WT VS PM LM next cfg E Hnext starts None n os r Hr) as (_ & _ & Hx).
  destruct r as [s|s|x s].
  - destruct (Hn s). reflexivity.
  - eauto.
  - exfalso. assert (x = RuntimeErrorLimit) by eauto. subst.
    assert (Hlim : forall n s os s', m_limit s = None -> run step n s <> (os, Raised RuntimeErrorLimit s')).
    { clear. induction n as [|n IH]; intros s os s' Hl HR; [discriminate|]. simpl in HR.
      destruct (step s) as [o t|o t|o x t] eqn:Hst; [|discriminate|].
      - destruct (run step n t) as [os1 r1] eqn:Hrn. simpl in HR. injection HR as <- ->.
        eapply IH; [|exact Hrn]. unfold mst_step in Hst. rewrite Hl in Hst.
        destruct (m_pc s) as [sl| |v [|e rest]]; try (injection Hst as <- <-; simpl; auto; fail).
        + destruct (m_heap s) as [|[k [v e]] h]; [discriminate|]. cbv zeta in Hst. simpl in Hst. rewrite Hl in Hst.
          destruct (mem _ _); injection Hst as <- <-; simpl; auto.
        + destruct (mem _ _); injection Hst as <- <-; simpl; auto.
      - unfold mst_step in Hst. rewrite Hl in Hst. destruct (m_pc s) as [sl| |v [|e rest]]; try discriminate.
        + destruct (m_heap s) as [|[k [v e]] h]; [discriminate|]. cbv zeta in Hst. simpl in Hst. rewrite Hl in Hst.
          destruct (mem _ _); discriminate.
        + destruct (mem _ _); discriminate. }
    eapply Hlim; [|exact Hr]. reflexivity.
Qed.
End Termination.
End MSTFinal.
