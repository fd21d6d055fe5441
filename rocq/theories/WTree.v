(** Shortest paths and A* with option is_tree, on a graph that is a tree. *)
From Coq Require Import List ZArith Lia Bool Permutation Arith.
From Verif Require Import Machine MachineSim Common GearSpec CommonProofs TraversalSpec DFSSpec TreeLike Weight HeapModel HeapProofs DijkstraModel AStarModel.
Import ListNotations.

(** The neighbor function of a weighted graph, with weight and labels of an edge regarded as its labels. *)
Definition bare {V W L : Type} (next : V -> list (V * W * L)) (v : V) : list (V * (W * L)) :=
  map (fun e => (fst (fst e), (snd (fst e), snd e))) (next v).
Definition bare_list {V W L : Type} (l : list (V * W * L)) : list (V * (W * L)) := map (fun e => (fst (fst e), (snd (fst e), snd e))) l.

Section EntryLists.
Context {V I : Type}.
Variable vid : V -> I.
Variable WT : Weights.
Variable I_dec : forall a b : I, {a = b} + {a <> b}.
Variable DM : DMap I (w_t WT) (w_inf WT).
Notation entry := (@entry (V * nat) WT).
Definition e_vertex (e : entry) : V := fst (e_val e).

Lemma entry_vertices_push (e : entry) h : Permutation (e_vertex e :: map e_vertex h) (map e_vertex (heappush WT e h)).
Proof. apply Permutation_sym. change (e_vertex e :: map e_vertex h) with (map e_vertex (e :: h)). apply Permutation_map, heappush_perm. Qed.

(** The keys are the values of the mapping. *)
Definition keys_match (m : dm_t DM) (h : list entry) : Prop := forall e, In e h -> dm_get DM (vid (e_vertex e)) m = e_key e.

Lemma keys_match_set m h i w : keys_match m h -> (forall e, In e h -> vid (e_vertex e) <> i) -> keys_match (dm_set DM i w m) h.
Proof. intros H Hn e He. rewrite dm_get_set_other; auto. Qed.

Lemma fold_set_other (f : V -> w_t WT) l : forall m i, ~ In i (map vid l) ->
  dm_get DM i (fold_left (fun m p => dm_set DM (fst p) (snd p) m) (map (fun v => (vid v, f v)) l) m) = dm_get DM i m.
Proof.
  induction l as [|v l IH]; intros m i Hi; simpl; auto. simpl in Hi. rewrite IH; [|tauto]. simpl. apply dm_get_set_other. intros C. apply Hi. auto.
Qed.
End EntryLists.

Section DijkstraTree.
Context {V I L : Type}.
Variable I_dec : forall a b : I, {a = b} + {a <> b}.
Variable vid : V -> I.
Variable WT : Weights.
Notation W := (w_t WT).
Variable DM : DMap I W (w_inf WT).
Variable PM : PMap I V.
Variable LM : PMap I L.
Variable next : V -> list (V * W * L).
Variable starts : list V.
Hypothesis HT : tree_like vid (bare next) starts.
Variables build labeled keep : bool.
Notation cfg t := {| dc_is_tree := t; dc_build_paths := build; dc_labeled := labeled; dc_keep_distances := keep |}.
Notation state := (@dij_state V I L WT DM PM LM).
Notation report := (@dij_report V I L WT DM PM LM).

(** What the user sees except for the mapping of distances, that is not kept with is_tree. *)
Record dij_same_seen (r1 r2 : report) : Prop := {
  dss_vertex : dr_vertex r2 = dr_vertex r1;
  dss_distance : dr_distance r2 = dr_distance r1;
  dss_depth : dr_depth r2 = dr_depth r1;
  dss_pred : dr_pred r2 = dr_pred r1;
  dss_labels : dr_labels r2 = dr_labels r1
}.

Record dij_same_rest (s1 s2 : state) : Prop := {
  dsr_pc : d_pc s2 = d_pc s1;
  dsr_heap : d_heap s2 = d_heap s1;
  dsr_no : d_no s2 = d_no s1;
  dsr_pred : d_pred s2 = d_pred s1;
  dsr_labels : d_labels s2 = d_labels s1;
  dsr_distance : d_distance s2 = d_distance s1;
  dsr_depth : d_depth s2 = d_depth s1;
  dsr_limit : d_limit s2 = d_limit s1;
  dsr_calls : d_calls s2 = d_calls s1
}.

Definition dcur (p : @dij_pc V L WT) := match p with DEdges _ v _ _ r => Some (v, bare_list r) | DLoop _ => None end.
Definition dcalled (s : state) : list V := map (fun c => fst (fst c)) (d_calls s).
Record DT (s1 s2 : state) : Prop := {
  dt_same : dij_same_rest s1 s2;
  dt_agenda : TreeAgenda vid (bare next) starts (dcalled s1) (dcur (d_pc s1)) (map (e_vertex WT) (d_heap s1));
  dt_keys : keys_match vid WT DM (d_distances s2) (d_heap s1);
  dt_unseen : forall i, ~ seen_so_far vid (bare next) starts (dcalled s1) (dcur (d_pc s1)) i -> dm_get DM i (d_distances s2) = w_inf WT
}.

Lemma ltb_irrefl a : w_ltb WT a a = false.
Proof. unfold w_ltb. now rewrite (w_leb_refl WT a). Qed.

Lemma DT_step s1 s2 : DT s1 s2 -> step_rel_weak DT dij_same_rest dij_same_seen
  (dij_step vid WT DM PM LM next (cfg true) s1) (dij_step vid WT DM PM LM next (cfg false) s2).
Proof.
  intros [HS HA HK HU]. pose proof HS as [R1 R2 R3 R4 R5 R6 R7 R8 R9]. unfold dij_step. rewrite R1, R2.
  destruct (d_pc s1) as [|v w k [|[[n ew] l] rest]] eqn:Hpc; simpl in HA, HU.
  - destruct (d_heap s1) as [|[[w no] [v k]] h] eqn:Hh; [split; auto|].
    assert (Hw : dm_get DM (vid v) (d_distances s2) = w) by (apply (HK (w, no, (v, k))); now left).
    cbn [dc_is_tree]. rewrite Hw, ltb_irrefl. cbn -[limit_check Nat.ltb]. rewrite R8.
    destruct (TreeAgenda_call _ _ _ _ _ _ HA) as [HA' Hs].
    assert (HN : forall e, In e h -> vid (e_vertex WT e) <> vid v).
    { intros e He C. pose proof (ta_nodup _ _ _ _ _ _ HA) as ND. simpl in ND. inversion ND; subst. apply H1. unfold e_vertex at 1. cbn [e_val snd fst].
      rewrite <- C. apply in_map. now apply in_map. }
    assert (HO : Forall2 dij_same_seen
       (if 0 <? k then [dij_observe WT DM PM LM v (dij_settle vid WT DM PM LM (cfg true) (d_set_heap WT DM PM LM s1 h) v w k)] else [])
       (if 0 <? k then [dij_observe WT DM PM LM v (dij_settle vid WT DM PM LM (cfg false) (d_set_heap WT DM PM LM s2 h) v w k)] else [])).
    { destruct (0 <? k); constructor; [|constructor]. constructor; simpl; auto. }
    assert (HR : dij_same_rest (dij_settle vid WT DM PM LM (cfg true) (d_set_heap WT DM PM LM s1 h) v w k) (dij_settle vid WT DM PM LM (cfg false) (d_set_heap WT DM PM LM s2 h) v w k)).
    { constructor; simpl; auto; congruence. }
    destruct (limit_check (d_limit s1)); [|split; auto; split; auto]. split; [exact HO|].
    assert (Hk : keys_match vid WT DM (d_distances s2) h) by (intros e He; apply HK; now right).
    constructor; simpl.
    + destruct HR. constructor; simpl in *; congruence.
    + exact HA'.
    + destruct keep; auto. apply keys_match_set; auto.
    + intros i Hi. assert (Hi' : dm_get DM i (d_distances s2) = w_inf WT) by (apply HU; intros C; apply Hi; now apply Hs).
      destruct keep; auto. rewrite dm_get_set_other; auto. intros ->. apply Hi. apply (ta_seen _ _ _ _ _ _ HA'). right. left. reflexivity.
  - split; [constructor|]. destruct (TreeAgenda_end _ _ _ _ _ _ HA) as [HA' Hs]. constructor; simpl; auto. constructor; simpl; auto.
  - destruct (w_leb WT (w_inf WT) (w_add WT ew w)) eqn:Hov; [split; [constructor|]; auto|].
    assert (Hn := TreeAgenda_new _ _ _ HT _ _ _ _ _ _ HA). destruct (TreeAgenda_edge _ _ _ HT _ _ _ _ _ _ HA) as [HA' Hs].
    cbn [dc_is_tree negb andb]. rewrite (HU (vid n) Hn), Hov. split; [constructor|]. constructor; simpl; auto.
    + constructor; simpl; auto; try congruence; [now rewrite R4|now rewrite R5].
    + eapply TreeAgenda_perm; [|exact HA']. rewrite <- entry_vertices_push. apply Permutation_refl.
    + intros e He. apply (proj1 (heappush_in WT _ _ _)) in He. destruct He as [->|He].
      * apply dm_get_set_same.
      * rewrite dm_get_set_other; auto. intros C. apply Hn. rewrite <- C. apply (ta_seen _ _ _ _ _ _ HA). left. now apply in_map.
    + intros i Hi. rewrite dm_get_set_other.
      * apply HU. intros C. apply Hi. apply Hs. auto.
      * intros ->. apply Hi. apply Hs. auto.
Qed.

Lemma start_entries_vertices dist : forall l no, map (e_vertex WT) (start_entries vid WT DM no dist l) = l.
Proof. induction l; intros no; simpl; auto. now rewrite IHl. Qed.

Lemma start_entries_keys dist l no : keys_match vid WT DM dist (heapify WT (start_entries vid WT DM no dist l)).
Proof.
  intros e He. apply (proj1 (heapify_in WT _ _)) in He. revert no He. induction l as [|v l IH]; intros no He; [destruct He|].
  destruct He as [<-|He]; [reflexivity|]. now apply IH in He.
Qed.

Theorem dij_tree_same lim n :
  Forall2 dij_same_seen (fst (dij_run vid WT DM PM LM next (cfg true) starts None lim n)) (fst (dij_run vid WT DM PM LM next (cfg false) starts None lim n)) /\
  outcome_rel dij_same_rest (snd (dij_run vid WT DM PM LM next (cfg true) starts None lim n)) (snd (dij_run vid WT DM PM LM next (cfg false) starts None lim n)).
Proof.
  apply run_sim_weak with (R := DT).
  - intros s1 s2 H. apply H.
  - exact DT_step.
  - constructor.
    + constructor; reflexivity.
    + apply TreeAgenda_init; auto. simpl. eapply Permutation_trans; [apply Permutation_map, heapify_perm|]. now rewrite start_entries_vertices.
    + apply start_entries_keys.
    + intros i Hi. simpl. rewrite (fold_set_other vid WT DM (fun _ => w_zero WT)); [apply dm_get_empty|]. intros C. apply Hi. now left.
Qed.
End DijkstraTree.

Section AStarTree.
Context {V I L : Type}.
Variable I_dec : forall a b : I, {a = b} + {a <> b}.
Variable vid : V -> I.
Variable WT : Weights.
Notation W := (w_t WT).
Variable DM : DMap I W (w_inf WT).
Variable PM : PMap I V.
Variable LM : PMap I L.
Variable next : V -> list (V * W * L).
Variable heuristic : V -> W.
Variable starts : list V.
Hypothesis HT : tree_like vid (bare next) starts.
Variables build labeled : bool.
Notation cfg t := {| ac_is_tree := t; ac_build_paths := build; ac_labeled := labeled |}.
Notation state := (@ast_state V I L WT DM PM LM).
Notation report := (@ast_report V I L WT DM PM LM).

(** Everything but the guesses, that are internal and not kept with is_tree. *)
Record ast_same_rest (s1 s2 : state) : Prop := {
  asr_pc : a_pc s2 = a_pc s1;
  asr_heap : a_heap s2 = a_heap s1;
  asr_no : a_no s2 = a_no s1;
  asr_distances : a_distances s2 = a_distances s1;
  asr_pred : a_pred s2 = a_pred s1;
  asr_labels : a_labels s2 = a_labels s1;
  asr_path_length : a_path_length s2 = a_path_length s1;
  asr_depth : a_depth s2 = a_depth s1;
  asr_limit : a_limit s2 = a_limit s1;
  asr_calls : a_calls s2 = a_calls s1
}.

Definition acur (p : @ast_pc V L WT) := match p with AEdges _ v _ _ r => Some (v, bare_list r) | ALoop _ => None end.
Definition acalled (s : state) : list V := map (fun c => fst (fst c)) (a_calls s).
Record AT (s1 s2 : state) : Prop := {
  at_same : ast_same_rest s1 s2;
  at_agenda : TreeAgenda vid (bare next) starts (acalled s1) (acur (a_pc s1)) (map (e_vertex WT) (a_heap s1));
  at_keys : keys_match vid WT DM (a_guesses s2) (a_heap s1);
  at_unseen : forall i, ~ seen_so_far vid (bare next) starts (acalled s1) (acur (a_pc s1)) i -> dm_get DM i (a_distances s1) = w_inf WT
}.

Lemma AT_step s1 s2 : AT s1 s2 -> step_rel_weak AT ast_same_rest (@eq report)
  (ast_step vid WT DM PM LM next (cfg true) heuristic s1) (ast_step vid WT DM PM LM next (cfg false) heuristic s2).
Proof.
  intros [HS HA HK HU]. pose proof HS as [R1 R2 R3 R4 R5 R6 R7 R8 R9 R10]. unfold ast_step. rewrite R1, R2.
  destruct (a_pc s1) as [|v w k [|[[n ew] l] rest]] eqn:Hpc; simpl in HA, HU.
  - destruct (a_heap s1) as [|[[w no] [v k]] h] eqn:Hh; [split; auto|].
    assert (Hw : dm_get DM (vid v) (a_guesses s2) = w) by (apply (HK (w, no, (v, k))); now left).
    cbn [ac_is_tree]. rewrite Hw, ltb_irrefl. cbn -[limit_check Nat.ltb]. rewrite R9.
    destruct (TreeAgenda_call _ _ _ _ _ _ HA) as [HA' Hs].
    assert (HO : Forall2 (@eq report)
       (if 0 <? k then [ast_observe WT DM PM LM v (ast_export vid WT DM PM LM (a_set_heap WT DM PM LM s1 h) v k)] else [])
       (if 0 <? k then [ast_observe WT DM PM LM v (ast_export vid WT DM PM LM (a_set_heap WT DM PM LM s2 h) v k)] else [])).
    { destruct (0 <? k); constructor; [|constructor]. unfold ast_observe. simpl. now rewrite R4, R5, R6. }
    assert (HR : ast_same_rest (ast_export vid WT DM PM LM (a_set_heap WT DM PM LM s1 h) v k) (ast_export vid WT DM PM LM (a_set_heap WT DM PM LM s2 h) v k)).
    { constructor; simpl; auto; congruence. }
    destruct (limit_check (a_limit s1)); [|split; auto; split; auto]. split; [exact HO|].
    constructor; simpl.
    + destruct HR. constructor; simpl in *; congruence.
    + exact HA'.
    + intros e He; apply HK; now right.
    + intros i Hi. apply HU. intros C. apply Hi. now apply Hs.
  - split; [constructor|]. destruct (TreeAgenda_end _ _ _ _ _ _ HA) as [HA' Hs]. constructor; simpl; auto. constructor; simpl; auto.
  - destruct (w_leb WT (w_inf WT) (w_add WT ew w)) eqn:Hov; [split; [constructor|]; auto|].
    assert (Hn := TreeAgenda_new _ _ _ HT _ _ _ _ _ _ HA). destruct (TreeAgenda_edge _ _ _ HT _ _ _ _ _ _ HA) as [HA' Hs].
    cbn [ac_is_tree negb andb]. rewrite R4, (HU (vid n) Hn), Hov.
    assert (HP : forall guess, AT (ast_push vid WT DM PM LM (cfg true) (ast_store vid WT DM PM LM (cfg true) s1 v n (w_add WT ew w) l) v w k n guess rest)
                                  (ast_push vid WT DM PM LM (cfg false) (ast_store vid WT DM PM LM (cfg false) s2 v n (w_add WT ew w) l) v w k n guess rest)).
    { intros guess. constructor; simpl; auto.
      - constructor; simpl; auto; try congruence; [now rewrite R5|now rewrite R6].
      - eapply TreeAgenda_perm; [|exact HA']. rewrite <- entry_vertices_push. apply Permutation_refl.
      - intros e He. apply (proj1 (heappush_in WT _ _ _)) in He. destruct He as [->|He].
        + apply dm_get_set_same.
        + rewrite dm_get_set_other; auto. intros C. apply Hn. rewrite <- C. apply (ta_seen _ _ _ _ _ _ HA). left. now apply in_map.
      - intros i Hi. rewrite dm_get_set_other.
        + apply HU. intros C. apply Hi. apply Hs. auto.
        + intros ->. apply Hi. apply Hs. auto. }
    destruct (w_eqb WT (heuristic n) (w_inf WT)); [split; [constructor|]; apply HP|].
    destruct (w_leb WT (w_inf WT) (w_add WT (w_add WT ew w) (heuristic n))); [|split; [constructor|]; apply HP].
    split; [constructor|]. split; auto. constructor; simpl; auto; try congruence; [now rewrite R5|now rewrite R6].
Qed.

Lemma ast_start_entries_vertices g : forall l no, map (e_vertex WT) (ast_start_entries vid WT DM no g l) = l.
Proof. induction l; intros no; simpl; auto. now rewrite IHl. Qed.

Lemma ast_start_entries_keys g l no : keys_match vid WT DM g (heapify WT (ast_start_entries vid WT DM no g l)).
Proof.
  intros e He. apply (proj1 (heapify_in WT _ _)) in He. revert no He. induction l as [|v l IH]; intros no He; [destruct He|].
  destruct He as [<-|He]; [reflexivity|]. now apply IH in He.
Qed.

Theorem ast_tree_same lim n :
  fst (ast_run vid WT DM PM LM next (cfg true) heuristic starts None None lim n) = fst (ast_run vid WT DM PM LM next (cfg false) heuristic starts None None lim n) /\
  outcome_rel ast_same_rest (snd (ast_run vid WT DM PM LM next (cfg true) heuristic starts None None lim n)) (snd (ast_run vid WT DM PM LM next (cfg false) heuristic starts None None lim n)).
Proof.
  match goal with |- ?a = ?b /\ ?c => assert (H : Forall2 (@eq report) a b /\ c) end.
  { apply run_sim_weak with (R := AT).
  - intros s1 s2 H. apply H.
  - exact AT_step.
  - constructor.
    + constructor; reflexivity.
    + apply TreeAgenda_init; auto. simpl. eapply Permutation_trans; [apply Permutation_map, heapify_perm|]. now rewrite ast_start_entries_vertices.
    + apply ast_start_entries_keys.
    + intros i Hi. simpl. rewrite (fold_set_other vid WT DM (fun _ => w_zero WT)); [apply dm_get_empty|]. intros C. apply Hi. now left.
  }
  destruct H as [H1 H2]. split; [|exact H2]. clear - H1. induction H1; congruence.
Qed.
End AStarTree.
