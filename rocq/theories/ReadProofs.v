(** Proofs for C94: which vertices have been read at which time *)
From Coq Require Import List Bool ZArith Permutation Lia Arith.
From Verif Require Import Machine Common GearSpec Weight HeapModel HeapProofs BFSModel BFSMore NTDModel DijkstraModel AStarModel MSTModel ReadSpec.
Import ListNotations.

Section BFS.
Context {V I L : Type}.
Variable vid : V -> I.
Variable VS : VSet I.
Variable PM : PMap I V.
Variable LM : PMap I L.
Variable next : V -> list (V * L).
Variable cfg : bfs_cfg.
Hypothesis Hrdi : bc_report_depth_increase cfg = false.
Variable starts : list V.
Variable av : option (vs_t VS).
Variable lim : option Z.
Notation state := (@bfs_state V I L VS PM LM).
Notation report := (@bfs_report V I L VS PM LM).
Notation step := (bfs_step vid VS PM LM next cfg).
Notation init := (bfs_init vid VS PM LM cfg starts av lim).

Lemma bfs_asked n os r : run step n init = (os, r) ->
  asked_in_order (rev (b_calls (outcome_state r))) (starts ++ map br_vertex os) /\
  (forall s, r = Ended s -> rev (b_calls s) = starts ++ map br_vertex os).
Proof using Hrdi.
  intros HR. destruct (bfs_expansions vid VS PM LM next cfg Hrdi starts av lim n os r HR) as (w & Hw & He).
  split; [exists w; auto|]. intros s ->. rewrite <- Hw. rewrite (He s eq_refl), app_nil_r. reflexivity.
Qed.

(** Reports with depth [k] *)
Definition at_depth (os : list report) (P : Z -> Prop) (v : V) : Prop := exists r, In r os /\ br_vertex r = v /\ P (br_depth r).

Definition levels (os : list report) (s : state) : Prop :=
  (forall v, In v (b_calls s) -> In v starts \/ at_depth os (fun k => k < b_depth s)%Z v) /\
  (forall v, In v (b_to_expand s) -> In v starts \/ at_depth os (fun k => k < b_depth s)%Z v) /\
  (forall v, In v (b_next s) -> at_depth os (fun k => k <= b_depth s)%Z v).

Lemma at_depth_app os o (P Q : Z -> Prop) v : (forall k, P k -> Q k) -> at_depth os P v -> at_depth (os ++ o) Q v.
Proof. intros H (r & H1 & H2 & H3). exists r. rewrite in_app_iff. auto. Qed.

Lemma levels_step pre s o s' : levels pre s -> step s = Go o s' -> levels (pre ++ o) s'.
Proof using Hrdi.
  intros (H1 & H2 & H3) Hs. unfold bfs_step in Hs.
  assert (K : forall (P Q : Z -> Prop) v, (forall k, P k -> Q k) -> In v starts \/ at_depth pre P v -> In v starts \/ at_depth (pre ++ o) Q v).
  { intros P Q v HPQ [Hv|Hv]; [now left|right; eapply at_depth_app; eauto]. }
  destruct (b_pc s) as [| |v [|[w l] rest]] eqn:Hpc.
  - destruct (b_to_expand s) as [|u q] eqn:Hte; inversion Hs; subst; clear Hs.
    unfold levels; cbn [b_set_pc b_calls b_to_expand b_next b_depth]. rewrite Hte. repeat split; intros x Hx.
    + eapply K; [|apply H1; auto]. auto.
    + eapply K; [|apply H2; auto]. auto.
    + eapply at_depth_app; [|apply H3; auto]. auto.
  - destruct (b_to_expand s) as [|u q] eqn:Hte.
    + rewrite Hrdi in Hs. inversion Hs; subst; clear Hs. unfold levels; cbn [b_calls b_to_expand b_next b_depth]. repeat split; intros x Hx.
      * eapply K; [|apply H1; auto]. cbv beta. lia.
      * right. eapply at_depth_app; [|apply H3; auto]. cbv beta. lia.
      * destruct Hx.
    + destruct (limit_check (b_limit s)); inversion Hs; subst; clear Hs. unfold levels; cbn [b_calls b_to_expand b_next b_depth]. repeat split; intros x Hx.
      * destruct Hx as [<-|Hx]; (eapply K; [|first [apply H1; auto; fail|apply H2; now left]]); auto.
      * eapply K; [|apply H2; now right]. auto.
      * eapply at_depth_app; [|apply H3; auto]. auto.
  - inversion Hs; subst; clear Hs. unfold levels; cbn [b_set_pc b_calls b_to_expand b_next b_depth]. repeat split; intros x Hx.
    + eapply K; [|apply H1; auto]. auto.
    + eapply K; [|apply H2; auto]. auto.
    + eapply at_depth_app; [|apply H3; auto]. auto.
  - destruct (_ && _); inversion Hs; subst; clear Hs; unfold levels; cbn [b_set_pc bfs_mark b_calls b_to_expand b_next b_depth]; repeat split; intros x Hx.
    + eapply K; [|apply H1; auto]. auto.
    + eapply K; [|apply H2; auto]. auto.
    + eapply at_depth_app; [|apply H3; auto]. auto.
    + eapply K; [|apply H1; auto]. auto.
    + eapply K; [|apply H2; auto]. auto.
    + apply in_app_or in Hx. destruct Hx as [Hx|[<-|[]]].
      * eapply at_depth_app; [|apply H3; auto]. auto.
      * eexists. split; [apply in_or_app; right; left; reflexivity|]. cbn. split; [reflexivity|lia].
Qed.

(** The pass in which a vertex is reported *)
Lemma bfs_asked_before n os s rep r : run step n init = (os, Running s) -> run step (S n) init = (os ++ [rep], r) ->
  forall v, In v (b_calls (outcome_state r)) -> In v starts \/ exists rep', In rep' os /\ br_vertex rep' = v /\ (br_depth rep' < br_depth rep)%Z.
Proof using Hrdi.
  intros HR HR'.
  assert (HL : levels os s).
  { refine (run_inv_running step levels levels_step n [] init os s _ HR).
    unfold levels; cbn. repeat split; try contradiction; intros v Hv; auto. }
  replace (S n) with (n + 1) in HR' by lia. rewrite (run_add_running step n 1 init os s HR) in HR'. cbn [run] in HR'.
  destruct HL as (H1 & _ & _).
  assert (Hx : forall x, os ++ x = os ++ [rep] -> x = [rep]) by (intros x Hx; apply app_inv_head in Hx; auto).
  destruct (step s) as [o s'|o s'|o x s'] eqn:Es; cbn [fst snd] in HR'; inversion HR' as [[HA HB]]; clear HR'; subst r; apply Hx in HA; rewrite ?app_nil_r in HA; subst o;
    unfold bfs_step in Es; cbn [outcome_state].
  - destruct (b_pc s) as [| |u [|[w l] rest]] eqn:Hpc.
    + destruct (b_to_expand s); discriminate.
    + destruct (b_to_expand s); [rewrite Hrdi in Es; discriminate|]. destruct (limit_check (b_limit s)); discriminate.
    + discriminate.
    + destruct (_ && _); [discriminate|]. inversion Es; subst; clear Es. cbn. exact H1.
  - destruct (b_pc s) as [| |u [|[w l] rest]].
    + destruct (b_to_expand s); discriminate.
    + destruct (b_to_expand s); [discriminate|]. destruct (limit_check (b_limit s)); discriminate.
    + discriminate.
    + destruct (_ && _); discriminate.
  - destruct (b_pc s) as [| |u [|[w l] rest]].
    + destruct (b_to_expand s); discriminate.
    + destruct (b_to_expand s); [discriminate|]. destruct (limit_check (b_limit s)); discriminate.
    + discriminate.
    + destruct (_ && _); discriminate.
Qed.
End BFS.

Section NTD.
Context {V I L : Type}.
Variable vid : V -> I.
Variable VS : VSet I.
Variable PM : PMap I V.
Variable LM : PMap I L.
Variable next : V -> list (V * L).
Variable cfg : ntd_cfg.
Variable starts : list V.
Variable av : option (vs_t VS).
Variable lim : option Z.
Notation state := (@ntd_state V I L VS PM LM).
Notation report := (@ntd_report V I L VS PM LM).
Notation step := (ntd_step vid VS PM LM next cfg).
Notation init := (ntd_init vid VS PM LM cfg starts av lim).

Definition ntd_agenda (os : list report) (s : state) : Prop :=
  Permutation (starts ++ map nr_vertex os) (rev (map fst (n_calls s)) ++ n_to_expand s).

Lemma ntd_enter_fields s r s1 : ntd_enter VS PM LM cfg s r = Some s1 -> n_to_expand s1 = r /\ n_calls s1 = n_calls s.
Proof. unfold ntd_enter. destruct (nc_compute_depth cfg); [destruct (ntd_leave _ _) as [[m d]|]; [|discriminate]|]; intros H; inversion H; auto. Qed.

Lemma ntd_agenda_step pre s o s' : ntd_agenda pre s -> step s = Go o s' -> ntd_agenda (pre ++ o) s'.
Proof.
  unfold ntd_agenda, ntd_step. intros HA Hs. rewrite map_app.
  destruct (n_pc s) as [|v [|[w l] rest]].
  - destruct (n_to_expand s) as [|u q] eqn:Hte; [discriminate|].
    destruct (ntd_enter VS PM LM cfg s q) as [s1|] eqn:He; [|discriminate]. apply ntd_enter_fields in He. destruct He as [He1 He2].
    destruct (limit_check (n_limit s1)); inversion Hs; subst; clear Hs. cbn [ntd_expand n_calls n_to_expand map rev fst]. rewrite He2.
    rewrite app_nil_r, <- app_assoc. exact HA.
  - inversion Hs; subst; clear Hs. cbn. rewrite app_nil_r. exact HA.
  - destruct (_ && _); inversion Hs; subst; clear Hs; cbn [n_set_pc ntd_push ntd_mark n_calls n_to_expand map].
    + rewrite app_nil_r. exact HA.
    + rewrite app_assoc. rewrite HA, <- app_assoc. apply Permutation_app_head. change (nr_vertex (ntd_observe VS PM LM w (ntd_mark vid VS PM LM cfg s v w l rest))) with w.
      apply Permutation_sym, Permutation_cons_append.
Qed.

Lemma ntd_asked n os r : run step n init = (os, r) ->
  asked_at_most_once (rev (map fst (n_calls (outcome_state r)))) (starts ++ map nr_vertex os) /\
  (forall s, r = Ended s -> Permutation (rev (map fst (n_calls s))) (starts ++ map nr_vertex os)).
Proof.
  intros HR.
  assert (H0 : ntd_agenda [] init) by (unfold ntd_agenda; cbn; rewrite app_nil_r; apply Permutation_rev).
  pose proof (run_inv_any step ntd_agenda ntd_agenda_step n [] init os r H0 HR) as H. cbn [app] in H.
  destruct r as [s|s|x s]; cbn [outcome_state].
  - split; [exists (n_to_expand s); exact H|discriminate].
  - destruct H as (os1 & o & s1 & -> & H & Hs). unfold ntd_step in Hs.
    destruct (n_pc s1) as [|v [|[w l] rest]].
    + destruct (n_to_expand s1) as [|u q] eqn:Hte.
      * inversion Hs; subst; clear Hs. rewrite app_nil_r. unfold ntd_agenda in H. rewrite Hte, app_nil_r in H.
        split; [exists []; rewrite app_nil_r; exact H|]. intros s' Hs'. inversion Hs'; subst. apply Permutation_sym, H.
      * destruct (ntd_enter _ _ _ _ _ _); [|discriminate]. destruct (limit_check _); discriminate.
    + discriminate.
    + destruct (_ && _); discriminate.
  - split; [|discriminate]. destruct H as (os1 & o & s1 & -> & H & Hs). unfold ntd_step in Hs.
    destruct (n_pc s1) as [|v [|[w l] rest]].
    + destruct (n_to_expand s1) as [|u q] eqn:Hte; [discriminate|].
      destruct (ntd_enter VS PM LM cfg s1 q) as [s2|] eqn:He.
      * apply ntd_enter_fields in He. destruct He as [He1 He2]. destruct (limit_check _); [discriminate|]. inversion Hs; subst. rewrite app_nil_r, He2.
        exists (n_to_expand s1). exact H.
      * inversion Hs; subst. rewrite app_nil_r. exists (n_to_expand s). exact H.
    + discriminate.
    + destruct (_ && _); discriminate.
Qed.
End NTD.

(** Calls with the number of edges from a start vertex: those for start vertices, and the others *)
Definition positive_depth {A} (c : A * nat) : bool := 0 <? snd c.

Lemma filter_perm {A} (f : A -> bool) l l' : Permutation l l' -> Permutation (filter f l) (filter f l').
Proof.
  induction 1; simpl; auto.
  - destruct (f x); auto.
  - destruct (f x), (f y); auto. apply perm_swap.
  - eapply Permutation_trans; eauto.
Qed.
Lemma filter_rev_eq {A} (f : A -> bool) l : filter f (rev l) = rev (filter f l).
Proof. induction l as [|a l IH]; simpl; auto. rewrite filter_app, IH. simpl. destruct (f a); simpl; auto. now rewrite app_nil_r. Qed.

Section Dijkstra.
Context {V I L : Type}.
Variable vid : V -> I.
Variable WT : Weights.
Variable DM : DMap I (w_t WT) (w_inf WT).
Variable PM : PMap I V.
Variable LM : PMap I L.
Variable next : V -> list (V * w_t WT * L).
Variable cfg : dij_cfg.
Variable starts : list V.
Variable known : option (dm_t DM).
Variable lim : option Z.
Notation state := (@dij_state V I L WT DM PM LM).
Notation report := (@dij_report V I L WT DM PM LM).
Notation step := (dij_step vid WT DM PM LM next cfg).
Notation init := (dij_init vid WT DM PM LM cfg starts known lim).

Definition dij_seen (r : report) : V * w_t WT * nat := (dr_vertex r, dr_distance r, dr_depth r).
(** The start vertices on the heap *)
Definition heap_starts (h : list (@entry (V * nat) WT)) : list V := map (fun e => fst (snd e)) (filter (fun e => snd (snd e) =? 0) h).
Definition call_starts (cs : list (V * w_t WT * nat)) : list V := map (fun c => fst (fst c)) (filter (fun c => snd c =? 0) cs).

Definition dij_agenda (os : list report) (s : state) : Prop :=
  filter positive_depth (rev (d_calls s)) = map dij_seen os /\
  exists dropped, Permutation starts (call_starts (d_calls s) ++ heap_starts (d_heap s) ++ dropped).

Lemma heap_starts_push e h : snd (snd e) <> 0 -> Permutation (heap_starts (heappush WT e h)) (heap_starts h).
Proof.
  intros He. unfold heap_starts. apply Permutation_map. rewrite (filter_perm _ _ _ (heappush_perm WT e h)). simpl.
  destruct (snd (snd e) =? 0) eqn:E; auto. apply Nat.eqb_eq in E. contradiction.
Qed.

Lemma heap_starts_heapify l : Permutation (heap_starts (heapify WT l)) (heap_starts l).
Proof. unfold heap_starts. apply Permutation_map, filter_perm, heapify_perm. Qed.

Lemma dij_agenda_step pre s o s' : dij_agenda pre s -> step s = Go o s' -> dij_agenda (pre ++ o) s'.
Proof.
  unfold dij_agenda, dij_step. intros (HA & dr & HB) Hs. rewrite map_app.
  destruct (d_pc s) as [|v w k [|[[n ew] l] rest]].
  - destruct (d_heap s) as [|[[w no] [v k]] h] eqn:Hh; [discriminate|].
    destruct (_ && _).
    + inversion Hs; subst; clear Hs. cbn [d_set_heap d_calls d_heap map]. rewrite app_nil_r. split; [exact HA|].
      unfold heap_starts in HB. cbn [filter snd fst] in HB. destruct (k =? 0); cbn [map fst snd app] in HB.
      * exists (v :: dr). rewrite HB. apply Permutation_app_head. apply Permutation_cons_app. reflexivity.
      * exists dr. exact HB.
    + destruct (limit_check _) as [lm|]; [|discriminate]. inversion Hs; subst; clear Hs.
      cbn [dij_expand dij_settle d_set_heap d_calls d_heap rev]. split.
      * rewrite filter_app, HA. f_equal. unfold positive_depth. cbn [filter snd]. destruct (0 <? k); reflexivity.
      * exists dr. unfold heap_starts in *. unfold call_starts in *. cbn [filter snd fst] in *. destruct (k =? 0); cbn [map fst snd app] in *.
        -- rewrite HB. apply Permutation_sym. apply Permutation_middle.
        -- exact HB.
  - inversion Hs; subst; clear Hs. cbn. rewrite app_nil_r. split; [exact HA|exists dr; exact HB].
  - destruct (w_leb WT (w_inf WT) _); [discriminate|]. destruct (_ && _); inversion Hs; subst; clear Hs; cbn [map]; rewrite app_nil_r; split.
    + exact HA.
    + exists dr. exact HB.
    + exact HA.
    + exists dr. cbn [dij_relax d_calls d_heap]. rewrite heap_starts_push; [exact HB|cbn; discriminate].
Qed.

Lemma dij_start_entries_starts no dist l : heap_starts (start_entries vid WT DM no dist l) = l.
Proof. revert no. unfold heap_starts. induction l as [|v l IH]; intros no; simpl; auto. now rewrite IH. Qed.

Lemma dij_agenda_init : dij_agenda [] init.
Proof.
  split; [reflexivity|]. exists []. cbn [dij_init d_calls d_heap]. rewrite app_nil_r. cbn [call_starts filter map app].
  rewrite heap_starts_heapify.
  rewrite dij_start_entries_starts. reflexivity.
Qed.

Lemma dij_asked n os r : run step n init = (os, r) ->
  all_but_last_at_limit (filter positive_depth (rev (d_calls (outcome_state r)))) (map dij_seen os) r /\
  asked_at_most_once (call_starts (d_calls (outcome_state r))) starts.
Proof.
  intros HR.
  assert (K : forall s1 o, dij_agenda o s1 -> asked_at_most_once (call_starts (d_calls s1)) starts).
  { intros s1 o (_ & dr & H). exists (heap_starts (d_heap s1) ++ dr). exact H. }
  assert (K2 : forall s1 o (r' : outcome state exn), dij_agenda o s1 -> all_but_last_at_limit (filter positive_depth (rev (d_calls s1))) (map dij_seen o) r').
  { intros s1 o r' (H & _). exists []. rewrite app_nil_r. split; [auto|]. split; [simpl; lia|]. intros X. now elim X. }
  pose proof (run_inv_any step dij_agenda dij_agenda_step n [] init os r dij_agenda_init HR) as H. cbn [app] in H.
  destruct r as [s|s|x s]; cbn [outcome_state].
  - split; [apply K2; exact H|exact (K _ _ H)].
  - destruct H as (os1 & o & s1 & -> & H & Hs). unfold dij_step in Hs.
    destruct (d_pc s1) as [|v w k [|[[n0 ew] l] rest]].
    + destruct (d_heap s1) as [|[[w no] [v k]] h] eqn:Hh.
      * inversion Hs; subst. rewrite app_nil_r. split; [apply K2; exact H|exact (K _ _ H)].
      * destruct (_ && _); [discriminate|]. destruct (limit_check _); discriminate.
    + discriminate.
    + destruct (w_leb WT (w_inf WT) _); [discriminate|]. destruct (_ && _); discriminate.
  - destruct H as (os1 & o & s1 & -> & H & Hs). unfold dij_step in Hs.
    destruct (d_pc s1) as [|v w k [|[[n0 ew] l] rest]].
    + destruct (d_heap s1) as [|[[w no] [v k]] h] eqn:Hh; [discriminate|].
      destruct (_ && _); [discriminate|]. destruct (limit_check _); [discriminate|]. inversion Hs; subst; clear Hs.
      split; [|exact (K s1 os1 H)].
      destruct H as (H & _). exists (map dij_seen (if 0 <? k then [dij_observe WT DM PM LM v (dij_settle vid WT DM PM LM cfg (d_set_heap WT DM PM LM s1 h) v w k)] else [])).
      rewrite map_app. split; [f_equal; rewrite <- H; reflexivity|]. split; [destruct (0 <? k); simpl; lia|]. intros _. eexists. reflexivity.
    + discriminate.
    + destruct (w_leb WT (w_inf WT) _).
      * inversion Hs; subst. rewrite app_nil_r. split; [apply K2; exact H|exact (K _ _ H)].
      * destruct (_ && _); discriminate.
Qed.
End Dijkstra.

Section AStar.
Context {V I L : Type}.
Variable vid : V -> I.
Variable WT : Weights.
Variable DM : DMap I (w_t WT) (w_inf WT).
Variable PM : PMap I V.
Variable LM : PMap I L.
Variable next : V -> list (V * w_t WT * L).
Variable cfg : ast_cfg.
Variable heuristic : V -> w_t WT.
Variable starts : list V.
Variables known guesses : option (dm_t DM).
Variable lim : option Z.
Notation state := (@ast_state V I L WT DM PM LM).
Notation report := (@ast_report V I L WT DM PM LM).
Notation step := (ast_step vid WT DM PM LM next cfg heuristic).
Notation init := (ast_init vid WT DM PM LM cfg heuristic starts known guesses lim).

Definition ast_seen (r : report) : V * w_t WT * nat := (ar_vertex r, ar_path_length r, ar_depth r).

Definition ast_agenda (os : list report) (s : state) : Prop :=
  filter positive_depth (rev (a_calls s)) = map ast_seen os /\
  exists dropped, Permutation starts (call_starts WT (a_calls s) ++ heap_starts WT (a_heap s) ++ dropped).

Lemma ast_agenda_step pre s o s' : ast_agenda pre s -> step s = Go o s' -> ast_agenda (pre ++ o) s'.
Proof.
  unfold ast_agenda, ast_step. intros (HA & dr & HB) Hs. rewrite map_app.
  destruct (a_pc s) as [|v w k [|[[n ew] l] rest]].
  - destruct (a_heap s) as [|[[w no] [v k]] h] eqn:Hh; [discriminate|].
    destruct (_ && _).
    + inversion Hs; subst; clear Hs. cbn [a_set_heap a_calls a_heap map]. rewrite app_nil_r. split; [exact HA|].
      unfold heap_starts in HB. cbn [filter snd fst] in HB. destruct (k =? 0); cbn [map fst snd app] in HB.
      * exists (v :: dr). rewrite HB. apply Permutation_app_head. apply Permutation_cons_app. reflexivity.
      * exists dr. exact HB.
    + destruct (limit_check _) as [lm|]; [|discriminate]. inversion Hs; subst; clear Hs.
      cbn [ast_expand ast_export a_set_heap a_calls a_heap rev]. split.
      * rewrite filter_app, HA. f_equal. unfold positive_depth. cbn [filter snd]. destruct (0 <? k); reflexivity.
      * exists dr. unfold heap_starts in *. unfold call_starts in *. cbn [filter snd fst] in *. destruct (k =? 0); cbn [map fst snd app] in *.
        -- rewrite HB. apply Permutation_sym. apply Permutation_middle.
        -- exact HB.
  - inversion Hs; subst; clear Hs. cbn. rewrite app_nil_r. split; [exact HA|exists dr; exact HB].
  - destruct (w_leb WT (w_inf WT) _); [discriminate|]. destruct (_ && _).
    + inversion Hs; subst; clear Hs; cbn [map]; rewrite app_nil_r; split; [exact HA|exists dr; exact HB].
    + assert (Hp : forall g, dr = dr -> filter positive_depth (rev (a_calls (ast_push vid WT DM PM LM cfg (ast_store vid WT DM PM LM cfg s v n (w_add WT ew w) l) v w k n g rest))) = map ast_seen pre ++ [] /\
          exists dropped, Permutation starts (call_starts WT (a_calls (ast_push vid WT DM PM LM cfg (ast_store vid WT DM PM LM cfg s v n (w_add WT ew w) l) v w k n g rest)) ++
                                 heap_starts WT (a_heap (ast_push vid WT DM PM LM cfg (ast_store vid WT DM PM LM cfg s v n (w_add WT ew w) l) v w k n g rest)) ++ dropped)).
      { intros g _. cbn [ast_push ast_store a_calls a_heap]. rewrite app_nil_r. split; [exact HA|]. exists dr. rewrite heap_starts_push; [exact HB|cbn; discriminate]. }
      destruct (w_eqb WT (heuristic n) (w_inf WT)).
      * inversion Hs; subst; clear Hs. apply (Hp _ eq_refl).
      * destruct (w_leb WT (w_inf WT) _); [discriminate|]. inversion Hs; subst; clear Hs. apply (Hp _ eq_refl).
Qed.

Lemma ast_start_entries_starts no g l : heap_starts WT (ast_start_entries vid WT DM no g l) = l.
Proof. revert no. unfold heap_starts. induction l as [|v l IH]; intros no; simpl; auto. now rewrite IH. Qed.

Lemma ast_agenda_init : ast_agenda [] init.
Proof.
  split; [reflexivity|]. exists []. cbn [ast_init a_calls a_heap]. rewrite app_nil_r. cbn [call_starts filter map app].
  rewrite heap_starts_heapify. rewrite ast_start_entries_starts. reflexivity.
Qed.

Lemma ast_asked n os r : run step n init = (os, r) ->
  all_but_last_at_limit (filter positive_depth (rev (a_calls (outcome_state r)))) (map ast_seen os) r /\
  asked_at_most_once (call_starts WT (a_calls (outcome_state r))) starts.
Proof.
  intros HR.
  assert (K : forall s1 o, ast_agenda o s1 -> asked_at_most_once (call_starts WT (a_calls s1)) starts).
  { intros s1 o (_ & dr & H). exists (heap_starts WT (a_heap s1) ++ dr). exact H. }
  assert (K2 : forall s1 o (r' : outcome state exn), ast_agenda o s1 -> all_but_last_at_limit (filter positive_depth (rev (a_calls s1))) (map ast_seen o) r').
  { intros s1 o r' (H & _). exists []. rewrite app_nil_r. split; [auto|]. split; [simpl; lia|]. intros X. now elim X. }
  pose proof (run_inv_any step ast_agenda ast_agenda_step n [] init os r ast_agenda_init HR) as H. cbn [app] in H.
  destruct r as [s|s|x s]; cbn [outcome_state].
  - split; [apply K2; exact H|exact (K _ _ H)].
  - destruct H as (os1 & o & s1 & -> & H & Hs). unfold ast_step in Hs.
    destruct (a_pc s1) as [|v w k [|[[n0 ew] l] rest]].
    + destruct (a_heap s1) as [|[[w no] [v k]] h] eqn:Hh.
      * inversion Hs; subst. rewrite app_nil_r. split; [apply K2; exact H|exact (K _ _ H)].
      * destruct (_ && _); [discriminate|]. destruct (limit_check _); discriminate.
    + discriminate.
    + destruct (w_leb WT (w_inf WT) _); [discriminate|]. destruct (_ && _); [discriminate|].
      destruct (w_eqb WT (heuristic n0) (w_inf WT)); [discriminate|]. destruct (w_leb WT (w_inf WT) _); discriminate.
  - destruct H as (os1 & o & s1 & -> & H & Hs). unfold ast_step in Hs.
    destruct (a_pc s1) as [|v w k [|[[n0 ew] l] rest]].
    + destruct (a_heap s1) as [|[[w no] [v k]] h] eqn:Hh; [discriminate|].
      destruct (_ && _); [discriminate|]. destruct (limit_check _); [discriminate|]. inversion Hs; subst; clear Hs.
      split; [|exact (K s1 os1 H)].
      destruct H as (H & _). exists (map ast_seen (if 0 <? k then [ast_observe WT DM PM LM v (ast_export vid WT DM PM LM (a_set_heap WT DM PM LM s1 h) v k)] else [])).
      rewrite map_app. split; [f_equal; rewrite <- H; reflexivity|]. split; [destruct (0 <? k); simpl; lia|]. intros _. eexists. reflexivity.
    + discriminate.
    + destruct (w_leb WT (w_inf WT) _).
      * inversion Hs; subst. rewrite app_nil_r. split; [apply K2; exact H|exact (K _ _ H)].
      * destruct (_ && _); [discriminate|].
        destruct (w_eqb WT (heuristic n0) (w_inf WT)); [discriminate|]. destruct (w_leb WT (w_inf WT) _); [|discriminate].
        inversion Hs; subst. rewrite app_nil_r. split; [apply (K2 s1 os1); exact H|exact (K s1 os1 H)].
Qed.
End AStar.

Section MST.
Context {V I L : Type}.
Variable vid : V -> I.
Variable WT : Weights.
Variable VS : VSet I.
Variable PM : PMap I V.
Variable LM : PMap I L.
Variable next : V -> list (V * w_t WT * L).
Variable cfg : mst_cfg.
Variable starts : list V.
Variable lim : option Z.
Notation state := (@mst_state V I L WT VS PM LM).
Notation report := (@mst_report V I L WT PM LM).
Notation step := (mst_step vid WT VS PM LM next cfg).
Notation init := (mst_init vid WT VS PM LM cfg starts lim).

Definition mst_agenda (os : list report) (s : state) : Prop :=
  match m_pc s with
  | MStart _ l => l = starts /\ os = [] /\ m_calls s = []
  | _ => rev (m_calls s) = starts ++ map mr_vertex os
  end.

Lemma mst_agenda_step pre s o s' : mst_agenda pre s -> step s = Go o s' -> mst_agenda (pre ++ o) s'.
Proof.
  unfold mst_agenda, mst_step. intros HA Hs.
  destruct (m_pc s) as [l| |v [|e rest]] eqn:Hpc.
  - destruct HA as (-> & -> & HC). destruct (mst_limit_start _ _); inversion Hs; subst; clear Hs. cbn. rewrite HC, !app_nil_r. apply rev_involutive.
  - destruct (m_heap s) as [|[we [v e]] h]; [discriminate|].
    destruct (vs_mem VS _ _).
    + inversion Hs; subst; clear Hs. cbn [m_set_heap m_pc m_calls]. rewrite Hpc, app_nil_r. exact HA.
    + destruct (limit_check _); inversion Hs; subst; clear Hs. cbn [mst_expand mst_choose m_set_heap m_pc m_calls rev]. rewrite map_app, app_assoc, <- HA. reflexivity.
  - inversion Hs; subst; clear Hs. cbn. rewrite app_nil_r. exact HA.
  - destruct (vs_mem VS _ _); inversion Hs; subst; clear Hs; cbn [m_set_pc mst_push m_pc m_calls]; rewrite app_nil_r; exact HA.
Qed.

Lemma mst_asked n os r : run step n init = (os, r) ->
  (forall s, r = Running s -> 0 < n -> rev (m_calls s) = starts ++ map mr_vertex os) /\
  (forall s, r = Ended s -> rev (m_calls s) = starts ++ map mr_vertex os) /\
  asked_in_order (rev (m_calls (outcome_state r))) (starts ++ map mr_vertex os).
Proof.
  intros HR.
  assert (H0 : mst_agenda [] init) by (unfold mst_agenda; cbn; auto).
  assert (K : forall s, r = Running s -> 0 < n -> rev (m_calls s) = starts ++ map mr_vertex os).
  { intros s -> Hn. destruct n as [|n]; [lia|]. pose proof HR as HR'. cbn [run] in HR'.
    destruct (step init) as [o s1|o s1|o x s1] eqn:E; try discriminate.
    unfold mst_step in E. cbn [mst_init m_pc m_limit] in E. destruct (mst_limit_start lim (length starts)) as [l0|] eqn:El; [|discriminate]. inversion E; subst o s1; clear E.
    set (s1 := mst_begin _ _ _ _ _ _ _ _) in HR'.
    set (N := fun (os : list report) (s : state) => mst_agenda os s /\ match m_pc s with MStart _ _ => False | _ => True end).
    destruct (run step n s1) as [os1 r1] eqn:E1. cbn [fst snd app] in HR'. inversion HR'; subst os1 r1; clear HR'.
    assert (HN : N ([] ++ os) s).
    { refine (run_inv_running step N _ n [] s1 os s _ E1).
      - intros pre t o t' [Ha Hb] Ht. split; [exact (mst_agenda_step pre t o t' Ha Ht)|]. unfold mst_step in Ht.
        destruct (m_pc t) as [l| |v [|e rest]] eqn:Hpc; [contradiction| | |].
        + destruct (m_heap t) as [|[we [v e]] h]; [discriminate|]. destruct (vs_mem VS _ _).
          * inversion Ht; subst. cbn. rewrite Hpc. exact Logic.I.
          * destruct (limit_check _); inversion Ht; subst. exact Logic.I.
        + inversion Ht; subst. exact Logic.I.
        + destruct (vs_mem VS _ _); inversion Ht; subst; exact Logic.I.
      - split; [|exact Logic.I]. unfold mst_agenda, s1. cbn. rewrite !app_nil_r. apply rev_involutive. }
    destruct HN as [Ha Hb]. unfold mst_agenda in Ha. cbn [app] in Ha. destruct (m_pc s); [contradiction|exact Ha|exact Ha]. }
  pose proof (run_inv_any step mst_agenda mst_agenda_step n [] init os r H0 HR) as H. cbn [app] in H.
  assert (K2 : forall s o, mst_agenda o s -> asked_in_order (rev (m_calls s)) (starts ++ map mr_vertex o)).
  { intros s o Ha. unfold mst_agenda in Ha. destruct (m_pc s).
    - destruct Ha as (_ & -> & ->). exists starts. cbn. now rewrite app_nil_r.
    - exists []. now rewrite app_nil_r.
    - exists []. now rewrite app_nil_r. }
  split; [exact K|]. destruct r as [s|s|x s]; cbn [outcome_state].
  - split; [discriminate|]. apply K2, H.
  - destruct H as (os1 & o & s1 & -> & H & Hs). unfold mst_step in Hs.
    destruct (m_pc s1) as [l| |v [|e rest]] eqn:Hpc.
    + destruct (mst_limit_start _ _); discriminate.
    + destruct (m_heap s1) as [|[we [v e]] h] eqn:Hh.
      * inversion Hs; subst; clear Hs. rewrite app_nil_r. split; [|apply K2, H].
        intros s0 Hs0. inversion Hs0; subst. unfold mst_agenda in H. rewrite Hpc in H. exact H.
      * destruct (vs_mem VS _ _); [discriminate|]. destruct (limit_check _); discriminate.
    + discriminate.
    + destruct (vs_mem VS _ _); discriminate.
  - split; [discriminate|]. destruct H as (os1 & o & s1 & -> & H & Hs). unfold mst_step in Hs.
    destruct (m_pc s1) as [l| |v [|e rest]] eqn:Hpc.
    + destruct (mst_limit_start _ _); [discriminate|]. inversion Hs; subst. rewrite app_nil_r. apply K2, H.
    + destruct (m_heap s1) as [|[we [v e]] h] eqn:Hh; [discriminate|].
      destruct (vs_mem VS _ _); [discriminate|]. destruct (limit_check _); [discriminate|]. inversion Hs; subst; clear Hs.
      cbn [mst_choose m_set_heap m_calls]. destruct (K2 _ _ H) as (w & Hw). rewrite map_app, app_assoc, Hw. eexists. rewrite <- app_assoc. reflexivity.
    + discriminate.
    + destruct (vs_mem VS _ _); discriminate.
Qed.
End MST.
