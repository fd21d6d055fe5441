(** The traversal with trace follows a depth-first search in the sense of DFSSpec. *)
From Coq Require Import List Bool Arith ZArith Lia.
From Verif Require Import Machine GearSpec Common Spec TraversalSpec DFSModel DFSSpec DFSLog DFSLogMore DFSReports.
Import ListNotations.

(** Decidable equality of ids, from the operations of a set. *)
Lemma vs_dec {I} (VS : VSet I) (i j : I) : {i = j} + {i <> j}.
Proof.
  destruct (vs_mem VS i (vs_add VS j (vs_empty VS))) eqn:E.
  - left. apply vs_mem_add in E. destruct E as [E|E]; auto. rewrite vs_mem_empty in E. discriminate.
  - right. intros ->. assert (vs_mem VS j (vs_add VS j (vs_empty VS)) = true) by (apply vs_mem_add; auto). congruence.
Qed.

Section Lists.
Context {A B : Type}.
Lemma firstn_S_nth (l : list A) : forall r x, nth_error l r = Some x -> firstn (S r) l = firstn r l ++ [x].
Proof.
  induction l as [|a l IH]; intros [|r] x H; simpl in *; try discriminate.
  - injection H as <-. reflexivity.
  - f_equal. apply IH; auto.
Qed.
Lemma map_const_repeat (b : B) (l : list A) : map (fun _ => b) l = repeat b (length l).
Proof. induction l; simpl; congruence. Qed.
Lemma skipn_nth (l : list A) : forall k x, nth_error l k = Some x -> skipn k l = x :: skipn (S k) l.
Proof.
  induction l as [|a l IH]; intros [|k] x H; simpl in *; try discriminate.
  - injection H as <-. reflexivity.
  - apply IH; auto.
Qed.
Lemma skipn_nth_inv (l : list A) : forall k x r, skipn k l = x :: r -> nth_error l k = Some x /\ r = skipn (S k) l.
Proof.
  induction l as [|a l IH]; intros [|k] x r H; simpl in *; try discriminate.
  - injection H as <- <-. auto.
  - apply IH in H. exact H.
Qed.
End Lists.

(** Facts about the options that [dfs_options] grants. *)
Record cfg_ok (cfg : dfs_cfg) (av : bool) : Prop := {
  ok_index : dc_report cfg FORWARD_EDGE = true \/ dc_report cfg CROSS_EDGE = true ->
             dc_compute_index cfg = true /\ av = false /\ dc_mode cfg = DFS_TREE /\ dc_is_tree cfg = false;
  ok_back : dc_report cfg BACK_EDGE = true -> dc_compute_on_trace cfg = true;
  ok_paths : dc_mode cfg = ALL_PATHS -> dc_is_tree cfg = false -> dc_compute_on_trace cfg = true;
  ok_on_trace : dc_compute_on_trace cfg = true -> dc_is_tree cfg = false /\ dc_mode cfg <> ALL_WALKS;
  ok_cross : dc_report cfg CROSS_EDGE = true -> dc_compute_on_trace cfg = true;
  ok_walks : dc_mode cfg = ALL_WALKS -> dc_build_paths cfg = false;
  ok_av : dc_compute_index cfg = true -> av = false;
  ok_group : dc_report cfg SOME_NON_TREE_EDGE = true ->
    dc_report cfg FORWARD_EDGE = false /\ dc_report cfg BACK_EDGE = false /\ dc_report cfg CROSS_EDGE = false
}.

Lemma dfs_options_ok o av cfg : dfs_options o av = inl cfg -> cfg_ok cfg av.
Proof.
  unfold dfs_options. intros H.
  destruct o as [it bp lb md R cd ct co ci]; cbn in H.
  destruct (R FORWARD_EDGE) eqn:EF; destruct (R BACK_EDGE) eqn:EB; destruct (R CROSS_EDGE) eqn:EC;
    destruct (R SOME_NON_TREE_EDGE) eqn:ES; destruct (R FORWARD_OR_CROSS_EDGE) eqn:EFC; destruct it; destruct md; destruct co; destruct ci;
    cbn in H; try discriminate; destruct bp; cbn in H; try discriminate; destruct av; cbn in H; try discriminate;
    injection H as <-; constructor; cbn; rewrite ?EF, ?EB, ?EC, ?ES;
    intuition (try congruence).
Qed.

(** Conversely, options that are granted are those the documentation allows; see C50 and the theorems about options. *)

Section DFS.
Context {V I L : Type}.
Variable V_dec : forall a b : V, {a = b} + {a <> b}.
Variable vid : V -> I.
Variable VS : VSet I.
Variable PM : PMap I V.
Variable LM : PMap I L.
Variable XM : DMap I Z 0%Z.
Variable next : V -> list (V * L).
Variable starts : list V.
Variable cfg : dfs_cfg.
Variable skip : nat -> bool.
Variable av : option (vs_t VS).
Hypothesis Hok : cfg_ok cfg (match av with Some _ => true | None => false end).

Notation report := (@dfs_report V I L VS PM LM XM).
Notation state := (@dfs_state V I L VS PM LM XM).
Notation node := (node V).
Notation log_t := (log_t V).
Notation pol := (dfs_policy VS cfg av).
Notation dfs_log := (dfs_log vid next starts pol).
Notation ids := (ids vid).
Notation step := (dfs_step V_dec vid VS PM LM XM next cfg skip).
Notation init lim := (dfs_init vid VS PM LM XM cfg starts av lim).
Notation shown := (shown V_dec cfg).
Notation stored := (stored vid VS PM LM next starts cfg av).

Definition I_dec : forall a b : I, {a = b} + {a <> b} := vs_dec VS.

(** ** Decidability of the kinds of edges *)
Lemma node_dec (p q : node) : {p = q} + {p <> q}.
Proof. repeat decide equality. Qed.

Lemma continues_iff (q p : node) : continues q p <-> length p < length q /\ skipn (length q - length p) q = p.
Proof.
  split.
  - intros (d & Hd & ->). rewrite app_length. split; [destruct d; [congruence|simpl; lia]|].
    replace (length d + length p - length p) with (length d) by lia.
    clear. induction d; simpl; auto.
  - intros [Hl E]. exists (firstn (length q - length p) q). split.
    + intros E0. apply (f_equal (@length _)) in E0. rewrite firstn_length in E0. simpl in E0. lia.
    + rewrite <- E at 2. symmetry. apply firstn_skipn.
Qed.

Lemma continues_dec (q p : node) : {continues q p} + {~ continues q p}.
Proof.
  destruct (lt_dec (length p) (length q)) as [Hl|Hl]; [|right; rewrite continues_iff; tauto].
  destruct (node_dec (skipn (length q - length p) q) p) as [E|E]; [left|right]; rewrite continues_iff; tauto.
Qed.

Lemma leads_back_dec p n : {leads_back vid p n} + {~ leads_back vid p n}.
Proof. apply in_dec. apply I_dec. Qed.

Lemma leads_forward_dec log p n : {leads_forward vid log p n} + {~ leads_forward vid log p n}.
Proof.
  set (Q := fun q : node => match q with (_, v) :: _ => vid v = vid n /\ continues q p | [] => False end).
  assert (D : forall q, {Q q} + {~ Q q}).
  { intros [|(j & v) q]; simpl; [tauto|]. destruct (I_dec (vid v) (vid n)); [|tauto]. destruct (continues_dec ((j, v) :: q) p); tauto. }
  destruct (Exists_dec Q (enters log) D) as [H|H].
  - left. apply Exists_exists in H. destruct H as ([|(j & v) q] & Hin & HQ); [destruct HQ|]. apply in_enters in Hin.
    destruct HQ. exists j, v, q. auto.
  - right. intros (j & v & q & He & Hv & Hc). apply H. apply Exists_exists. exists ((j, v) :: q). split; [apply in_enters; auto|simpl; auto].
Qed.

Lemma kind_exists log p n : exists k, has_kind vid log p n k.
Proof.
  destruct (leads_back_dec p n) as [H|H]; [exists KBack; exact H|].
  destruct (leads_forward_dec log p n) as [H'|H']; [exists KForward|exists KCross]; split; auto.
Qed.

(** ** The state of the loop and the log *)
Definition seg (x : node * nat) : list V :=
  match x with ((_, u) :: _, r) => rev (firstn r (map fst (next u))) | ([], _) => [] end.
Definition lseg (x : node * nat) : list L :=
  match x with ((_, u) :: _, r) => rev (firstn r (map snd (next u))) | ([], _) => [] end.
Definition marks (x : node * nat) : list bool := repeat false (snd x) ++ [true].
Definition top (open : list (node * nat)) : node := match open with (p, _) :: _ => p | [] => [] end.
Definition all_le (open : list (node * nat)) : Prop := forall j u p r, In ((j, u) :: p, r) open -> r <= length (next u).

Definition calls_of (log : log_t) : list (V * Z) :=
  flat_map (fun x => match x with (LEnter true, ((_, v) :: _) as p) => [(v, if dc_compute_depth cfg then node_depth p else (-1)%Z)] | _ => [] end) log.

Record SimS (os : list report) (log : log_t) (k : nat) (open : list (node * nat)) (pend : option V) (s : state) : Prop := {
  sm_pc : match f_pc s with
          | FStarts => open = [] /\ pend = None
          | FLoop b => b = false -> open = [] \/ f_event s = Some LEAVING_SUCCESSOR
          end;
  sm_pend : match pend with
            | Some v => open = [] /\ nth_error starts k = Some v /\ f_starts s = skipn (S k) starts /\ f_start s = Some v
            | None => f_starts s = skipn k starts
            end;
  sm_to_visit : f_to_visit s = match pend with Some v => [v] | None => [] end ++ flat_map seg open;
  sm_markers : f_markers s = match pend with Some _ => [false] | None => [] end ++ flat_map marks open;
  sm_trace : f_trace s = verts (top open);
  sm_start : forall s0 rest, rev (verts (top open)) = s0 :: rest -> f_start s = Some s0;
  sm_tvl : dc_labeled cfg = true -> exists stale, f_to_visit_labels s = flat_map lseg open ++ stale;
  sm_bound : dc_labeled cfg = true -> f_to_visit_labels s <> [] -> f_var_labels s <> None;
  sm_last : dc_labeled cfg = true -> forall j u p r o n l, open = ((j, u) :: p, S r) :: o -> S r = length (next u) ->
            nth_error (next u) r = Some (n, l) -> f_var_labels s = Some l;
  sm_tlab : dc_labeled cfg = true -> trace_labels_ok next (top open) (f_trace_labels s);
  sm_on_trace : dc_compute_on_trace cfg = true -> forall i, vs_mem VS i (f_on_trace s) = true <-> In i (ids (top open));
  sm_visited : match pol with
               | PTree P => forall i, vs_mem VS i (f_visited s) = true <-> P i \/ entered_id vid log i
               | _ => True
               end;
  sm_time : dc_compute_index cfg = true -> f_time s = (Z.of_nat (length (enters log)) + 1)%Z;
  sm_index : dc_compute_index cfg = true ->
             match pol with
             | PTree _ => forall l1 b j v q l2, log = l1 ++ (LEnter b, (j, v) :: q) :: l2 ->
                 dm_get XM (vid v) (f_index s) = (Z.of_nat (length (enters l2)) + 1)%Z
             | _ => True
             end;
  sm_depth : f_depth s = if dc_compute_depth cfg then node_depth (top open) else (-1)%Z;
  sm_stored : stored false log (top open) (f_pred s) (f_labels s);
  sm_dom : forall i, pm_get PM i (f_pred s) <> None -> entered_id vid log i;
  sm_count : f_count s = length os;
  sm_calls : f_calls s = calls_of log;
  sm_reports : reports V_dec VS PM LM XM cfg skip (fun lg e p r => sees vid VS PM LM XM next starts cfg av false lg e p r /\
                 sees_trace vid VS PM LM XM next cfg av lg e p r) log (rev os)
}.

Definition Sim os log k open pend s : Prop := dfs_log log k open /\ SimS os log k open pend s.

(** ** Lists *)
Lemma seg_take j u (p : node) r n l : nth_error (next u) r = Some (n, l) -> seg ((j, u) :: p, S r) = n :: seg ((j, u) :: p, r).
Proof.
  intros H. unfold seg. rewrite (firstn_S_nth _ r n); [rewrite rev_app_distr; reflexivity|].
  rewrite nth_error_map, H. reflexivity.
Qed.
Lemma lseg_take j u (p : node) r n l : nth_error (next u) r = Some (n, l) -> lseg ((j, u) :: p, S r) = l :: lseg ((j, u) :: p, r).
Proof.
  intros H. unfold lseg. rewrite (firstn_S_nth _ r l); [rewrite rev_app_distr; reflexivity|].
  rewrite nth_error_map, H. reflexivity.
Qed.
Lemma seg_all j u (p : node) : seg ((j, u) :: p, edge_count next u) = rev (map fst (next u)).
Proof. unfold seg, edge_count. rewrite <- (map_length fst (next u)), firstn_all. reflexivity. Qed.
Lemma lseg_all j u (p : node) : lseg ((j, u) :: p, edge_count next u) = rev (map snd (next u)).
Proof. unfold lseg, edge_count. rewrite <- (map_length snd (next u)), firstn_all. reflexivity. Qed.
Lemma seg_none p : seg (p, 0) = [].
Proof. destruct p as [|(j & u) p]; reflexivity. Qed.
Lemma lseg_none p : lseg (p, 0) = [].
Proof. destruct p as [|(j & u) p]; reflexivity. Qed.

Lemma log_kids_in log k open : dfs_log log k open -> forall j u p r, In ((j, u) :: p, r) open -> r <= length (next u).
Proof. intros H. apply LogInv_holds in H. apply (li_rest _ _ _ _ _ H). Qed.

(** If no vertex waits below, all edges of the walk are first edges. *)
Lemma nothing_waits open : chain open -> (forall j u p r, In ((j, u) :: p, r) open -> r <= length (next u)) ->
  flat_map seg open = [] -> forall p r o, open = (p, r) :: o -> r = 0 /\ forall x, In x (removelast p) -> fst x = 0.
Proof.
  induction 1 as [|y r0|i n p r o Hc IH]; intros Hle Hf q rq oq E; try discriminate; injection E as <- <- <-.
  - split; [|intros x []]. destruct y as [j u]. cbn [flat_map seg] in Hf. rewrite app_nil_r in Hf.
    pose proof (Hle j u [] r0 (or_introl eq_refl)). destruct r0; auto. exfalso.
    apply (f_equal (@length _)) in Hf. rewrite rev_length, firstn_length, map_length in Hf. cbn [length] in Hf. lia.
  - cbn [flat_map] in Hf. apply app_eq_nil in Hf. destruct Hf as [Hf1 Hf2].
    assert (Hle2 : forall j u p0 r0, In ((j, u) :: p0, r0) ((p, i) :: o) -> r0 <= length (next u)) by (intros; eapply Hle; right; eauto).
    destruct (IH Hle2 Hf2 p i o eq_refl) as (-> & Hx). split.
    + pose proof (Hle 0 n p r (or_introl eq_refl)). cbn [seg] in Hf1. destruct r; auto. exfalso.
      apply (f_equal (@length _)) in Hf1. rewrite rev_length, firstn_length, map_length in Hf1. cbn [length] in Hf1. lia.
    + intros x Hin. destruct p as [|y p]; [destruct Hin|]. change (removelast ((0, n) :: y :: p)) with ((0, n) :: removelast (y :: p)) in Hin.
      destruct Hin as [<-|Hin]; auto.
Qed.

Lemma open_dnode log k open : dfs_log log k open -> forall p r, In (p, r) open -> exists j u q, p = (j, u) :: q.
Proof.
  intros H p r Hin. pose proof (open_entered _ _ _ _ _ _ _ H _ _ Hin) as He.
  pose proof (dnode_nonempty _ _ _ (entered_dnode _ _ _ _ _ _ _ H _ He)) as Hn.
  destruct p as [|(j & u) q]; [congruence|]. eauto.
Qed.

Lemma log_first log k open : dfs_log log k open -> k = 0 -> log = [] /\ open = [].
Proof. induction 1; intros; subst; auto; try discriminate; destruct IHdfs_log; auto; discriminate. Qed.

Lemma sim_init lim : Sim [] [] 0 [] None (init lim).
Proof.
  split; [constructor|]. constructor; cbn; auto.
  - discriminate.
  - intros _. exists []. reflexivity.
  - intros _ H. congruence.
  - constructor.
  - intros _ i. rewrite vs_mem_empty. split; [discriminate|tauto].
  - unfold dfs_policy. destruct (dc_is_tree cfg) eqn:Et; auto. destruct (dc_mode cfg); auto. intros i. unfold define_visited, in_already_visited.
    destruct av as [a|]; simpl.
    + split; [auto|]. intros [H|H]; auto. destruct H as (? & ? & ? & (? & []) & _).
    + rewrite vs_mem_empty. split; [discriminate|]. intros [[]|H]. destruct H as (? & ? & ? & (? & []) & _).
  - intros _. destruct pol; auto. intros [|? ?]; discriminate.
  - destruct (dc_compute_depth cfg); reflexivity.
  - intros _ _. destruct pol; auto.
    + intros q (b & []).
    + intros _ d q E Hq. destruct d; simpl in E; congruence.
    + intros _ q (b & []).
  - intros i H. exfalso. apply H. destruct (dc_build_paths cfg); simpl; apply pm_get_empty.
  - constructor.
Qed.

(** ** Steps *)
Lemma sim_begin os log k v rest s : Sim os log k [] None s -> f_starts s = v :: rest -> Sim os log k [] (Some v) (dfs_begin VS PM LM XM s v rest).
Proof.
  intros (Hl & H) Hs. split; auto. destruct H. simpl in sm_pend0.
  rewrite sm_pend0 in Hs. apply skipn_nth_inv in Hs. destruct Hs as (Hn & ->).
  constructor; cbn; auto.
  - rewrite sm_to_visit0. reflexivity.
  - rewrite sm_markers0. reflexivity.
  - discriminate.
Qed.

Lemma sim_finish os log k s : Sim os log k [] None s -> Sim os log k [] None (dfs_finish VS PM LM XM s).
Proof. intros (Hl & H). split; auto. destruct H. constructor; cbn; auto. Qed.

Lemma reports_one os log e j v p rep ev :
  reports V_dec VS PM LM XM cfg skip (fun lg e p r => sees vid VS PM LM XM next starts cfg av false lg e p r /\
                 sees_trace vid VS PM LM XM next cfg av lg e p r) log (rev os) ->
  shown e ((j, v) :: p) = Some ev -> fr_event rep = Some ev -> fr_vertex rep = v ->
  sees vid VS PM LM XM next starts cfg av false ((e, (j, v) :: p) :: log) e ((j, v) :: p) rep ->
  sees_trace vid VS PM LM XM next cfg av ((e, (j, v) :: p) :: log) e ((j, v) :: p) rep ->
  (forall b, e = LEnter b -> b = negb (skip (length os))) ->
  reports V_dec VS PM LM XM cfg skip (fun lg e p r => sees vid VS PM LM XM next starts cfg av false lg e p r /\
                 sees_trace vid VS PM LM XM next cfg av lg e p r) ((e, (j, v) :: p) :: log) (rev (os ++ [rep])).
Proof.
  intros H1 H2 H3 H4 H5 H6 H7. rewrite rev_app_distr. simpl. apply rs_shown; auto.
  - congruence.
  - congruence.
  - intros b E. rewrite rev_length. auto.
Qed.

Lemma entered_leave (log : log_t) p q : entered ((LLeave, p) :: log) q <-> entered log q.
Proof. split; intros (b & H); [destruct H as [E|H]; [discriminate|]|]; exists b; simpl; auto. Qed.

Lemma entered_id_leave log p i : entered_id vid ((LLeave, p) :: log) i <-> entered_id vid log i.
Proof. split; intros (j & v & q & H & E); exists j, v, q; split; auto; apply (entered_leave log p); auto. Qed.

Lemma verts_nil (p : node) : verts p = [] -> p = [].
Proof. destruct p; simpl; congruence. Qed.

(** The trace has no id twice, if ids on the trace are kept. *)
Lemma on_trace_simple log k open : dfs_log log k open -> dc_compute_on_trace cfg = true -> forall p, entered log p -> NoDup (ids p).
Proof.
  intros Hl Hc p Hp. destruct (ok_on_trace _ _ Hok Hc) as (Ht & Hw). revert Hl. unfold dfs_policy. rewrite Ht.
  destruct (dc_mode cfg); intros Hl; [|..|congruence].
  - eapply tree_simple; eauto.
  - eapply paths_simple; eauto.
Qed.

Definition no_enter (e : log_event) : Prop := forall b, e <> LEnter b.

Lemma entered_other (log : log_t) e p q : no_enter e -> (entered ((e, p) :: log) q <-> entered log q).
Proof. intros Hn. split; intros (b & H); [destruct H as [E|H]; [injection E as E _; destruct (Hn b E)|]|]; exists b; simpl; auto. Qed.

Lemma entered_id_other log e p i : no_enter e -> (entered_id vid ((e, p) :: log) i <-> entered_id vid log i).
Proof. intros Hn. split; intros (j & v & q & H & E); exists j, v, q; split; auto; apply (entered_other log e p _ Hn); auto. Qed.

Lemma enters_other (log : log_t) e p : no_enter e -> enters ((e, p) :: log) = enters log.
Proof. intros Hn. unfold enters. simpl. destruct e; try reflexivity. destruct (Hn expanded eq_refl). Qed.

Lemma calls_other log e p : no_enter e -> calls_of ((e, p) :: log) = calls_of log.
Proof. intros Hn. unfold calls_of. simpl. destruct e; try reflexivity. destruct (Hn expanded eq_refl). Qed.

Lemma stored_other log e p cur pred labels : no_enter e -> stored false log cur pred labels -> stored false ((e, p) :: log) cur pred labels.
Proof.
  intros Hn H Hb Hg. specialize (H Hb Hg). destruct pol; auto.
  - intros q Hq. apply H. apply (entered_other log e p q Hn); auto.
  - intros Ht q Hq. apply (H Ht). apply (entered_other log e p q Hn); auto.
Qed.

Lemma stored_suffix log d cur pred labels : stored false log (d ++ cur) pred labels -> stored false log cur pred labels.
Proof.
  intros H Hb Hg. specialize (H Hb Hg). destruct pol; auto. intros Hs d' q E Hq. apply (H Hs (d ++ d') q); auto. rewrite E, app_assoc. reflexivity.
Qed.

Lemma index_other (log : log_t) e p (idx : dm_t XM) : no_enter e ->
  match pol with
  | PTree _ => forall l1 b j v q l2, log = l1 ++ (LEnter b, (j, v) :: q) :: l2 ->
      dm_get XM (vid v) idx = (Z.of_nat (length (enters l2)) + 1)%Z
  | _ => True
  end ->
  match pol with
  | PTree _ => forall l1 b j v q l2, (e, p) :: log = l1 ++ (LEnter b, (j, v) :: q) :: l2 ->
      dm_get XM (vid v) idx = (Z.of_nat (length (enters l2)) + 1)%Z
  | _ => True
  end.
Proof.
  intros Hn H. destruct pol; auto. intros [|x l1] b j v q l2 E; simpl in E.
  - injection E as E _. destruct (Hn b E).
  - injection E as _ E. eapply H; eauto.
Qed.

Lemma visited_other (log : log_t) e p (vis : vs_t VS) : no_enter e ->
  match pol with PTree P => forall i, vs_mem VS i vis = true <-> P i \/ entered_id vid log i | _ => True end ->
  match pol with PTree P => forall i, vs_mem VS i vis = true <-> P i \/ entered_id vid ((e, p) :: log) i | _ => True end.
Proof. intros Hn H. destruct pol; auto. intros i. rewrite H, (entered_id_other log e p i Hn). reflexivity. Qed.

(** What is seen at an event that is not entering, from the state. *)
Lemma sees_state os log k open s e p rep :
  SimS os log k open None s -> no_enter e -> top open = current e p ->
  fr_depth rep = f_depth s -> fr_visited rep = f_visited s -> fr_pred rep = f_pred s -> fr_labels rep = f_labels s ->
  sees vid VS PM LM XM next starts cfg av false ((e, p) :: log) e p rep.
Proof.
  intros H Hn Ht E1 E2 E3 E4. destruct H. constructor.
  - rewrite E1, sm_depth0, Ht. reflexivity.
  - rewrite E2. apply visited_other; auto.
  - rewrite E3, E4, <- Ht. apply stored_other; auto.
Qed.

Lemma sees_trace_state os log k open s e p rep :
  SimS os log k open None s -> no_enter e -> top open = current e p ->
  fr_trace rep = rev (verts p) -> (dc_labeled cfg = true -> trace_labels_ok next p (rev (fr_trace_labels rep))) ->
  fr_on_trace rep = f_on_trace s -> fr_index rep = f_index s ->
  sees_trace vid VS PM LM XM next cfg av ((e, p) :: log) e p rep.
Proof.
  intros H Hn Ht E1 E2 E3 E4. destruct H. constructor; auto.
  - rewrite E3, <- Ht. auto.
  - intros Hi. rewrite E4. apply (index_other log e p (f_index s) Hn (sm_index0 Hi)).
Qed.

Lemma tlo_inv x y q ls : trace_labels_ok next (x :: y :: q) ls -> exists l ls', ls = l :: ls' /\ trace_labels_ok next (y :: q) ls'.
Proof. intros H. inversion H; subst. eauto. Qed.

Lemma sim_leave os log k p open s b : Sim os log k ((p, 0) :: open) None s -> f_pc s = FLoop b ->
  exists o s', dfs_leave vid VS PM LM XM cfg s b (flat_map marks open) = Go o s' /\ Sim (os ++ o) ((LLeave, p) :: log) k open None s'.
Proof.
  intros (Hl & H) Hpc.
  destruct (open_dnode _ _ _ Hl p 0 (or_introl eq_refl)) as (j & u & q & Ep).
  assert (Hl' : dfs_log ((LLeave, p) :: log) k open) by (constructor; exact Hl).
  assert (Hn : no_enter LLeave) by (intros b0; discriminate).
  assert (Hchain := dl_chain _ _ _ _ _ _ _ Hl).
  assert (Hlen := chain_length _ Hchain p 0 open eq_refl).
  assert (Htr : f_trace s = u :: verts q) by (destruct H; rewrite sm_trace0; simpl; rewrite Ep; reflexivity).
  assert (Hq : q = top open).
  { inversion Hchain; subst; simpl in *; congruence. }
  (* the state after the report *)
  assert (Hgen : forall ev, shown LLeave p = (if dc_report cfg ev then Some ev else None) ->
     forall s1, (dc_report cfg ev = true -> s1 = dfs_show VS PM LM XM s (Some ev) (f_trace s) (f_trace_labels s)) ->
                (dc_report cfg ev = false -> s1 = s) ->
     reports V_dec VS PM LM XM cfg skip (fun lg e p r => sees vid VS PM LM XM next starts cfg av false lg e p r /\
        sees_trace vid VS PM LM XM next cfg av lg e p r) ((LLeave, p) :: log)
        (rev (os ++ (if dc_report cfg ev then [dfs_observe VS PM LM XM u s1] else [])))).
  { intros ev Hev s1 Hs1 Hs0. destruct (dc_report cfg ev) eqn:Er.
    - rewrite (Hs1 eq_refl). subst p. eapply reports_one; [apply (sm_reports _ _ _ _ _ _ H)|exact Hev|reflexivity|reflexivity| | |].
      + eapply sees_state; [exact H|exact Hn|reflexivity|reflexivity..].
      + eapply sees_trace_state; [exact H|exact Hn|reflexivity| | |reflexivity|reflexivity].
        * cbn. rewrite Htr. reflexivity.
        * intros Hlb. cbn. rewrite rev_involutive. apply (sm_tlab _ _ _ _ _ _ H Hlb).
      + intros b0; discriminate.
    - rewrite app_nil_r. apply rs_hidden; [apply (sm_reports _ _ _ _ _ _ H)|exact Hev|intros b0; discriminate]. }
  (* the state after leaving *)
  assert (Hleft : forall ev nl tl o, (o = [] /\ ev = f_event s \/ (exists r, o = [r])) ->
     (dc_labeled cfg = true -> trace_labels_ok next (top open) tl) ->
     (nl = false -> open = [] \/ ev = Some LEAVING_SUCCESSOR) ->
     reports V_dec VS PM LM XM cfg skip (fun lg e p r => sees vid VS PM LM XM next starts cfg av false lg e p r /\
        sees_trace vid VS PM LM XM next cfg av lg e p r) ((LLeave, p) :: log) (rev (os ++ o)) ->
     SimS (os ++ o) ((LLeave, p) :: log) k open None
       (dfs_left vid VS PM LM XM cfg (dfs_show VS PM LM XM s ev (f_trace s) (f_trace_labels s)) nl u (flat_map marks open) (verts q) tl (length o))).
  { intros ev nl tl o Ho Htl Hnl Hrep. pose proof H as H0. destruct H0. constructor; cbn; auto.
    - rewrite sm_to_visit0. cbn [flat_map app]. rewrite seg_none. reflexivity.
    - rewrite Hq. reflexivity.
    - intros s0 rest Hr. apply (sm_start0 s0 (rest ++ [u])). cbn. rewrite Ep. cbn. fold (verts q). rewrite Hq, Hr. reflexivity.
    - intros Hlb. destruct (sm_tvl0 Hlb) as (stale & E). exists stale. rewrite E. cbn [flat_map app]. rewrite lseg_none. reflexivity.
    - intros Hlb j0 u0 p0 r o0 n l Eo Elen Hnth. exfalso.
      (* below the top, an edge has been taken *)
      assert (Hd : dnode next starts p).
      { eapply entered_dnode; [exact Hl|]. eapply open_entered; [exact Hl|left; reflexivity]. }
      pose proof Hchain as Hch. rewrite Eo in Hch. inversion Hch as [| |i m pp r0 oo Hcc Ea]. subst i pp. rewrite <- Ea in Hd.
      apply dnode_edge_inv in Hd. destruct Hd as (_ & l1 & Hn1).
      assert (S r < length (next u0)) by (apply nth_error_Some; congruence). lia.
    - intros Hc i. rewrite Hc. rewrite vs_mem_discard, (sm_on_trace0 Hc). cbn. rewrite Ep. cbn. fold (ids q). rewrite Hq.
      assert (ND : NoDup (ids p)) by (apply (on_trace_simple _ _ _ Hl Hc); eapply open_entered; [exact Hl|left; reflexivity]).
      rewrite Ep in ND. cbn in ND. fold (ids q) in ND. rewrite Hq in ND. inversion ND; subst.
      split; [intros [Hne [E|Hin]]; [congruence|auto]|]. intros Hin. split; [intros ->; contradiction|auto].
    - apply visited_other; auto.
    - intros Hi. apply (index_other log LLeave p (f_index s) Hn (sm_index0 Hi)).
    - rewrite sm_depth0. destruct (dc_compute_depth cfg); auto. cbn. rewrite Ep. unfold node_depth. rewrite <- Hq. cbn [length]. lia.
    - apply stored_other; auto. eapply (stored_suffix _ [(j, u)]). cbn. rewrite <- Hq, <- Ep. exact sm_stored0.
    - intros i Hi. apply entered_id_leave. auto.
    - rewrite app_length, sm_count0. reflexivity.
    }
  unfold dfs_leave. rewrite Htr.
  destruct (flat_map marks open) as [|mk m] eqn:Em.
  - (* the start vertex *)
    assert (Eo : open = []).
    { destruct open as [|x o]; auto. cbn in Em. unfold marks in Em. destruct (snd x); cbn in Em; discriminate. }
    rewrite Eo in Hlen. cbn in Hlen.
    assert (Hev : shown LLeave p = if dc_report cfg LEAVING_START then Some LEAVING_START else None).
    { unfold DFSReports.shown, event_of. rewrite Hlen. reflexivity. }
    eexists. eexists. split; [reflexivity|]. split; [exact Hl'|].
    assert (Htl : dc_labeled cfg = true -> trace_labels_ok next (top open) (f_trace_labels s)).
    { intros Hlb. pose proof (sm_tlab _ _ _ _ _ _ H Hlb) as Ht. rewrite Eo. cbn in Ht. rewrite Ep, Hq, Eo in Ht. cbn in Ht. inversion Ht; subst. constructor. }
    destruct (dc_report cfg LEAVING_START) eqn:Er.
    + cbn [f_trace_labels dfs_show]. rewrite <- Htr. apply (Hleft (Some LEAVING_START)); [right; eauto|exact Htl|left; exact Eo|].
      specialize (Hgen LEAVING_START). rewrite Er in Hgen. apply Hgen; auto. discriminate.
    + specialize (Hleft (f_event s) b (f_trace_labels s) []). rewrite app_nil_r in Hleft. rewrite app_nil_r.
      assert (Hsame : dfs_show VS PM LM XM s (f_event s) (f_trace s) (f_trace_labels s) = s) by (destruct s; reflexivity).
      rewrite Hsame in Hleft. apply Hleft; auto.
      specialize (Hgen LEAVING_START). rewrite Er in Hgen. rewrite <- (app_nil_r os). apply (Hgen Hev s); auto. discriminate.
  - assert (Eo : open <> []) by (intros ->; discriminate).
    assert (Hlen' : (length p =? 1) = false).
    { apply Nat.eqb_neq. rewrite Hlen. destruct open; [congruence|cbn; lia]. }
    assert (Hev : shown LLeave p = if dc_report cfg LEAVING_SUCCESSOR then Some LEAVING_SUCCESSOR else None).
    { unfold DFSReports.shown, event_of. rewrite Hlen'. reflexivity. }
    assert (Hb : b = false -> f_event s = Some LEAVING_SUCCESSOR).
    { intros E. pose proof (sm_pc _ _ _ _ _ _ H) as Hx. rewrite Hpc in Hx. destruct (Hx E); [discriminate|auto]. }
    set (show := dc_report cfg LEAVING_SUCCESSOR) in *.
    assert (Hs1 : (if show && b then dfs_show VS PM LM XM s (Some LEAVING_SUCCESSOR) (u :: verts q) (f_trace_labels s) else s) =
                  if show then dfs_show VS PM LM XM s (Some LEAVING_SUCCESSOR) (f_trace s) (f_trace_labels s) else s).
    { rewrite <- Htr. destruct show; cbn; auto. destruct b; auto. specialize (Hb eq_refl). destruct s; cbn in *. rewrite Hb. reflexivity. }
    rewrite Hs1. clear Hs1.
    assert (Hgo : forall tl, (dc_labeled cfg = true -> trace_labels_ok next (top open) tl) ->
       let s1 := if show then dfs_show VS PM LM XM s (Some LEAVING_SUCCESSOR) (f_trace s) (f_trace_labels s) else s in
       let o := if show then [dfs_observe VS PM LM XM u s1] else [] in
       SimS (os ++ o) ((LLeave, p) :: log) k open None (dfs_left vid VS PM LM XM cfg s1 (b && negb show) u (mk :: m) (verts q) tl (length o))).
    { intros tl Htl s1 o. subst s1 o. destruct show eqn:Er.
      - apply (Hleft (Some LEAVING_SUCCESSOR)); [right; eauto|exact Htl|right; reflexivity|].
        specialize (Hgen LEAVING_SUCCESSOR). unfold show in Er. rewrite Er in Hgen. apply (Hgen Hev); auto. discriminate.
      - rewrite andb_true_r. specialize (Hleft (f_event s) b tl []). rewrite app_nil_r in Hleft. rewrite app_nil_r.
        assert (Hsame : dfs_show VS PM LM XM s (f_event s) (f_trace s) (f_trace_labels s) = s) by (destruct s; reflexivity).
        rewrite Hsame in Hleft. apply Hleft; auto.
        specialize (Hgen LEAVING_SUCCESSOR). unfold show in Er. rewrite Er in Hgen. rewrite <- (app_nil_r os). apply (Hgen Hev s); auto. discriminate. }
    assert (Htls : f_trace_labels (if show then dfs_show VS PM LM XM s (Some LEAVING_SUCCESSOR) (f_trace s) (f_trace_labels s) else s) = f_trace_labels s).
    { destruct show; reflexivity. }
    destruct (dc_labeled cfg) eqn:Elb.
    + pose proof (sm_tlab _ _ _ _ _ _ H Elb) as Ht. cbn in Ht. rewrite Ep in Ht.
      destruct q as [|y q']; [destruct open; [congruence|]; cbn in Hq; destruct (open_dnode _ _ _ Hl (fst p0) (snd p0)) as (? & ? & ? & Ex);
        [right; left; destruct p0; reflexivity|]; destruct p0; cbn in *; congruence|].
      destruct (tlo_inv _ _ _ _ Ht) as (l & ls & El & Ht2). rewrite Htls, El.
      eexists. eexists. split; [reflexivity|]. split; [exact Hl'|]. rewrite <- El. apply Hgo. intros _. rewrite <- Hq. exact Ht2.
    + eexists. eexists. split; [reflexivity|]. split; [exact Hl'|]. apply Hgo. discriminate.
Qed.

(** Taking the next neighbor of the last vertex of the trace from the stack *)
Lemma sim_pop os log k j u p r open s n l m : Sim os log k (((j, u) :: p, S r) :: open) None s -> nth_error (next u) r = Some (n, l) ->
  f_markers s = false :: m ->
  exists s1, dfs_pop VS PM LM XM cfg s m = Some (n, s1) /\ SimS os log k (((j, u) :: p, r) :: open) None s1 /\
    f_pc s1 = FLoop true /\
    (dc_labeled cfg = true -> exists l', f_var_labels s1 = Some l' /\
       (safe_edge next ((r, n) :: (j, u) :: p) -> l' = l)).
Proof.
  intros (Hl & H) Hn Hm.
  assert (Hr : r < length (next u)) by (apply nth_error_Some; congruence).
  assert (Etv : f_to_visit s = n :: seg ((j, u) :: p, r) ++ flat_map seg open).
  { rewrite (sm_to_visit _ _ _ _ _ _ H). cbn [flat_map app]. rewrite (seg_take j u p r n l Hn). reflexivity. }
  assert (Em : m = repeat false r ++ [true] ++ flat_map marks open).
  { pose proof (sm_markers _ _ _ _ _ _ H) as E. rewrite Hm in E. cbn in E. injection E as ->. rewrite <- app_assoc. reflexivity. }
  assert (Hgen : forall tvl var, (dc_labeled cfg = true -> exists stale, tvl = lseg ((j, u) :: p, r) ++ flat_map lseg open ++ stale) ->
     (dc_labeled cfg = true -> tvl <> [] -> var <> None) ->
     SimS os log k (((j, u) :: p, r) :: open) None
       {| f_pc := FLoop true; f_starts := f_starts s; f_start := f_start s; f_to_visit := seg ((j, u) :: p, r) ++ flat_map seg open;
          f_to_visit_labels := tvl; f_markers := m; f_var_labels := var;
          f_trace := f_trace s; f_trace_labels := f_trace_labels s; f_on_trace := f_on_trace s; f_index := f_index s;
          f_time := f_time s; f_depth := f_depth s; f_event := f_event s; f_visited := f_visited s; f_pred := f_pred s;
          f_labels := f_labels s; f_limit := f_limit s; f_count := f_count s; f_calls := f_calls s |}).
  { intros tvl var Htvl Hvar. destruct H. constructor; cbn [f_pc f_starts f_start f_to_visit f_to_visit_labels f_markers f_var_labels
      f_trace f_trace_labels f_on_trace f_index f_time f_depth f_event f_visited f_pred f_labels f_limit f_count f_calls top] in *; auto.
    - discriminate.
    - rewrite Em. cbn [flat_map app marks snd]. unfold marks at 2. cbn [snd]. rewrite <- app_assoc. reflexivity.
    - intros Hlb. destruct (Htvl Hlb) as (stale & E). exists stale. rewrite E. cbn [flat_map]. rewrite <- app_assoc. reflexivity.
    - intros Hlb j0 u0 p0 r0 o0 n0 l0 E Elen Hnth. injection E as <- <- <- -> <-. lia. }
  unfold dfs_pop. rewrite Etv. destruct (dc_labeled cfg) eqn:Elb.
  - destruct (sm_tvl _ _ _ _ _ _ H Elb) as (stale & E). cbn [flat_map] in E. rewrite (lseg_take j u p r n l Hn) in E.
    rewrite <- app_assoc in E. cbn [app] in E.
    destruct (seg ((j, u) :: p, r) ++ flat_map seg open) as [|y q] eqn:Eq.
    + (* the last waiting vertex: the label is not taken *)
      eexists. split; [reflexivity|]. split; [|split; [reflexivity|]].
      * apply Hgen.
        -- intros _. exists (l :: stale). rewrite E. f_equal.
           assert (E1 : seg ((j, u) :: p, r) = []) by (apply app_eq_nil in Eq; tauto).
           assert (E2 : flat_map seg open = []) by (apply app_eq_nil in Eq; tauto).
           assert (Hlab : forall x, seg x = [] -> lseg x = []).
           { intros ([|(j0 & u0) p0] & r0) Hx; cbn in *; auto. apply (f_equal (@length _)) in Hx.
             rewrite rev_length, firstn_length, map_length in Hx. apply length_zero_iff_nil.
             rewrite rev_length, firstn_length, map_length. exact Hx. }
           rewrite (Hlab _ E1). assert (E3 : flat_map lseg open = []).
           { clear - E2 Hlab. induction open as [|x o IH]; auto. cbn in *. apply app_eq_nil in E2. destruct E2 as [Ea Eb].
             rewrite (Hlab _ Ea), (IH Eb). reflexivity. }
           rewrite E3. reflexivity.
        -- intros _ Hne. apply (sm_bound _ _ _ _ _ _ H Elb). rewrite E. discriminate.
      * intros _. cbn.
        assert (Hb : f_var_labels s <> None) by (apply (sm_bound _ _ _ _ _ _ H Elb); rewrite E; discriminate).
        destruct (f_var_labels s) as [l'|] eqn:Ev; [|congruence]. exists l'. split; auto. intros [Hone|(x & Hx & Hne)].
        -- pose proof (sm_last _ _ _ _ _ _ H Elb j u p r open n l eq_refl) as Hlast. rewrite Hlast in Ev; auto; [congruence|lia].
        -- exfalso. assert (Hw : flat_map seg (((j, u) :: p, r) :: open) = []) by exact Eq.
           assert (Hch : chain (((j, u) :: p, r) :: open)).
           { pose proof (dl_chain _ _ _ _ _ _ _ Hl) as Hc. inversion Hc; subst; constructor; auto. }
           destruct (nothing_waits _ Hch) with (p := (j, u) :: p) (r := r) (o := open) as (Er & Hz); auto.
           { intros j0 u0 p0 r0 [Ex|Hin]; [injection Ex as <- <- <- <-; lia|]. eapply log_kids_in; [exact Hl|right; eauto]. }
           change (removelast ((r, n) :: (j, u) :: p)) with ((r, n) :: removelast ((j, u) :: p)) in Hx.
           destruct Hx as [<-|Hx]; [cbn in Hne; lia|]. apply Hne. apply Hz. exact Hx.
    + rewrite E. eexists. split; [reflexivity|]. split; [|split; [reflexivity|]].
      * apply Hgen; [|discriminate]. intros _. exists stale. reflexivity.
      * intros _. exists l. auto.
  - eexists. split; [reflexivity|]. split; [|split; [reflexivity|]]; [|discriminate]. apply Hgen; discriminate.
Qed.

(** Taking a start vertex from the stack *)
Lemma sim_pop_start os log k s v m : Sim os log k [] (Some v) s -> f_markers s = false :: m ->
  exists s1, dfs_pop VS PM LM XM cfg s m = Some (v, s1) /\ SimS os log (S k) [] None s1 /\ f_pc s1 = FLoop true /\ f_start s1 = Some v.
Proof.
  intros (Hl & H) Hm.
  assert (Etv : f_to_visit s = [v]) by (rewrite (sm_to_visit _ _ _ _ _ _ H); reflexivity).
  pose proof (sm_markers _ _ _ _ _ _ H) as E. rewrite Hm in E. cbn in E. injection E as ->.
  unfold dfs_pop. rewrite Etv.
  assert (Hgen : SimS os log (S k) [] None
       {| f_pc := FLoop true; f_starts := f_starts s; f_start := f_start s; f_to_visit := [];
          f_to_visit_labels := f_to_visit_labels s; f_markers := []; f_var_labels := f_var_labels s;
          f_trace := f_trace s; f_trace_labels := f_trace_labels s; f_on_trace := f_on_trace s; f_index := f_index s;
          f_time := f_time s; f_depth := f_depth s; f_event := f_event s; f_visited := f_visited s; f_pred := f_pred s;
          f_labels := f_labels s; f_limit := f_limit s; f_count := f_count s; f_calls := f_calls s |}).
  { destruct H. constructor; cbn in *; auto. tauto. }
  assert (Hst : f_start s = Some v) by (apply (sm_pend _ _ _ _ _ _ H)).
  destruct (dc_labeled cfg); eexists; (split; [reflexivity|]; split; [exact Hgen|split; [reflexivity|exact Hst]]).
Qed.

(** The kind of an edge, as the code finds it *)
Lemma index_compare os log k j u p r open s n kind :
  SimS os log k (((j, u) :: p, r) :: open) None s -> dfs_log log k (((j, u) :: p, S r) :: open) ->
  has_kind vid log ((j, u) :: p) n kind ->
  match pol with PTree P => P (vid n) \/ entered_id vid log (vid n) | _ => True end ->
  dc_report cfg FORWARD_EDGE = true \/ dc_report cfg CROSS_EDGE = true ->
  (dm_get XM (vid u) (f_index s) <? dm_get XM (vid n) (f_index s))%Z = match kind with KForward => true | _ => false end.
Proof.
  intros H Hl Hk Hent Hix. destruct (ok_index _ _ Hok Hix) as (Hci & Hav & Hmode & Htree).
  pose proof (sm_index _ _ _ _ _ _ H Hci) as HX. 
  assert (Hpol : exists P, pol = PTree P /\ forall i, ~ P i).
  { unfold dfs_policy. rewrite Htree, Hmode. eexists. split; [reflexivity|]. intros i Hi. destruct av; [discriminate|exact Hi]. }
  destruct Hpol as (P & Epol & HP). rewrite Epol in HX, Hent. rewrite Epol in Hl. clear Hix.
  destruct Hent as [Hx|(j' & v & q & Hq & Ev)]; [exfalso; eapply HP; eauto|].
  assert (Hpar : entered log ((j, u) :: p)) by (eapply open_entered; [exact Hl|left; reflexivity]).
  destruct Hpar as (b1 & Hin1). destruct Hq as (b2 & Hin2).
  destruct (in_split _ _ Hin1) as (a1 & a2 & Ea). destruct (in_split _ _ Hin2) as (c1 & c2 & Ec).
  rewrite (HX a1 b1 j u p a2 Ea). rewrite <- Ev. rewrite (HX c1 b2 j' v q c2 Ec).
  assert (Hlt := later_iff_continues _ _ _ _ _ _ _ Hl ((j, u) :: p) (S r) ((j', v) :: q) (length (enters a2)) (length (enters c2))
            (or_introl eq_refl) (ex_intro _ a1 (ex_intro _ b1 (ex_intro _ a2 (conj Ea eq_refl))))
            (ex_intro _ c1 (ex_intro _ b2 (ex_intro _ c2 (conj Ec eq_refl))))).
  assert (Hent : forall j0 v0 q0, entered log ((j0, v0) :: q0) -> vid v0 = vid n -> (j0, v0) :: q0 = (j', v) :: q).
  { intros j0 v0 q0 He E0. eapply tree_unique; [exact Hl|exact He|exists b2; exact Hin2|congruence]. }
  assert (Hkk : continues ((j', v) :: q) ((j, u) :: p) <-> kind = KForward).
  { destruct kind; cbn in Hk.
    - split; [|discriminate]. intros Hc. exfalso. change (In (vid n) (map (fun e : nat * V => vid (snd e)) ((j, u) :: p))) in Hk. apply in_map_iff in Hk.
      destruct Hk as ((j0 & v0) & E0 & Hin0). cbn in E0. apply in_split in Hin0. destruct Hin0 as (d & q0 & E).
      assert (He : entered log ((j0, v0) :: q0)).
      { destruct d as [|y d]; [cbn in E; rewrite <- E; exists b1; exact Hin1|].
        eapply (log_suffix _ _ _ _ _ _ _ Hl _ _ Hin1 _ _ (y :: d) E). discriminate. }
      rewrite <- (Hent _ _ _ He E0) in Hc. destruct Hc as (d' & Hd' & Ed'). rewrite E in Ed'.
      apply (f_equal (@length _)) in Ed'. rewrite !app_length in Ed'. destruct d'; [congruence|cbn in Ed'; lia].
    - split; [reflexivity|]. intros _. destruct Hk as (_ & j0 & v0 & q0 & He & E0 & Hc). rewrite (Hent _ _ _ He E0) in Hc. exact Hc.
    - split; [|discriminate]. intros Hc. exfalso. apply (proj2 Hk). exists j', v, q. split; [exists b2; exact Hin2|split; auto]. }
  destruct (Z.ltb_spec (Z.of_nat (length (enters a2)) + 1) (Z.of_nat (length (enters c2)) + 1)) as [Hz|Hz].
  - assert (E : kind = KForward) by (apply Hkk, Hlt; lia). rewrite E. reflexivity.
  - assert (E : kind <> KForward) by (intros E; apply Hkk, Hlt in E; lia). destruct kind; congruence || auto.
Qed.

Lemma classify_ok os log k j u p r open s n kind back q :
  SimS os log k (((j, u) :: p, r) :: open) None s -> dfs_log log k (((j, u) :: p, S r) :: open) ->
  has_kind vid log ((j, u) :: p) n kind ->
  match pol with PTree P => P (vid n) \/ entered_id vid log (vid n) | _ => True end ->
  (back = true -> vs_mem VS (vid n) (f_on_trace s) = true) ->
  dfs_classify vid VS PM LM XM cfg s n back = shown (LNonTree kind) q.
Proof.
  intros H Hl Hk Hent Hback. unfold dfs_classify, DFSReports.shown, event_of.
  destruct (dc_report cfg SOME_NON_TREE_EDGE) eqn:ES; [rewrite ES; reflexivity|].
  assert (Hmem : dc_compute_on_trace cfg = true -> (back || vs_mem VS (vid n) (f_on_trace s) = true <-> kind = KBack)).
  { intros Hc. pose proof (sm_on_trace _ _ _ _ _ _ H Hc (vid n)) as Hx. cbn [top] in Hx.
    assert (Hb : back || vs_mem VS (vid n) (f_on_trace s) = vs_mem VS (vid n) (f_on_trace s)).
    { destruct back; auto. rewrite (Hback eq_refl). reflexivity. }
    rewrite Hb, Hx. destruct kind; cbn in Hk; split; auto; try discriminate; tauto. }
  assert (Htr : f_trace s = u :: verts p) by (rewrite (sm_trace _ _ _ _ _ _ H); reflexivity).
  assert (Hcmp := index_compare _ _ _ _ _ _ _ _ _ _ _ H Hl Hk Hent). rewrite Htr.
  pose proof (ok_back _ _ Hok) as OB. pose proof (ok_cross _ _ Hok) as OC.
  destruct (dc_report cfg BACK_EDGE) eqn:EB; destruct (dc_report cfg FORWARD_EDGE) eqn:EF; destruct (dc_report cfg CROSS_EDGE) eqn:EC;
    cbn [orb andb]; rewrite ?Hcmp by auto;
    try (assert (Hm := Hmem (OB eq_refl)); destruct (back || vs_mem VS (vid n) (f_on_trace s)) eqn:Ebm;
         [destruct Hm as [Hm _]; rewrite (Hm eq_refl), EB; reflexivity|];
         assert (Hnb : kind <> KBack) by (intros E; apply Hm in E; discriminate));
    destruct kind; rewrite ?EB, ?EF, ?EC; try reflexivity; try congruence;
    destruct (dc_report cfg FORWARD_OR_CROSS_EDGE); try reflexivity.
Qed.

Notation good_reports := (reports V_dec VS PM LM XM cfg skip (fun lg e p r => sees vid VS PM LM XM next starts cfg av false lg e p r /\
                 sees_trace vid VS PM LM XM next cfg av lg e p r)).

Lemma sim_same os log k open s e p ev o : SimS os log k open None s -> no_enter e -> f_pc s = FLoop true ->
  good_reports ((e, p) :: log) (rev (os ++ o)) -> length o <= 1 ->
  SimS (os ++ o) ((e, p) :: log) k open None (if length o =? 0 then s else dfs_reported VS PM LM XM s ev).
Proof.
  intros H Hn Hpc Hrep Ho.
  assert (HG : forall s', s' = s /\ o = [] \/ s' = dfs_reported VS PM LM XM s ev /\ length o = 1 ->
     SimS (os ++ o) ((e, p) :: log) k open None s').
  { intros s' Hs'. pose proof H as H0. destruct H0.
    assert (Hev := visited_other log e p (f_visited s) Hn sm_visited0).
    assert (Hix : dc_compute_index cfg = true -> _) by (intros Hi; exact (index_other log e p (f_index s) Hn (sm_index0 Hi))).
    assert (Hst := stored_other log e p _ _ _ Hn sm_stored0).
    assert (Hdom : forall i, pm_get PM i (f_pred s) <> None -> entered_id vid ((e, p) :: log) i).
    { intros i Hi. apply entered_id_other; auto. }
    destruct Hs' as [(-> & Eo)|(-> & Eo)]; constructor; rewrite ?enters_other, ?calls_other by auto; cbn; auto;
      try (rewrite Hpc; discriminate); rewrite ?Eo, ?app_nil_r in *; rewrite ?app_length; rewrite ?Eo; try lia; auto. }
  apply HG. destruct o as [|r [|? ?]]; cbn in *; auto; lia.
Qed.

Lemma sim_skip_start os log k s v : Sim os log k [] (Some v) s -> forall s1, SimS os log (S k) [] None s1 -> f_pc s1 = FLoop true ->
  ~ may_enter vid pol log [] v -> forall back,
  exists o s', dfs_revisit vid VS PM LM XM cfg s1 v back = Go o s' /\ Sim (os ++ o) ((LSkipStart, [(k, v)]) :: log) (S k) [] None s'.
Proof.
  intros (Hl & H) s1 H1 Hpc Hme back.
  destruct (sm_pend _ _ _ _ _ _ H) as (_ & Hk & _).
  assert (Hn : no_enter LSkipStart) by (intros b; discriminate).
  assert (Hlog : dfs_log ((LSkipStart, [(k, v)]) :: log) (S k) []) by (constructor; auto).
  assert (Htr : f_trace s1 = []) by (rewrite (sm_trace _ _ _ _ _ _ H1); reflexivity).
  unfold dfs_revisit. rewrite Htr. destruct (dc_report cfg SKIPPING_START) eqn:ER.
  - eexists. eexists. split; [reflexivity|]. split; [exact Hlog|].
    match goal with |- SimS (os ++ ?o) _ _ _ _ _ => apply (sim_same os log (S k) [] s1 LSkipStart [(k, v)] (Some SKIPPING_START) o); auto end.
    eapply reports_one; [apply (sm_reports _ _ _ _ _ _ H1)| |reflexivity|reflexivity| | |].
    + unfold DFSReports.shown, event_of. rewrite ER. reflexivity.
    + eapply sees_state; [exact H1|exact Hn|reflexivity|reflexivity..].
    + eapply sees_trace_state; [exact H1|exact Hn|reflexivity| | |reflexivity|reflexivity]; [reflexivity|].
      intros Hlb. cbn. rewrite rev_involutive. pose proof (sm_tlab _ _ _ _ _ _ H1 Hlb) as Ht. cbn in Ht. inversion Ht. constructor.
    + intros b; discriminate.
  - exists [], s1. split; [reflexivity|]. split; [exact Hlog|].
    apply (sim_same os log (S k) [] s1 LSkipStart [(k, v)] None []); auto.
    rewrite app_nil_r. apply rs_hidden; [apply (sm_reports _ _ _ _ _ _ H1)| |intros b; discriminate].
    unfold DFSReports.shown, event_of. rewrite ER. reflexivity.
Qed.

Lemma sim_non_tree os log k j u p r open n l s1 back : dfs_log log k (((j, u) :: p, S r) :: open) -> nth_error (next u) r = Some (n, l) ->
  SimS os log k (((j, u) :: p, r) :: open) None s1 -> f_pc s1 = FLoop true ->
  ~ may_enter vid pol log ((j, u) :: p) n ->
  (dc_labeled cfg = true -> exists l', f_var_labels s1 = Some l' /\ (safe_edge next ((r, n) :: (j, u) :: p) -> l' = l)) ->
  match pol with PTree P => P (vid n) \/ entered_id vid log (vid n) | _ => True end ->
  (back = true -> vs_mem VS (vid n) (f_on_trace s1) = true) ->
  exists o s' kind, dfs_revisit vid VS PM LM XM cfg s1 n back = Go o s' /\
    Sim (os ++ o) ((LNonTree kind, (r, n) :: (j, u) :: p) :: log) k (((j, u) :: p, r) :: open) None s'.
Proof.
  intros Hl Hnth H1 Hpc Hme Hlab Hent Hback.
  destruct (kind_exists log ((j, u) :: p) n) as (kind & Hkind).
  assert (Hn : no_enter (LNonTree kind)) by (intros b; discriminate).
  assert (Hlog : dfs_log ((LNonTree kind, (r, n) :: (j, u) :: p) :: log) k (((j, u) :: p, r) :: open)) by (econstructor; eauto).
  assert (Htr : f_trace s1 = u :: verts p) by (rewrite (sm_trace _ _ _ _ _ _ H1); reflexivity).
  assert (Hcl := classify_ok _ _ _ _ _ _ _ _ _ _ _ _ ((r, n) :: (j, u) :: p) H1 Hl Hkind Hent Hback).
  unfold dfs_revisit. rewrite Hcl, Htr. destruct (shown (LNonTree kind) ((r, n) :: (j, u) :: p)) as [ev|] eqn:Esh.
  - assert (Hgen : forall tl, (dc_labeled cfg = true -> trace_labels_ok next ((r, n) :: (j, u) :: p) tl) ->
       Sim (os ++ [dfs_observe VS PM LM XM n (dfs_show VS PM LM XM s1 (Some ev) (n :: u :: verts p) tl)])
         ((LNonTree kind, (r, n) :: (j, u) :: p) :: log) k (((j, u) :: p, r) :: open) None (dfs_reported VS PM LM XM s1 (Some ev))).
    { intros tl Htl. split; [exact Hlog|].
      match goal with |- SimS (os ++ ?o) _ _ _ _ _ => apply (sim_same os log k (((j, u) :: p, r) :: open) s1 (LNonTree kind) ((r, n) :: (j, u) :: p) (Some ev) o); auto end.
      eapply reports_one; [apply (sm_reports _ _ _ _ _ _ H1)|exact Esh|reflexivity|reflexivity| | |].
      - eapply sees_state; [exact H1|exact Hn|reflexivity|reflexivity..].
      - eapply sees_trace_state; [exact H1|exact Hn|reflexivity| | |reflexivity|reflexivity]; [reflexivity|].
        intros Hlb. cbn. rewrite rev_involutive. auto.
      - intros b; discriminate. }
    destruct (dc_labeled cfg) eqn:Elb.
    + destruct (Hlab eq_refl) as (l' & -> & Hs). eexists. eexists. exists kind. split; [reflexivity|]. apply Hgen. intros _.
      constructor; [apply (sm_tlab _ _ _ _ _ _ H1 Elb)|]. intros Hsafe. rewrite (Hs Hsafe). exact Hnth.
    + eexists. eexists. exists kind. split; [reflexivity|]. apply Hgen. discriminate.
  - exists [], s1, kind. split; [reflexivity|]. split; [exact Hlog|].
    apply (sim_same os log k (((j, u) :: p, r) :: open) s1 (LNonTree kind) ((r, n) :: (j, u) :: p) None []); auto.
    rewrite app_nil_r. apply rs_hidden; [apply (sm_reports _ _ _ _ _ _ H1)|exact Esh|intros b; discriminate].
Qed.

(** Entering a vertex *)
Lemma rev_verts_cons (x : nat * V) (p : node) : p <> [] -> exists s0 rest, rev (verts p) = s0 :: rest /\ rev (verts (x :: p)) = s0 :: rest ++ [snd x].
Proof.
  intros Hp. cbn. destruct (rev (verts p)) as [|s0 rest] eqn:E.
  - exfalso. apply (f_equal (@length _)) in E. rewrite rev_length in E. unfold verts in E. rewrite map_length in E. destruct p; cbn in E; [congruence|lia].
  - exists s0, rest. split; auto. fold (verts p). rewrite E. reflexivity.
Qed.

Lemma entered_id_enter log b j v p i : entered_id vid ((LEnter b, (j, v) :: p) :: log) i <-> vid v = i \/ entered_id vid log i.
Proof.
  split.
  - intros (j0 & v0 & q & He & E). destruct He as (b0 & [Ee|He]).
    + injection Ee as <- <- <- <-. left. exact E.
    + right. exists j0, v0, q. split; auto. exists b0. exact He.
  - intros [<-|(j0 & v0 & q & (b0 & He) & E)].
    + exists j, v, p. split; auto. exists b. left. reflexivity.
    + exists j0, v0, q. split; auto. exists b0. right. exact He.
Qed.

Section Visit.
Variables (os : list report) (log : log_t) (k : nat) (open : list (node * nat)) (s : state) (i : nat) (v : V).
Notation p' := ((i, v) :: top open).
Hypothesis H : SimS os log k open None s.
Hypothesis Hl : forall b, dfs_log ((LEnter b, p') :: log) k ((p', if b then edge_count next v else 0) :: open).
Hypothesis Hstart : top open = [] -> f_start s = Some v.
Hypothesis Hroot : top open = [] -> length starts = 1 -> log = [].
Hypothesis Hme : may_enter vid pol log (top open) v.
Hypothesis Hlab : dc_labeled cfg = true ->
  match top open with
  | (j, u) :: _ => exists l', f_var_labels s = Some l' /\ (safe_edge next p' -> nth_error (next u) i = Some (v, l'))
  | [] => True
  end.
Notation s2 := (dfs_enter V_dec vid VS PM LM XM cfg s v).

Lemma visit_trace : f_trace s2 = verts p'.
Proof. cbn. rewrite (sm_trace _ _ _ _ _ _ H). reflexivity. Qed.

Lemma visit_start : forall s0 rest, rev (verts p') = s0 :: rest -> f_start s2 = Some s0.
Proof.
  intros s0 rest E. cbn [dfs_enter f_start]. destruct (top open) as [|y q] eqn:Et.
  - cbn in E. injection E as <- _. auto.
  - destruct (rev_verts_cons (i, v) (y :: q)) as (s1 & r1 & E1 & E2); [discriminate|]. rewrite E2 in E. injection E as <- _.
    eapply (sm_start _ _ _ _ _ _ H). rewrite Et. exact E1.
Qed.

Lemma visit_event : is_current_start V_dec VS PM LM XM s v = is_own_start V_dec p'.
Proof.
  unfold is_own_start, is_current_start. destruct (rev (verts p')) as [|s0 rest] eqn:E.
  - apply (f_equal (@length _)) in E. rewrite rev_length in E. cbn in E. lia.
  - pose proof (visit_start s0 rest E) as Hs. cbn in Hs. rewrite Hs. reflexivity.
Qed.

Lemma visit_labels : dc_labeled cfg = true -> trace_labels_ok next p' (f_trace_labels s2).
Proof.
  intros Hlb. pose proof (Hlab Hlb) as Hx. pose proof (sm_tlab _ _ _ _ _ _ H Hlb) as Ht.
  cbn [dfs_enter f_trace_labels]. rewrite (sm_trace _ _ _ _ _ _ H). rewrite Hlb. destruct (top open) as [|(j & u) q] eqn:Et.
  - inversion Ht. cbn. constructor.
  - destruct Hx as (l' & -> & Hs). cbn. constructor; auto.
Qed.

Lemma visit_on_trace : dc_compute_on_trace cfg = true -> forall a, vs_mem VS a (f_on_trace s2) = true <-> In a (ids p').
Proof.
  intros Hc a. destruct (ok_on_trace _ _ Hok Hc) as (Ht & Hw). cbn. rewrite Ht, Hc. 
  assert (Ew : is_all_walks (dc_mode cfg) = false) by (destruct (dc_mode cfg); auto; congruence). rewrite Ew. cbn.
  rewrite vs_mem_add, (sm_on_trace _ _ _ _ _ _ H Hc). unfold ids. split; intros [E|E]; auto.
Qed.

Lemma visit_visited b : match pol with
               | PTree P => forall a, vs_mem VS a (f_visited s2) = true <-> P a \/ entered_id vid ((LEnter b, p') :: log) a
               | _ => True
               end.
Proof.
  pose proof (sm_visited _ _ _ _ _ _ H) as Hv. cbn [dfs_enter f_visited]. revert Hv.
  unfold dfs_policy. destruct (dc_is_tree cfg); auto. destruct (dc_mode cfg); auto. cbn [negb is_dfs_tree andb]. intros Hv a.
  rewrite vs_mem_add, Hv, entered_id_enter. intuition.
Qed.

Lemma visit_time b : dc_compute_index cfg = true -> f_time s2 = (Z.of_nat (length (enters ((LEnter b, p') :: log))) + 1)%Z.
Proof. intros Hc. cbn [dfs_enter f_time]. rewrite Hc, (sm_time _ _ _ _ _ _ H Hc). unfold enters. cbn [filter fst map snd length]. lia. Qed.

Lemma visit_index b : dc_compute_index cfg = true ->
             match pol with
             | PTree _ => forall l1 b1 j w q l2, (LEnter b, p') :: log = l1 ++ (LEnter b1, (j, w) :: q) :: l2 ->
                 dm_get XM (vid w) (f_index s2) = (Z.of_nat (length (enters l2)) + 1)%Z
             | _ => True
             end.
Proof.
  intros Hc. pose proof (sm_index _ _ _ _ _ _ H Hc) as Hx. pose proof (sm_time _ _ _ _ _ _ H Hc) as Ht. cbn [dfs_enter f_index].
  pose proof Hme as Hm. rewrite Hc. destruct pol as [P| |]; auto. cbn in Hm. intros [|x l1] b1 j w q l2 E; cbn [app] in E.
  - injection E as -> -> -> _ ->. rewrite dm_get_set_same. exact Ht.
  - injection E as _ E. rewrite dm_get_set_other.
    + eapply Hx; eauto.
    + intros Ew. apply (proj2 Hm). exists j, w, q. split; auto. exists b1. rewrite E. apply in_or_app. right. left. reflexivity.
Qed.

Lemma visit_depth : f_depth s2 = if dc_compute_depth cfg then node_depth p' else (-1)%Z.
Proof.
  cbn [dfs_enter f_depth]. rewrite (sm_depth _ _ _ _ _ _ H). destruct (dc_compute_depth cfg); auto. unfold node_depth. cbn [length]. lia.
Qed.

(** In a tree, an id is entered once. *)
Lemma visit_tree : tree_like vid next starts -> ~ entered_id vid log (vid v).
Proof.
  intros Ht (j & w & q & He & E). pose proof (Hl true) as Hx.
  assert (Ex : (j, w) :: q = p').
  { apply Ht; auto.
    - eapply entered_dnode; [exact Hx|]. apply entered_cons. exact He.
    - eapply entered_dnode; [exact Hx|]. exists true. left. reflexivity. }
  apply LogInv_holds in Hx. pose proof (li_nodup _ _ _ _ _ Hx) as ND. cbn in ND. inversion ND as [|? ? Hn _].
  apply Hn. rewrite <- Ex. apply entered_arrival. exact He.
Qed.

Lemma visit_fresh : dc_build_paths cfg = true -> top open = [] -> length starts = 1 \/ (exists P, pol = PTree P) \/ tree_like vid next starts -> pm_get PM (vid v) (f_pred s) = None.
Proof.
  intros Hb Ht Hc. destruct (pm_get PM (vid v) (f_pred s)) eqn:E; auto. exfalso.
  assert (He : entered_id vid log (vid v)) by (apply (sm_dom _ _ _ _ _ _ H); congruence).
  destruct Hc as [Hc|[(P & Hc)|Hc]].
  - rewrite (Hroot Ht Hc) in He. destruct He as (? & ? & ? & (? & []) & _).
  - pose proof Hme as Hm. rewrite Hc in Hm. cbn in Hm. tauto.
  - apply (visit_tree Hc). exact He.
Qed.

(** The stored data of the new vertex *)
Lemma visit_stored_new : dc_build_paths cfg = true -> marks_gaps PM -> top open <> [] \/ length starts = 1 \/ (exists P, pol = PTree P) \/ tree_like vid next starts ->
  pred_node vid PM (f_pred s2) p' /\ (dc_labeled cfg = true -> label_node vid LM next false (f_labels s2) p').
Proof.
  intros Hb Hg Hc. pose proof visit_fresh as Hf. pose proof Hstart as Hst. cbn [dfs_enter f_pred f_labels]. unfold dfs_pred, dfs_labels. rewrite Hb, (sm_trace _ _ _ _ _ _ H).
  pose proof Hlab as Hlb. destruct (top open) as [|(j & u) q] eqn:Et.
  - rewrite (Hst eq_refl). split; [|intros _; cbn; auto]. cbn. rewrite (proj2 (Hg _ _)).
    + apply pm_get_set_same.
    + apply Hf; auto. destruct Hc as [Hc|Hc]; [congruence|exact Hc].
  - split; [cbn; apply pm_get_set_same|]. intros El. rewrite El. destruct (Hlb El) as (l' & -> & Hs). cbn. exists l'.
    split; [apply pm_get_set_same|]. intros [E|Hsafe]; [discriminate|auto].
Qed.

(** The stored data of other vertices *)
Lemma visit_stored_other x q : vid (snd x) <> vid v -> pred_node vid PM (f_pred s) (x :: q) -> pred_node vid PM (f_pred s2) (x :: q).
Proof.
  intros Hne Hp. cbn [dfs_enter f_pred]. unfold dfs_pred.
  assert (HG : forall w, pred_node vid PM (pm_set PM (vid v) w (f_pred s)) (x :: q)).
  { intros w. destruct x as (j & w0). destruct q as [|(j2 & w2) q]; cbn in *; rewrite pm_get_set_other; auto. }
  destruct (dc_build_paths cfg); auto. pose proof (sm_trace _ _ _ _ _ _ H) as Ht. destruct (f_trace s); auto.
  assert (Etop : top open = []) by (apply verts_nil; auto). rewrite (Hstart Etop).
  destruct (pm_is_none PM (vid v) (f_pred s)); auto.
Qed.
Lemma visit_label_other x q : vid (snd x) <> vid v -> label_node vid LM next false (f_labels s) (x :: q) -> label_node vid LM next false (f_labels s2) (x :: q).
Proof.
  intros Hne Hp. cbn [dfs_enter f_labels]. unfold dfs_labels. destruct (f_trace s); auto. destruct (f_var_labels s); auto.
  destruct (dc_build_paths cfg && dc_labeled cfg); auto. destruct x as (j & w0). destruct q as [|(j2 & w2) q]; cbn in *; auto.
  destruct Hp as (l' & E & Hs). exists l'. split; auto. rewrite pm_get_set_other; auto.
Qed.

Lemma visit_stored_all b : dc_build_paths cfg = true -> marks_gaps PM -> (exists P, pol = PTree P) \/ tree_like vid next starts ->
  ~ entered_id vid log (vid v) ->
  (forall q, entered log q -> pred_node vid PM (f_pred s) q /\ (dc_labeled cfg = true -> label_node vid LM next false (f_labels s) q)) ->
  forall q, entered ((LEnter b, p') :: log) q -> pred_node vid PM (f_pred s2) q /\ (dc_labeled cfg = true -> label_node vid LM next false (f_labels s2) q).
Proof.
  intros Hb Hg Hc Hfresh Hs q Hq. pose proof (visit_stored_new Hb Hg) as Hnew. destruct Hq as (b0 & [E|Hq']).
  - injection E as <- <-. apply Hnew. auto.
  - assert (Hq : entered log q) by (exists b0; exact Hq'). clear Hq'. destruct q as [|(j & w) q].
    { exfalso. assert (Hd : dnode next starts []).
      { eapply entered_dnode; [apply (Hl true)|]. apply entered_cons. exact Hq. }
      inversion Hd. }
    assert (Hne : vid w <> vid v).
    { intros Ew. apply Hfresh. exists j, w, q. auto. }
    destruct (Hs _ Hq) as (Hs1 & Hs2). split; [apply visit_stored_other; auto|]. intros El. apply visit_label_other; auto.
Qed.

Lemma visit_stored b : stored false ((LEnter b, p') :: log) p' (f_pred s2) (f_labels s2).
Proof.
  intros Hb Hg. pose proof (sm_stored _ _ _ _ _ _ H Hb Hg) as Hs. pose proof (visit_stored_new Hb Hg) as Hnew. pose proof (visit_stored_all b Hb Hg) as Hall. pose proof visit_tree as Htree.
  pose proof Hme as Hm. destruct pol as [P| |] eqn:Ep; auto.
  - apply Hall; auto; [left; eauto|apply Hm].
  - intros Hone d q E Hq. cbn in Hm. destruct d as [|y d]; cbn in E.
    + rewrite <- E. apply Hnew. right. left. exact Hone.
    + injection E as _ E. destruct q as [|(j & w) q]; [congruence|].
      assert (Hne : vid w <> vid v).
      { intros Ew. apply Hm. unfold leads_back, DFSSpec.ids. rewrite E, map_app. apply in_or_app. right. left. exact Ew. }
      destruct (Hs Hone _ _ E Hq) as (Hs1 & Hs2). split; [apply visit_stored_other; auto|]. intros El. apply visit_label_other; auto.
Qed.

Lemma visit_dom b : forall a, pm_get PM a (f_pred s2) <> None -> entered_id vid ((LEnter b, p') :: log) a.
Proof.
  intros a Ha. apply entered_id_enter. destruct (I_dec (vid v) a) as [E|E]; [left; auto|right].
  apply (sm_dom _ _ _ _ _ _ H). intros En. apply Ha. cbn [dfs_enter f_pred]. unfold dfs_pred. destruct (dc_build_paths cfg); auto.
  pose proof (sm_trace _ _ _ _ _ _ H) as Ht. destruct (f_trace s); [|rewrite pm_get_set_other; auto].
  assert (Etop : top open = []) by (apply verts_nil; auto). rewrite (Hstart Etop). destruct (pm_is_none PM (vid v) (f_pred s)); auto.
  rewrite pm_get_set_other; auto.
Qed.

Notation show := (dc_report cfg (if is_current_start V_dec VS PM LM XM s v then ENTERING_START else ENTERING_SUCCESSOR)).
Notation o := (if show then [dfs_observe VS PM LM XM v s2] else []).

Lemma visit_reports b : b = negb (show && skip (f_count s)) -> good_reports ((LEnter b, p') :: log) (rev (os ++ o)).
Proof.
  intros Eb. assert (Esh : shown (LEnter b) p' = if show then Some (if is_current_start V_dec VS PM LM XM s v then ENTERING_START else ENTERING_SUCCESSOR) else None).
  { unfold DFSReports.shown, event_of. rewrite <- visit_event. reflexivity. }
  destruct show eqn:Er.
  - eapply reports_one; [apply (sm_reports _ _ _ _ _ _ H)|exact Esh|reflexivity|reflexivity| | |].
    + constructor.
      * apply visit_depth.
      * apply visit_visited.
      * apply visit_stored.
    + constructor.
      * cbn [dfs_observe fr_trace]. rewrite visit_trace. reflexivity.
      * intros Hlb. cbn [dfs_observe fr_trace_labels]. rewrite rev_involutive. apply visit_labels; auto.
      * exact visit_on_trace.
      * apply visit_index.
    + intros b0 E. injection E as <-. rewrite Eb, (sm_count _ _ _ _ _ _ H). reflexivity.
  - rewrite app_nil_r. apply rs_hidden; [apply (sm_reports _ _ _ _ _ _ H)|exact Esh|]. intros b0 E. injection E as <-. exact Eb.
Qed.

Lemma sim_visit :
  (exists o' s' b, dfs_visit V_dec vid VS PM LM XM next cfg skip s v = Go o' s' /\
     Sim (os ++ o') ((LEnter b, p') :: log) k ((p', if b then edge_count next v else 0) :: open) None s') \/
  (exists o' s', dfs_visit V_dec vid VS PM LM XM next cfg skip s v = Raise o' RuntimeErrorLimit s' /\
     dfs_log ((LEnter true, p') :: log) k ((p', edge_count next v) :: open) /\
     good_reports ((LEnter true, p') :: log) (rev (os ++ o')) /\ f_calls s' = calls_of log).
Proof.
  assert (Hgo : forall (X : Prop) (t : step_result state report exn), (match f_trace s, dc_labeled cfg, f_var_labels s with
    | _ :: _, true, None => False | _, _, _ => True end)).
  { intros _ _. pose proof (sm_trace _ _ _ _ _ _ H) as Ht. destruct (f_trace s); auto. pose proof Hlab as Hx.
    destruct (dc_labeled cfg); auto. specialize (Hx eq_refl). destruct (top open) as [|(j & u) q]; [discriminate|].
    destruct Hx as (l' & -> & _). exact Logic.I. }
  specialize (Hgo True (Halt [] s)).
  assert (Hvis : dfs_visit V_dec vid VS PM LM XM next cfg skip s v =
    if show && skip (f_count s) then Go o (dfs_count VS PM LM XM s2 (length o))
      else match limit_check (f_limit s2) with
           | None => Raise o RuntimeErrorLimit (dfs_count VS PM LM XM s2 (length o))
           | Some lim => Go o (dfs_expand VS PM LM XM next cfg s2 v lim (length o))
           end).
  { unfold dfs_visit. destruct (f_trace s); auto. destruct (dc_labeled cfg); auto. destruct (f_var_labels s); auto. destruct Hgo. }
  rewrite Hvis. clear Hgo Hvis.
  assert (Hcnt : f_count s + length o = length (os ++ o)) by (rewrite app_length, (sm_count _ _ _ _ _ _ H); reflexivity).
  assert (Hp : match None with Some w => (p', 0) :: open = [] /\ nth_error starts k = Some w /\ f_starts s = skipn (S k) starts /\ f_start s = Some w
                | None => f_starts s = skipn k starts end) by (apply (sm_pend _ _ _ _ _ _ H)).
  destruct (show && skip (f_count s)) eqn:Esk.
  - left. exists o, (dfs_count VS PM LM XM s2 (length o)), false. split; [reflexivity|]. split; [apply (Hl false)|].
    constructor.
    + cbn. discriminate.
    + exact Hp.
    + cbn [dfs_count dfs_enter f_to_visit flat_map app]. rewrite seg_none. apply (sm_to_visit _ _ _ _ _ _ H).
    + cbn [dfs_count dfs_enter f_markers flat_map app]. rewrite (sm_markers _ _ _ _ _ _ H). reflexivity.
    + apply visit_trace.
    + apply visit_start.
    + intros Hlb. destruct (sm_tvl _ _ _ _ _ _ H Hlb) as (stale & E). exists stale. cbn [dfs_count dfs_enter f_to_visit_labels flat_map].
      rewrite lseg_none. exact E.
    + apply (sm_bound _ _ _ _ _ _ H).
    + intros _ j u p r o0 n l E. discriminate.
    + apply visit_labels.
    + apply visit_on_trace.
    + apply visit_visited.
    + apply visit_time.
    + apply visit_index.
    + apply visit_depth.
    + apply visit_stored.
    + apply visit_dom.
    + exact Hcnt.
    + cbn [dfs_count dfs_enter f_calls]. rewrite (sm_calls _ _ _ _ _ _ H). reflexivity.
    + apply visit_reports. rewrite Esk. reflexivity.
  - destruct (limit_check (f_limit s2)) as [lim|].
    + left. exists o, (dfs_expand VS PM LM XM next cfg s2 v lim (length o)), true. split; [reflexivity|]. split; [apply (Hl true)|].
      constructor.
      * cbn. discriminate.
      * exact Hp.
      * cbn [dfs_expand dfs_enter f_to_visit flat_map app]. rewrite seg_all, (sm_to_visit _ _ _ _ _ _ H). reflexivity.
      * cbn [dfs_expand dfs_enter f_markers flat_map app]. rewrite (sm_markers _ _ _ _ _ _ H). unfold marks at 2. cbn [snd].
        rewrite map_const_repeat. unfold edge_count. rewrite <- app_assoc. reflexivity.
      * apply visit_trace.
      * apply visit_start.
      * intros Hlb. destruct (sm_tvl _ _ _ _ _ _ H Hlb) as (stale & E). exists stale. cbn [dfs_expand dfs_enter f_to_visit_labels flat_map].
        rewrite lseg_all, Hlb, E, app_assoc. reflexivity.
      * intros Hlb. cbn [dfs_expand dfs_enter f_to_visit_labels f_var_labels]. rewrite Hlb. intros Hne.
        destruct (rev (next v)) as [|(n & l) rest] eqn:Er; [|discriminate]. apply (sm_bound _ _ _ _ _ _ H Hlb).
        apply (f_equal (@rev _)) in Er. rewrite rev_involutive in Er. cbn in Er. rewrite Er in Hne. exact Hne.
      * intros Hlb j u p r o0 n l E Hlen Hnth. cbn [dfs_expand dfs_enter f_var_labels]. rewrite Hlb. injection E as <- <- <- Er <-.
        pose proof Hnth as Hx. apply nth_error_split in Hx. destruct Hx as (l1 & l2 & E1 & E2). rewrite E1 in Hlen |- *.
        rewrite app_length in Hlen. cbn in Hlen. destruct l2; [|cbn in Hlen; lia]. rewrite rev_app_distr. reflexivity.
      * apply visit_labels.
      * apply visit_on_trace.
      * apply visit_visited.
      * apply visit_time.
      * apply visit_index.
      * apply visit_depth.
      * apply visit_stored.
      * apply visit_dom.
      * exact Hcnt.
      * cbn [dfs_expand dfs_enter f_calls]. rewrite (sm_calls _ _ _ _ _ _ H). unfold calls_of. cbn [flat_map app]. rewrite <- visit_depth. reflexivity.
      * apply visit_reports. rewrite Esk. reflexivity.
    + right. exists o, (dfs_count VS PM LM XM s2 (length o)). split; [reflexivity|]. split; [apply (Hl true)|]. split.
      * apply visit_reports. rewrite Esk. reflexivity.
      * apply (sm_calls _ _ _ _ _ _ H).
Qed.
End Visit.

(** The decision whether a vertex is entered *)
Lemma sim_decide os log k open s v : SimS os log k open None s ->
  exists (dec : bool) (back : bool),
    (if negb (dc_is_tree cfg) && negb (is_all_walks (dc_mode cfg)) then
       if is_dfs_tree (dc_mode cfg) then
         if vs_mem VS (vid v) (f_visited s) then dfs_revisit vid VS PM LM XM cfg s v false
         else dfs_visit V_dec vid VS PM LM XM next cfg skip s v
       else if vs_mem VS (vid v) (f_on_trace s) then dfs_revisit vid VS PM LM XM cfg s v true
       else dfs_visit V_dec vid VS PM LM XM next cfg skip s v
     else dfs_visit V_dec vid VS PM LM XM next cfg skip s v) =
    (if dec then dfs_visit V_dec vid VS PM LM XM next cfg skip s v else dfs_revisit vid VS PM LM XM cfg s v back) /\
    (dec = true -> may_enter vid pol log (top open) v) /\
    (dec = false -> ~ may_enter vid pol log (top open) v /\
       match pol with PTree P => P (vid v) \/ entered_id vid log (vid v) | _ => True end /\
       (back = true -> vs_mem VS (vid v) (f_on_trace s) = true)).
Proof.
  intros H. pose proof (sm_visited _ _ _ _ _ _ H) as Hv. pose proof (sm_on_trace _ _ _ _ _ _ H) as Ho.
  pose proof (ok_paths _ _ Hok) as Hp. unfold dfs_policy in *. destruct (dc_is_tree cfg) eqn:Et; cbn [negb andb].
  - exists true, false. repeat split; auto; discriminate.
  - destruct (dc_mode cfg) eqn:Em; cbn [is_all_walks is_dfs_tree negb andb].
    + specialize (Hv (vid v)). destruct (vs_mem VS (vid v) (f_visited s)) eqn:Ev.
      * exists false, false. split; [reflexivity|]. split; [discriminate|]. intros _. assert (Hx : in_already_visited VS av (vid v) \/ entered_id vid log (vid v)) by (apply Hv; reflexivity).
        repeat split; auto; [|discriminate]. intros (H1 & H2). tauto.
      * exists true, false. split; [reflexivity|]. split; [|discriminate]. intros _. split; intros Hx; [assert (false = true) by tauto|assert (false = true) by tauto]; discriminate.
    + specialize (Ho (Hp eq_refl eq_refl) (vid v)). destruct (vs_mem VS (vid v) (f_on_trace s)) eqn:Ev.
      * exists false, true. split; [reflexivity|]. split; [discriminate|]. intros _. repeat split; auto. intros Hx. apply Hx. apply Ho. reflexivity.
      * exists true, true. split; [reflexivity|]. split; [|discriminate]. intros _ Hx. apply Ho in Hx. discriminate.
    + exists true, false. repeat split; auto; discriminate.
Qed.

(** Steps that add nothing to the log *)
Definition rank (s : state) : nat :=
  match f_pc s with FStarts => 1 | FLoop _ => match f_markers s with [] => 2 | _ => 0 end end.

(** One step of the loop is none or one event of the log. *)
Lemma sim_step os log k open pend s : Sim os log k open pend s ->
  match step s with
  | Go o s' => exists log' k' open' pend', Sim (os ++ o) log' k' open' pend' s' /\
      ((exists e, log' = e :: log) \/ log' = log /\ rank s' < rank s)
  | Halt o s' => o = [] /\ s' = s /\ open = [] /\ pend = None /\ k = length starts
  | Raise o x s' => x = RuntimeErrorLimit /\
      (exists k' open' i v, dfs_log ((LEnter true, (i, v) :: top open') :: log) k' (((i, v) :: top open', edge_count next v) :: open') /\
         good_reports ((LEnter true, (i, v) :: top open') :: log) (rev (os ++ o))) /\ f_calls s' = calls_of log
  end.
Proof.
  intros (Hl & H). unfold dfs_step. pose proof (sm_pc _ _ _ _ _ _ H) as Hpc. destruct (f_pc s) eqn:Epc.
  - destruct Hpc as (-> & ->). pose proof (sm_pend _ _ _ _ _ _ H) as Hp. cbn in Hp. destruct (f_starts s) as [|v rest] eqn:Es.
    + repeat split; auto. symmetry in Hp. apply (f_equal (@length _)) in Hp. rewrite skipn_length in Hp. cbn in Hp.
      assert (k <= length starts) by (apply LogInv_holds in Hl; apply (li_k _ _ _ _ _ Hl)). lia.
    + exists log, k, [], (Some v). rewrite app_nil_r. split; [apply sim_begin; auto; split; auto|]. right. unfold rank. rewrite Epc. cbn. auto.
  - pose proof (sm_markers _ _ _ _ _ _ H) as Hm. destruct pend as [v|].
    + (* a start vertex *)
      destruct (sm_pend _ _ _ _ _ _ H) as (-> & Hk & _ & _). cbn in Hm. rewrite Hm.
      destruct (sim_pop_start os log k s v [] (conj Hl H) Hm) as (s1 & -> & H1 & Hpc1 & Hst).
      destruct (sim_decide _ _ _ _ _ v H1) as (dec & back & -> & Hd1 & Hd2). destruct dec.
      * destruct (sim_visit os log (S k) [] s1 k v H1) as [(o & s' & b & -> & Hs)|(o & s' & -> & Hs1 & Hs2 & Hs3)]; auto.
        -- intros b. econstructor; eauto.
        -- intros _ Hone. assert (k = 0) by (assert (k < length starts) by (apply nth_error_Some; congruence); lia). subst k.
           apply (log_first _ _ _ Hl eq_refl).
        -- cbn. auto.
        -- eexists. eexists. eexists. exists None. split; [exact Hs|left; eauto].
        -- split; auto. split; [|exact Hs3]. exists (S k), [], k, v. split; auto.
      * destruct (Hd2 eq_refl) as (Hme & _ & _).
        destruct (sim_skip_start os log k s v (conj Hl H) s1 H1 Hpc1 Hme back) as (o & s' & -> & Hs).
        eexists. eexists. eexists. exists None. split; [exact Hs|left; eauto].
    + destruct open as [|(p & r) open].
      * cbn in Hm. rewrite Hm. exists log, k, [], None. rewrite app_nil_r. split; [apply sim_finish; split; auto|]. right. unfold rank. rewrite Epc, Hm. cbn. auto.
      * destruct (open_dnode _ _ _ Hl p r (or_introl eq_refl)) as (j & u & q & Ep). subst p. destruct r as [|r].
        -- cbn in Hm. rewrite Hm. destruct (sim_leave os log k _ open s _ (conj Hl H) Epc) as (o & s' & -> & Hs).
           eexists. eexists. eexists. exists None. split; [exact Hs|left; eauto].
        -- assert (Hr : r < length (next u)).
           { pose proof (log_kids_in _ _ _ Hl j u q (S r) (or_introl eq_refl)). lia. }
           destruct (nth_error (next u) r) as [(n & l)|] eqn:Hn; [|apply nth_error_None in Hn; lia].
           cbn in Hm. rewrite Hm. destruct (sim_pop os log k j u q r open s n l _ (conj Hl H) Hn Hm) as (s1 & -> & H1 & Hpc1 & Hlab).
           destruct (sim_decide _ _ _ _ _ n H1) as (dec & back & -> & Hd1 & Hd2). destruct dec.
           ++ destruct (sim_visit os log k (((j, u) :: q, r) :: open) s1 r n H1) as [(o & s' & b & -> & Hs)|(o & s' & -> & Hs1 & Hs2 & Hs3)]; auto.
              ** intros b. cbn [top]. econstructor; eauto.
              ** discriminate.
              ** discriminate.
              ** intros Hlb. cbn [top]. destruct (Hlab Hlb) as (l' & E & Hs). exists l'. split; auto. intros Hsafe. rewrite (Hs Hsafe). exact Hn.
              ** eexists. eexists. eexists. exists None. split; [exact Hs|left; eauto].
              ** split; auto. split; [|exact Hs3]. exists k, (((j, u) :: q, r) :: open), r, n. split; auto.
           ++ destruct (Hd2 eq_refl) as (Hme & Hent & Hback).
              destruct (sim_non_tree os log k j u q r open n l s1 back Hl Hn H1 Hpc1 Hme Hlab Hent Hback) as (o & s' & kind & -> & Hs).
              eexists. eexists. eexists. exists None. split; [exact Hs|left; eauto].
Qed.

(** ** Every state of a run *)
Theorem dfs_any lim n os r : dfs_run V_dec vid VS PM LM XM next cfg skip starts av lim n = (os, r) ->
  match r with
  | Running s => exists log k open pend, Sim os log k open pend s
  | Ended s => exists log, Sim os log (length starts) [] None s
  | Raised x s => x = RuntimeErrorLimit /\ exists log k open p m, dfs_log ((LEnter true, p) :: log) k ((p, m) :: open) /\
                  good_reports ((LEnter true, p) :: log) (rev os) /\ f_calls s = calls_of log
  end.
Proof.
  unfold dfs_run. intros HR.
  assert (HI : (fun o s => exists log k open pend, Sim o log k open pend s) (@nil report) (init lim)).
  { exists [], 0, [], None. apply sim_init. }
  assert (HS : forall o s o' s', (exists log k open pend, Sim o log k open pend s) -> step s = Go o' s' ->
     exists log k open pend, Sim (o ++ o') log k open pend s').
  { intros o s o' s' (log & k & open & pend & Hs) Est. apply sim_step in Hs. rewrite Est in Hs. destruct Hs as (log' & k' & open' & pend' & Hs & _). eauto. }
  destruct r as [s|s|x s].
  - exact (run_inv_running step _ HS n [] (init lim) os s HI HR).
  - destruct (run_inv_ended step _ HS n [] (init lim) os s HI HR) as (o1 & o2 & s1 & -> & (log & k & open & pend & Hs) & Est).
    pose proof Hs as Hx. apply sim_step in Hx. rewrite Est in Hx. destruct Hx as (-> & -> & -> & -> & ->). exists log. rewrite app_nil_r. exact Hs.
  - destruct (run_inv_raised step _ HS n [] (init lim) os x s HI HR) as (o1 & o2 & s1 & -> & (log & k & open & pend & Hs) & Est).
    apply sim_step in Hs. rewrite Est in Hs. destruct Hs as (-> & (k' & open' & i & v & H1 & H2) & H3). split; auto.
    exists log, k', open', ((i, v) :: top open'), (edge_count next v). auto.
Qed.
End DFS.
