(** The bidirectional search of shortest paths: statements about [start_from]. *)
From Coq Require Import List ZArith Bool Lia Arith.
From Verif Require Import Machine GearSpec Spec TraversalSpec Common CommonProofs PathsModel PathModel PathSpec PathProofs Weight WeightSpec HeapModel DijkstraModel
  BiSPModel BiSPSpec BiSPSide BiSPProofs BiSPMore BiSPPaths.
Import ListNotations.

(** ** Any two neighbor functions *)
Section General.
Context {V I L : Type}.
Variable V_dec : forall a b : V, {a = b} + {a <> b}.
Variable I_dec : forall a b : I, {a = b} + {a <> b}.
Variable vid : V -> I.
Variable WT : Weights.
Hypothesis Hex : exact_addition WT.
Notation W := (w_t WT).
Notation leb := (w_leb WT).
Notation ltb := (w_ltb WT).
Notation add := (w_add WT).
Notation zero := (w_zero WT).
Notation inf := (w_inf WT).
Variable DM : DMap I W inf.
Variable PM : PMap I V.
Variable LM : PMap I L.
Variable next_f next_b : V -> list (V * W * L).
Variables labeled build silent : bool.
Variables E B : I -> W -> I -> Prop.
Hypothesis Hf : presents_weighted WT vid next_f E.
Hypothesis Hb : presents_weighted WT vid next_b B.
Hypothesis HnnE : nonnegative WT E.
Hypothesis HnnB : nonnegative WT B.
Variables starts goals : list V.
Variable lim : option Z.
Notation state := (@b2_state V I L WT DM PM LM).
Notation result := (@b2_result V L WT).
Notation exhausted := (exhausted vid WT E B starts goals).
Notation too_far := (too_far vid WT E B starts goals).
Notation GI := (GI vid WT DM PM LM next_f next_b E B starts goals).
Notation good_length := (good_length vid WT DM PM LM E B starts goals).
Notation b2run := (b2_run V_dec I_dec vid WT DM PM LM next_f next_b labeled build silent starts goals lim).

Lemma common2_some v : b2_common I_dec vid starts goals = Some v -> In v starts /\ exists g, In g goals /\ vid g = vid v.
Proof.
  unfold b2_common. intros H. apply find_some in H. destruct H as [H1 H2]. split; auto.
  destruct (in_dec I_dec (vid v) (map vid goals)) as [Hi|]; [|discriminate]. apply in_map_iff in Hi. destruct Hi as (g & Hg & Hi). eauto.
Qed.

Lemma common2_none : b2_common I_dec vid starts goals = None -> forall i, is_start vid starts i -> is_start vid goals i -> False.
Proof.
  unfold b2_common. intros H i Hs Hg. apply in_map_iff in Hs. destruct Hs as (v & <- & Hv).
  pose proof (find_none _ _ H v Hv) as Hn. simpl in Hn. destruct (in_dec I_dec (vid v) (map vid goals)) as [|C]; [discriminate|]. exact (C Hg).
Qed.

Lemma run_cases (Q : state -> Prop) n os r :
  (forall first, (forall i, is_start vid starts i -> is_start vid goals i -> False) -> Q (b2_init vid WT DM PM LM build first starts goals lim)) ->
  (forall s s', GI s -> moved vid WT DM PM LM next_f next_b labeled build s s' -> Q s -> Q s') ->
  b2run n = (os, r) ->
  match r with
  | Running _ => os = []
  | Ended _ => exists x, os = [x] /\
      ((silent = true /\ b2_length x = inf /\ exists f, exhausted f) \/
       (exists v g, In v starts /\ In g goals /\ vid g = vid v /\ x = {| b2_length := zero; b2_path := from_vertex labeled v |}) \/
       (exists s, GI s /\ Q s /\ x = b2_found V_dec vid WT DM PM LM labeled build s /\ good_length s))
  | Raised e _ => os = [] /\ ((e = KeyErrorNotFound /\ silent = false /\ exists f, exhausted f) \/ (e = RuntimeErrorLimit /\ lim <> None) \/ (e = OverflowErrorDistance /\ too_far))
  end.
Proof.
  intros HQ0 HQ. unfold b2_run.
  assert (Hnone : starts = [] \/ goals = [] -> exists f, exhausted f).
  { intros [Hn|Hn]; [exists true|exists false]; intros s p i Hs; simpl in Hs; rewrite Hn in Hs; destruct Hs. }
  assert (Hmain : forall first,
    (match b2_common I_dec vid starts goals with
      | Some v => ([{| b2_length := zero; b2_path := from_vertex labeled v |}], Ended None)
      | None => let '(os, r) := run (b2_step V_dec vid WT DM PM LM next_f next_b labeled build silent) n (b2_init vid WT DM PM LM build first starts goals lim) in
          (os, match r with Running s => Running (Some s) | Ended s => Ended (Some s) | Raised x s => Raised x (Some s) end) end) = (os, r) ->
   match r with
  | Running _ => os = []
  | Ended _ => exists x, os = [x] /\
      ((silent = true /\ b2_length x = inf /\ exists f, exhausted f) \/
       (exists v g, In v starts /\ In g goals /\ vid g = vid v /\ x = {| b2_length := zero; b2_path := from_vertex labeled v |}) \/
       (exists s, GI s /\ Q s /\ x = b2_found V_dec vid WT DM PM LM labeled build s /\ good_length s))
  | Raised e _ => os = [] /\ ((e = KeyErrorNotFound /\ silent = false /\ exists f, exhausted f) \/ (e = RuntimeErrorLimit /\ lim <> None) \/ (e = OverflowErrorDistance /\ too_far))
  end).
  { intros first. destruct (b2_common I_dec vid starts goals) as [v|] eqn:Hc.
    - intros HR. injection HR as <- <-. destruct (common2_some v Hc) as (Hv & g & Hg & Hgv). eexists. split; [reflexivity|]. right; left. exists v, g; auto.
    - pose proof (common2_none Hc) as Hdisj.
      destruct (run _ n _) as [os1 r1] eqn:ER. intros HR. injection HR as <- <-.
      pose proof (run_says V_dec I_dec vid WT Hex DM PM LM next_f next_b labeled build silent E B Hf Hb HnnE HnnB starts goals Hdisj Q first lim n os1 r1 (HQ0 first Hdisj) HQ ER) as H.
      destruct r1 as [s|s|e s]; auto. destruct H as [(H1 & H2 & H3)|(s1 & G & Qs & -> & H1)].
      + eexists. split; [exact H2|]. left. auto.
      + eexists. split; [reflexivity|]. right; right. exists s1. auto. }
  assert (Hfail : starts = [] \/ goals = [] ->
    match b2_failed WT labeled silent with inl r => ([r], Ended None) | inr x => ([], Raised x None) end = (os, r) ->
   match r with
  | Running _ => os = []
  | Ended _ => exists x, os = [x] /\
      ((silent = true /\ b2_length x = inf /\ exists f, exhausted f) \/
       (exists v g, In v starts /\ In g goals /\ vid g = vid v /\ x = {| b2_length := zero; b2_path := from_vertex labeled v |}) \/
       (exists s, GI s /\ Q s /\ x = b2_found V_dec vid WT DM PM LM labeled build s /\ good_length s))
  | Raised e _ => os = [] /\ ((e = KeyErrorNotFound /\ silent = false /\ exists f, exhausted f) \/ (e = RuntimeErrorLimit /\ lim <> None) \/ (e = OverflowErrorDistance /\ too_far))
  end).
  { intros Hn HR. specialize (Hnone Hn). unfold b2_failed in HR. destruct silent eqn:Es; injection HR as <- <-; [|auto]. eexists. split; [reflexivity|]. left. auto. }
  destruct starts as [|first rest]; [apply Hfail; auto|]. destruct goals as [|g rest']; [apply Hfail; auto|]. apply Hmain.
Qed.

Lemma run_ends : (exists f l, bounded vid WT E B starts goals f l) -> exists n os r, b2run n = (os, r) /\ forall s, r <> Running s.
Proof.
  intros Hbd. destruct Hbd as (f & l & Hbd). unfold b2_run.
  assert (Hfail : exists (n : nat) os r, match @b2_failed V L WT labeled silent with inl r => ([r], Ended None) | inr x => ([], Raised x None) end = (os, r) /\ forall s : option state, r <> Running s).
  { exists 0. unfold b2_failed. destruct silent; eexists _, _; (split; [reflexivity|discriminate]). }
  assert (Hmain : forall first, exists n os r,
    (match b2_common I_dec vid starts goals with
      | Some v => ([{| b2_length := zero; b2_path := from_vertex labeled v |}], Ended None)
      | None => let '(os, r) := run (b2_step V_dec vid WT DM PM LM next_f next_b labeled build silent) n (b2_init vid WT DM PM LM build first starts goals lim) in
          (os, match r with Running s => Running (Some s) | Ended s => Ended (Some s) | Raised x s => Raised x (Some s) end) end) = (os, r) /\ forall s, r <> Running s).
  { intros first. destruct (b2_common I_dec vid starts goals) as [v|] eqn:Hc.
    - exists 0. eexists _, _. split; [reflexivity|discriminate].
    - pose proof (common2_none Hc) as Hdisj.
      destruct (ends V_dec I_dec vid WT Hex DM PM LM next_f next_b labeled build silent E B Hf Hb HnnE HnnB starts goals f l first lim Hbd Hdisj) as (n & os & r & HR & Hn).
      exists n. rewrite HR. eexists _, _. split; [reflexivity|]. intros s. destruct r as [s'|s'|x s']; try discriminate. exfalso. apply (Hn s'). reflexivity. }
  destruct starts as [|first rest]; auto. destruct goals as [|g rest']; auto.
Qed.
End General.

Section GeneralPath.
Context {V I L : Type}.
Variable V_dec : forall a b : V, {a = b} + {a <> b}.
Variable I_dec : forall a b : I, {a = b} + {a <> b}.
Variable vid : V -> I.
Variable WT : Weights.
Hypothesis Hex : exact_addition WT.
Variable DM : DMap I (w_t WT) (w_inf WT).
Variable PM : PMap I V.
Variable LM : PMap I L.
Variable next_f next_b : V -> list (V * w_t WT * L).
Variables labeled silent : bool.
Variables E B : I -> w_t WT -> I -> Prop.
Hypothesis Hf : presents_weighted WT vid next_f E.
Hypothesis Hb : presents_weighted WT vid next_b B.
Hypothesis HnnE : nonnegative WT E.
Hypothesis HnnB : nonnegative WT B.
Variables starts goals : list V.
Hypothesis Hfaith : faithful vid WT E B goals.
Variable lim : option Z.
Hypothesis Hinj : forall u w, vid u = vid w -> u = w.

Lemma run_path n x r : b2_run V_dec I_dec vid WT DM PM LM next_f next_b labeled true silent starts goals lim n = ([x], r) ->
  b2_length x <> w_inf WT -> good_path vid WT next_f next_b labeled E starts goals x.
Proof.
  intros HR Hl.
  apply (run_cases V_dec I_dec vid WT Hex DM PM LM next_f next_b labeled true silent E B Hf Hb HnnE HnnB starts goals lim
           (fun s => forall f, stored vid WT DM PM LM next_f next_b labeled starts goals f (side_of WT DM PM LM f s))) in HR.
  - destruct r; [discriminate| |destruct HR; discriminate].
    destruct HR as (y & Heq & [(_ & Hy & _)|[(v & g & Hv & Hg & Hgv & ->)|(s1 & G & Qs & -> & Hgl & _)]]); injection Heq as ->.
    + contradiction.
    + apply Hinj in Hgv. subst g. exists v, [], v, []. split; auto. split; auto. split; [constructor|]. split; [reflexivity|]. split; [|split; [reflexivity|constructor]].
      eapply shows_mono; [|apply from_vertex_shows]. simpl. lia.
    + apply (found_path V_dec vid WT Hex DM PM LM next_f next_b labeled E B Hf Hb starts goals s1); auto.
  - intros first _. apply (stored_init I_dec); auto.
  - intros s s' G Hmv Hs. eapply (stored_moved V_dec I_dec); eauto.
Qed.
End GeneralPath.

(** ** Two neighbor functions that describe the same graph *)
Section Run.
Context {V I L : Type}.
Variable V_dec : forall a b : V, {a = b} + {a <> b}.
Variable I_dec : forall a b : I, {a = b} + {a <> b}.
Variable vid : V -> I.
Variable WT : Weights.
Hypothesis Hex : exact_addition WT.
Notation W := (w_t WT).
Notation leb := (w_leb WT).
Notation ltb := (w_ltb WT).
Notation add := (w_add WT).
Notation zero := (w_zero WT).
Notation inf := (w_inf WT).
Variable DM : DMap I W inf.
Variable PM : PMap I V.
Variable LM : PMap I L.
Variable next_f next_b : V -> list (V * W * L).
Variables labeled build silent : bool.
Variable E : I -> W -> I -> Prop.
Hypothesis Hf : presents_weighted WT vid next_f E.
Notation B := (fun i w j => E j w i).
Hypothesis Hb : presents_weighted WT vid next_b B.
Hypothesis Hnn : nonnegative WT E.
Variables starts goals : list V.
Variable lim : option Z.
Notation state := (@b2_state V I L WT DM PM LM).
Notation result := (@b2_result V L WT).
Notation wconn := (wconnection vid WT E starts goals).
Notation too_long := (too_long vid WT E starts goals).
Notation b2run := (b2_run V_dec I_dec vid WT DM PM LM next_f next_b labeled build silent starts goals lim).

Lemma HnnB : nonnegative WT B.
Proof. intros i w j. apply Hnn. Qed.
Lemma Hmutual : mutual WT E B.
Proof. intros i w j. reflexivity. Qed.

(** A result with a path: what is known about it. *)
Definition found_result (outdated : bool) (x : result) : Prop :=
  ltb (b2_length x) inf = true /\ wconn (b2_length x) /\ (forall c, wconn c -> leb (b2_length x) (add c c) = true) /\
  (outdated = false -> forall c, wconn c -> leb (b2_length x) c = true).

Lemma run_cases_same (Q : state -> Prop) n os r :
  (forall first, (forall i, is_start vid starts i -> is_start vid goals i -> False) -> Q (b2_init vid WT DM PM LM build first starts goals lim)) ->
  (forall s s', GI vid WT DM PM LM next_f next_b E B starts goals s -> moved vid WT DM PM LM next_f next_b labeled build s s' -> Q s -> Q s') ->
  b2run n = (os, r) ->
  match r with
  | Running _ => os = []
  | Ended _ => exists x, os = [x] /\
      ((silent = true /\ b2_length x = inf /\ forall c, ~ wconn c) \/ found_result false x \/ (exists s, Q s /\ found_result (b2_outdated s) x))
  | Raised e _ => os = [] /\ ((e = KeyErrorNotFound /\ silent = false /\ forall c, ~ wconn c) \/ (e = RuntimeErrorLimit /\ lim <> None) \/ (e = OverflowErrorDistance /\ too_long))
  end.
Proof.
  intros HQ0 HQ HR. apply (run_cases V_dec I_dec vid WT Hex DM PM LM next_f next_b labeled build silent E B Hf Hb Hnn HnnB starts goals lim Q) in HR; auto.
  assert (Hdead : (exists f, exhausted vid WT E B starts goals f) -> forall c, ~ wconn c).
  { intros (f & Hx). exact (exhausted_none vid WT Hex E B starts goals f Hmutual Hx). }
  destruct r as [s|s|e s]; auto.
  - destruct HR as (x & -> & [(H1 & H2 & H3)|[(v & g & Hv & Hg & Hgv & ->)|(s1 & G & HQs & -> & H1 & H2 & H3 & H4 & _)]]); eexists; (split; [reflexivity|]); auto.
    + right; left. split; [apply zero_lt_inf|]. split; [|split].
      * exists (vid v), [], (vid v). split; [now apply in_map|]. split; [rewrite <- Hgv; now apply in_map|]. split; [constructor|reflexivity].
      * intros c Hc. assert (leb zero c = true) by (eapply conn_nonneg; eauto). simpl. apply (w_leb_trans WT) with c; auto. apply add_le_l; auto.
      * intros _ c Hc. eapply conn_nonneg; eauto.
    + right; right. exists s1. split; auto.
      assert (Hkn : forall c, wconn c -> known WT DM E B (b2_forwards s1) (b2_dist (b2_current s1)) (b2_dist (b2_other s1)) c).
      { intros c Hc. eapply conn_known; eauto; [exact Hmutual|apply (g_cur _ _ _ _ _ _ _ _ _ _ _ s1 G)|apply (g_oth _ _ _ _ _ _ _ _ _ _ _ s1 G)]. }
      split; auto. split; [apply (joined_wconnection vid WT Hex E B); auto; apply mutual_faithful, Hmutual|].
      split; [intros c Hc; apply H3; auto; eapply conn_nonneg; eauto|]. intros Ho c Hc. apply H4; auto.
  - destruct HR as [-> [(H1 & H2 & H3)|[H|[H1 H2]]]]; split; auto. right; right. split; auto. apply (too_far_long vid WT E B); auto. exact Hmutual.
Qed.

Theorem b2_run_says n os r : b2run n = (os, r) ->
  match r with
  | Running _ => os = []
  | Ended _ => exists x, os = [x] /\
      ((ltb (b2_length x) inf = true /\ wconn (b2_length x)) \/ (silent = true /\ b2_length x = inf /\ forall c, ~ wconn c))
  | Raised e _ => os = [] /\ ((e = KeyErrorNotFound /\ silent = false /\ forall c, ~ wconn c) \/ (e = RuntimeErrorLimit /\ lim <> None) \/ (e = OverflowErrorDistance /\ too_long))
  end.
Proof.
  intros HR. apply (run_cases_same (fun _ => True)) in HR; auto. destruct r; auto.
  destruct HR as (x & -> & [H|[(H1 & H2 & _)|(s1 & _ & H1 & H2 & _)]]); exists x; split; auto.
Qed.

Theorem b2_run_double n x r c : b2run n = ([x], r) -> wconn c -> leb (b2_length x) (add c c) = true.
Proof.
  intros HR Hc. apply (run_cases_same (fun _ => True)) in HR; auto. destruct r; [discriminate| |destruct HR; discriminate].
  destruct HR as (y & Heq & [(_ & _ & Hn)|[(_ & _ & H & _)|(s1 & _ & _ & _ & H & _)]]); injection Heq as <-; auto. exfalso. exact (Hn c Hc).
Qed.

Theorem b2_run_shortest n x r c :
  equal_weights WT E \/ (path_independent WT E (is_start vid starts) /\ path_independent WT (fun i w j => E j w i) (is_start vid goals)) ->
  b2run n = ([x], r) -> wconn c -> leb (b2_length x) c = true.
Proof.
  intros Hst HR Hc.
  assert (Hst' : steady vid WT E B starts goals).
  { destruct Hst as [(w0 & Hw0)|[H1 H2]]; [left; exists w0; intros [|]; simpl; eauto|right]. intros [|]; auto. }
  apply (run_cases_same (fun s => (forall f, fresh vid WT DM PM LM E B starts goals f (side_of WT DM PM LM f s)) /\ b2_outdated s = false)) in HR.
  - destruct r; [discriminate| |destruct HR; discriminate].
    destruct HR as (y & Heq & [(_ & _ & Hn)|[(_ & _ & _ & H)|(s1 & [_ Ho] & _ & _ & _ & H)]]); injection Heq as <-; auto. exfalso. exact (Hn c Hc).
  - intros first _. split; [apply (fresh_init I_dec)|reflexivity].
  - intros s s' G Hmv [H1 H2]. eapply (fresh_moved I_dec vid WT DM PM LM next_f next_b labeled build E B Hf Hb Hnn HnnB); eauto.
Qed.

Theorem b2_run_ends :
  (exists l, forall i, wreachable WT E (is_start vid starts) i -> In i l) \/
  (exists l, forall i, wreachable WT (fun i w j => E j w i) (is_start vid goals) i -> In i l) \/
  (exists c l, wconn c /\ forall s p i, is_start vid starts s -> wwalk WT E s p i -> leb (walk_weight WT p) c = true -> In i l) \/
  (exists c l, wconn c /\ forall g p i, is_start vid goals g -> wwalk WT (fun i w j => E j w i) g p i -> leb (walk_weight WT p) c = true -> In i l) ->
  exists n os r, b2run n = (os, r) /\ forall s, r <> Running s.
Proof.
  intros H.
  apply (run_ends V_dec I_dec vid WT Hex DM PM LM next_f next_b labeled build silent E B Hf Hb Hnn HnnB starts goals lim).
  destruct H as [(l & H)|[(l & H)|[(c & l & Hc & H)|(c & l & Hc & H)]]].
  - exists true, l. left. intros s p i Hs Hw. apply H. exists s, p. auto.
  - exists false, l. left. intros s p i Hs Hw. apply H. exists s, p. auto.
  - exists true, l. right. split; [exact Hmutual|]. exists c. auto.
  - exists false, l. right. split; [exact Hmutual|]. exists c. auto.
Qed.
End Run.

Section RunPath.
Context {V I L : Type}.
Variable V_dec : forall a b : V, {a = b} + {a <> b}.
Variable I_dec : forall a b : I, {a = b} + {a <> b}.
Variable vid : V -> I.
Variable WT : Weights.
Hypothesis Hex : exact_addition WT.
Variable DM : DMap I (w_t WT) (w_inf WT).
Variable PM : PMap I V.
Variable LM : PMap I L.
Variable next_f next_b : V -> list (V * w_t WT * L).
Variables labeled silent : bool.
Variable E : I -> w_t WT -> I -> Prop.
Hypothesis Hf : presents_weighted WT vid next_f E.
Hypothesis Hb : presents_weighted WT vid next_b (fun i w j => E j w i).
Hypothesis Hnn : nonnegative WT E.
Variables starts goals : list V.
Variable lim : option Z.
Hypothesis Hinj : forall u w, vid u = vid w -> u = w.

Theorem b2_run_path n x r : b2_run V_dec I_dec vid WT DM PM LM next_f next_b labeled true silent starts goals lim n = ([x], r) ->
  b2_length x <> w_inf WT -> good_path vid WT next_f next_b labeled E starts goals x.
Proof.
  apply (run_path V_dec I_dec vid WT Hex DM PM LM next_f next_b labeled silent E (fun i w j => E j w i)); auto.
  - intros i w j. apply Hnn.
  - apply mutual_faithful. intros i w j. reflexivity.
Qed.
End RunPath.
