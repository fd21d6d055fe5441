(** Bidirectional search of shortest paths: weights that reach infinity. *)
From Coq Require Import List ZArith Bool.
From Verif Require Import Machine GearSpec Common TraversalSpec Weight WeightSpec HeapModel DijkstraModel PathModel BiSPModel BiSPSpec BiSPRun BiSPLimit.
Import ListNotations.

(** The data of one direction of the search. *)
Definition b2_direction {V I L} {WT : Weights} {DM : DMap I (w_t WT) (w_inf WT)} {PM : PMap I V} {LM : PMap I L} (f : bool) (s : b2_state WT DM PM LM) : b2_side WT DM PM LM :=
  if Bool.eqb (b2_forwards s) f then b2_current s else b2_other s.

Section BiSPOver.
Context {V I L : Type}.
Variable V_dec : forall a b : V, {a = b} + {a <> b}.
Variable I_dec : forall a b : I, {a = b} + {a <> b}.
Variable vid : V -> I.
Variable WT : Weights.
Notation W := (w_t WT).
Notation inf := (w_inf WT).
Variable DM : DMap I W (w_inf WT).
Variable PM : PMap I V.
Variable LM : PMap I L.
Variable next_f next_b : V -> list (V * W * L).
Variables labeled build silent : bool.
Notation state := (@b2_state V I L WT DM PM LM).
Notation side := (@b2_side V I L WT DM PM LM).
Notation step := (b2_step V_dec vid WT DM PM LM next_f next_b labeled build silent).
Notation fine := (fun w => w = inf \/ w_ltb WT w inf = true).
Definition next_dir (f : bool) := if f then next_f else next_b.

(** [rest]: the edges that are not yet evaluated. *)
Definition side_fine (f : bool) (b : side) (open : option (V * W * list (V * W * L))) : Prop :=
  (forall i, fine (dm_get DM i (b2_dist b))) /\
  (forall v w n ew l, In (v, w) (b2_calls b) -> In (n, ew, l) (next_dir f v) ->
     w_ltb WT (w_add WT ew w) inf = true \/ exists rest, open = Some (v, w, rest) /\ In (n, ew, l) rest).

Definition open_of (s : state) := match b2_pc_of s with SLoop => None | SEdges v w rest => Some (v, w, rest) end.
Definition both_fine (s : state) : Prop :=
  side_fine (b2_forwards s) (b2_current s) (open_of s) /\ side_fine (negb (b2_forwards s)) (b2_other s) None.

Lemma both_fine_step s o s' : both_fine s -> step s = Go o s' -> both_fine s'.
Proof.
  intros [[H1 H2] [H3 H4]]. unfold b2_step, b2_failed, both_fine. unfold open_of in *. destruct (b2_pc_of s) as [|v w [|[[n ew] l] rest]].
  - destruct (b2_heap (b2_current s)) as [|[[w no] v] h]; [destruct silent; discriminate|]. cbv zeta. cbn [b2_popped b2_dist b2_limit].
    destruct (w_ltb WT _ w); [intros H; injection H as _ <-; simpl; rewrite negb_involutive; split; split; assumption|].
    destruct (_ && _); [discriminate|]. destruct (limit_check (b2_limit (b2_current s))) as [lim|]; [|discriminate].
    intros H; injection H as _ <-; simpl. split; [|split; assumption]. split; [exact H1|].
    intros v' w' n ew l [Heq|Hin] He.
    + injection Heq as -> ->. right. exists (next_dir (b2_forwards s) v'). split; auto.
    + destruct (H2 v' w' n ew l Hin He) as [?|(rest & ? & _)]; [auto|discriminate].
  - intros H; injection H as _ <-; simpl. rewrite negb_involutive. split; [split; assumption|]. split; [exact H1|].
    intros v' w' n ew l Hin He. destruct (H2 v' w' n ew l Hin He) as [?|(rest & Heq & Hr)]; [auto|]. injection Heq as <- <- <-. destruct Hr.
  - destruct (w_leb WT inf (w_add WT ew w)) eqn:Eov; [discriminate|]. cbv zeta.
    assert (H2' : forall v' w' n' ew' l', In (v', w') (b2_calls (b2_current s)) -> In (n', ew', l') (next_dir (b2_forwards s) v') ->
              w_ltb WT (w_add WT ew' w') inf = true \/ exists r, Some (v, w, rest) = Some (v', w', r) /\ In (n', ew', l') r).
    { intros v' w' n' ew' l' Hin He. destruct (H2 v' w' n' ew' l' Hin He) as [?|(r & Heq & Hr)]; [auto|]. injection Heq as <- <- <-.
      destruct Hr as [Hr|Hr]; [|right; exists rest; auto]. injection Hr as <- <- <-. left. now apply w_ltb_lt. }
    destruct (w_leb WT (dm_get DM (vid n) (b2_dist (b2_current s))) _); intros H; injection H as _ <-; simpl; (split; [|split; assumption]); split; auto.
    intros i. cbn [b2_improved b2_dist]. cbv beta. destruct (I_dec i (vid n)) as [->|Hne].
    + rewrite dm_get_set_same. right. now apply w_ltb_lt.
    + rewrite dm_get_set_other by auto. apply H1.
Qed.

Lemma start_fine f l lim : side_fine f (b2_start vid WT DM PM LM build l lim) None.
Proof.
  split; [|intros ? ? ? ? ? []]. intros i. cbn [b2_start b2_dist].
  assert (Hdec : is_start vid l i \/ ~ is_start vid l i) by (unfold is_start; destruct (in_dec I_dec i (map vid l)); auto).
  destruct Hdec.
  - right. rewrite (BiSPSide.D0_start I_dec vid WT DM l i) by auto. apply w_ltb_lt, w_zero_inf.
  - left. now apply BiSPSide.D0_other.
Qed.

Lemma fine_direction s f : both_fine s -> side_fine f (b2_direction f s) (if Bool.eqb (b2_forwards s) f then open_of s else None).
Proof. intros [H1 H2]. unfold b2_direction. destruct (b2_forwards s), f; simpl in *; assumption. Qed.

Lemma b2_overflow_run first starts goals lim n os r :
  run step n (b2_init vid WT DM PM LM build first starts goals lim) = (os, r) ->
  (forall f i, fine (dm_get DM i (b2_dist (b2_direction f (outcome_state r))))) /\
  (forall s, r = Ended s -> forall f v w n ew l, In (v, w) (b2_calls (b2_direction f s)) -> In (n, ew, l) (next_dir f v) -> w_ltb WT (w_add WT ew w) inf = true).
Proof.
  intros HR. assert (H0 : both_fine (b2_init vid WT DM PM LM build first starts goals lim)) by (split; apply start_fine).
  apply (run_inv_any step (fun _ s => both_fine s) (fun pre s o s' Hb Hs => both_fine_step s o s' Hb Hs) n [] _ _ _ H0) in HR.
  destruct r as [s|s|x s].
  - split; [|discriminate]. intros f i. apply (fine_direction s f HR).
  - destruct HR as (os1 & o & s1 & _ & Hb & Hs).
    assert (Hsame : forall f, b2_dist (b2_direction f s) = b2_dist (b2_direction f s1) /\ b2_calls (b2_direction f s) = b2_calls (b2_direction f s1) /\ open_of s1 = None).
    { intros f. unfold b2_step, b2_failed in Hs. unfold b2_direction, open_of. destruct (b2_pc_of s1) as [|v w [|[[n1 ew] l] rest]]; [|discriminate|].
      - destruct (b2_heap (b2_current s1)) as [|[[w no] v] h].
        + destruct silent; [|discriminate]. injection Hs as _ <-. auto.
        + cbv zeta in Hs. destruct (w_ltb WT _ w); [discriminate|]. destruct (_ && _); [|destruct (limit_check _); discriminate].
          injection Hs as _ <-. simpl. destruct (b2_forwards s1), f; auto.
      - destruct (w_leb WT inf _); [discriminate|]. cbv zeta in Hs. destruct (w_leb WT _ _); discriminate. }
    split.
    + intros f i. cbn [outcome_state]. destruct (Hsame f) as [-> _]. apply (fine_direction s1 f Hb).
    + intros s2 Heq f v w n0 ew l Hin He. injection Heq as <-. destruct (Hsame f) as (_ & Hc & Ho). rewrite Hc in Hin.
      destruct (fine_direction s1 f Hb) as [_ H]. rewrite Ho in H. destruct (H v w n0 ew l Hin He) as [?|(rest & Heq & _)]; auto. destruct (Bool.eqb _ _); discriminate.
  - split; [|discriminate]. destruct HR as (os1 & o & s1 & _ & Hb & Hs). intros f i. cbn [outcome_state].
    assert (Hsame : b2_dist (b2_direction f s) = b2_dist (b2_direction f s1)).
    { unfold b2_step, b2_failed in Hs. unfold b2_direction. destruct (b2_pc_of s1) as [|v w [|[[n1 ew] l] rest]]; [|discriminate|].
      - destruct (b2_heap (b2_current s1)) as [|[[w no] v] h].
        + destruct silent; [discriminate|]. injection Hs as _ _ <-. auto.
        + cbv zeta in Hs. destruct (w_ltb WT _ w); [discriminate|]. destruct (_ && _); [discriminate|]. destruct (limit_check _); [discriminate|].
          injection Hs as _ _ <-. simpl. destruct (b2_forwards s1), f; auto.
      - destruct (w_leb WT inf _); [injection Hs as _ _ <-; auto|]. cbv zeta in Hs. destruct (w_leb WT _ _); discriminate. }
    rewrite Hsame. apply (fine_direction s1 f Hb).
Qed.

Variable E : I -> W -> I -> Prop.
Hypothesis Hex : exact_addition WT.
Hypothesis Hf : presents_weighted WT vid next_f E.
Hypothesis Hb : presents_weighted WT vid next_b (fun i w j => E j w i).
Hypothesis Hnn : nonnegative WT E.

Lemma b2_overflow starts goals lim n os r : b2_run V_dec I_dec vid WT DM PM LM next_f next_b labeled build silent starts goals lim n = (os, r) ->
  (forall x, In x os -> w_ltb WT (b2_length x) inf = true \/ (silent = true /\ b2_length x = inf /\ forall c, ~ wconnection vid WT E starts goals c)) /\
  (forall s f i, outcome_state r = Some s -> fine (dm_get DM i (b2_dist (b2_direction f s)))) /\
  (forall s, r = Raised OverflowErrorDistance s -> too_long vid WT E starts goals) /\
  (forall s f v w n ew l, r = Ended (Some s) -> In (v, w) (b2_calls (b2_direction f s)) -> In (n, ew, l) ((if f : bool then next_f else next_b) v) -> w_ltb WT (w_add WT ew w) inf = true).
Proof.
  intros HR. pose proof (b2_run_says V_dec I_dec vid WT Hex DM PM LM next_f next_b labeled build silent E Hf Hb Hnn starts goals lim n os r HR) as Hs.
  split.
  { intros x Hx. destruct r as [s|s|e s]; [subst os; destruct Hx| |destruct Hs as [-> _]; destruct Hx].
    destruct Hs as (y & -> & Hy). destruct Hx as [<-|[]]. destruct Hy as [[? _]|?]; auto. }
  assert (Hov : forall s, r = Raised OverflowErrorDistance s -> too_long vid WT E starts goals).
  { intros s ->. destruct Hs as [_ [(? & _)|[(? & _)|(_ & ?)]]]; auto; discriminate. }
  unfold b2_run in HR. destruct starts as [|first rest]; [|destruct goals as [|g rest']].
  1, 2: unfold b2_failed in HR; destruct silent; injection HR as <- <-; (split; [discriminate|]); (split; [exact Hov|discriminate]).
  destruct (b2_common I_dec vid (first :: rest) (g :: rest')) as [v|]; [injection HR as <- <-; (split; [discriminate|]); (split; [exact Hov|discriminate])|].
  destruct (run step n _) as [os1 r1] eqn:HR1. injection HR as <- <-. destruct (b2_overflow_run first _ _ lim n os1 r1 HR1) as [HA HB].
  split; [|split; [exact Hov|]].
  - intros s f i Hst. specialize (HA f i). destruct r1; injection Hst as <-; exact HA.
  - intros s f v w n' ew l Hst Hin He. destruct r1 as [s1|s1|x s1]; try discriminate. injection Hst as <-. exact (HB s1 eq_refl f v w n' ew l Hin He).
Qed.
End BiSPOver.
