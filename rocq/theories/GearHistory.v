(** Histories of operations behave like histories on mathematical sets and maps. *)
From Coq Require Import List ZArith NArith Bool Arith Lia Sorted.
From Verif Require Import GearSpec GearModel GearProofs GearHistoryModel GearHistorySpec.
Import ListNotations.

Lemma sorted_head_min (l : list nat) k : StronglySorted lt (k :: l) -> forall j, In j l -> k < j.
Proof. inversion 1; subst. now apply Forall_forall. Qed.

(** Generic argument for a set with iteration, membership, removal. *)
Section MixinSet.
Context {T : Type}.
Variable ok : T -> Prop.
Variable mem : T -> nat -> Prop.
Variable iter : T -> list nat.
Variable discard : nat -> T -> T.
Hypothesis Hiter : forall s k, In k (iter s) <-> mem s k.
Hypothesis Hsorted : forall s, StronglySorted lt (iter s).
Hypothesis Hdiscard : forall k s j, mem (discard k s) j <-> j <> k /\ mem s j.
Hypothesis Hok : forall k s, ok s -> ok (discard k s).

Lemma pop_means s : set_op_means SPop (mem s)
  (mem (match mixin_pop iter discard s with Some s' => s' | None => s end)).
Proof using Hiter Hsorted Hdiscard.
  unfold mixin_pop, set_op_means. pose proof (Hsorted s) as HS. pose proof (Hiter s) as HI.
  destruct (iter s) as [|k l]; intros j.
  - split; [intros H; apply HI in H; destruct H|]. intros [H _]. exact H.
  - rewrite Hdiscard. split.
    + intros [Hne Hj]. split; auto. exists k. split; [apply HI; now left|].
      apply HI in Hj. destruct Hj as [->|Hj]; [congruence|]. now apply (sorted_head_min l).
    + intros [Hj (i & Hi & Hlt)]. split; auto. intros ->. apply HI in Hi.
      destruct Hi as [->|Hi]; [lia|]. pose proof (sorted_head_min _ _ HS _ Hi). lia.
Qed.

Lemma pop_length s : length (iter (match mixin_pop iter discard s with Some s' => s' | None => s end))
  = length (iter s) - 1.
Proof using Hiter Hsorted Hdiscard.
  pose proof (pop_means s) as Hm. unfold mixin_pop in *. pose proof (Hsorted s) as HS. pose proof (Hiter s) as HI.
  destruct (iter s) as [|k l] eqn:E; [now rewrite E|]. 
  assert (Hnd : forall l', StronglySorted lt l' -> NoDup l').
  { induction l' as [|a l' IH]; intros H; constructor; inversion H; subst; auto.
    intros Hin. rewrite Forall_forall in H3. specialize (H3 _ Hin). lia. }
  simpl. rewrite Nat.sub_0_r. apply Nat.le_antisymm; apply NoDup_incl_length.
  - apply Hnd, Hsorted.
  - intros j Hj. apply Hiter, Hdiscard in Hj. destruct Hj as [Hne Hj]. apply HI in Hj.
    destruct Hj; [congruence|auto].
  - inversion HS; subst. auto.
  - intros j Hj. apply Hiter, Hdiscard. split.
    + pose proof (sorted_head_min _ _ HS _ Hj). lia.
    + apply HI. now right.
Qed.

Lemma clear_means fuel : forall s, length (iter s) <= fuel ->
  set_op_means SClear (mem s) (mem (mixin_clear iter discard fuel s)).
Proof using Hiter Hsorted Hdiscard.
  induction fuel as [|fuel IH]; intros s Hl j Hj.
  - simpl in Hj. apply Hiter in Hj. destruct (iter s); simpl in Hl; [auto|lia].
  - simpl in Hj. pose proof (pop_length s) as Hp. destruct (mixin_pop iter discard s) as [s'|] eqn:E.
    + eapply (IH s'); eauto. rewrite Hp. lia.
    + unfold mixin_pop in E. destruct (iter s) eqn:E2; [|discriminate]. apply Hiter in Hj. rewrite E2 in Hj. auto.
Qed.

Lemma clear_ok fuel : forall s, ok s -> ok (mixin_clear iter discard fuel s).
Proof using Hok.
  induction fuel as [|fuel IH]; simpl; auto. intros s Hs. unfold mixin_pop.
  destruct (iter s); auto.
Qed.
End MixinSet.

Definition bs_mem (s : list N) (k : nat) : Prop := bs_contains (Z.of_nat k) s = true.
Definition bits_mem (s : list N) (k : nat) : Prop := bits_contains (Z.of_nat k) s = true.

Section Sets.
Variable cfg : wcfg.
Hypothesis Hcfg : wcfg_ok cfg.

Lemma bs_discard_mem k s j : bs_mem (bs_discard k s) j <-> j <> k /\ bs_mem s j.
Proof.
  unfold bs_mem. rewrite bs_discard_contains. destruct (Nat.eqb_spec j k); subst; simpl.
  - split; [discriminate|tauto].
  - tauto.
Qed.

Lemma bs_apply_means s op : set_op_means op (bs_mem s) (bs_mem (bs_apply cfg s op)).
Proof using Hcfg.
  destruct op as [k|k|ks| |]; simpl.
  - intros j. unfold bs_mem. rewrite bs_add_contains by auto. rewrite orb_true_iff, Nat.eqb_eq. tauto.
  - intros j. apply bs_discard_mem.
  - intros j. unfold bs_mem. rewrite bs_update_contains by auto. reflexivity.
  - apply (pop_means bs_mem bs_iter bs_discard); [|intros; apply bs_iter_from_sorted|apply bs_discard_mem].
    intros. apply bs_iter_spec.
  - apply (clear_means bs_mem bs_iter bs_discard); [|intros; apply bs_iter_from_sorted|apply bs_discard_mem|].
    + intros. apply bs_iter_spec.
    + rewrite bs_len_iter. auto.
Qed.

Lemma bs_history ops : forall s, set_history (bs_mem s) ops (bs_mem (fold_left (bs_apply cfg) ops s)).
Proof using Hcfg.
  induction ops as [|op ops IH]; simpl; intros s; [constructor; tauto|].
  eapply sh_cons; [apply bs_apply_means|apply IH].
Qed.

Lemma bs_after_spec keys ops : let s := bs_after cfg keys ops in
  set_history (fun k => In k keys) ops (fun k => bs_contains (Z.of_nat k) s = true) /\
  (forall z, (z < 0)%Z -> bs_contains z s = false) /\
  StronglySorted lt (bs_iter s) /\
  (forall k, In k (bs_iter s) <-> bs_contains (Z.of_nat k) s = true) /\
  bs_len s = length (bs_iter s).
Proof using Hcfg.
  intros s. split; [|split; [intros; now apply bs_contains_neg|split; [apply bs_iter_from_sorted|split]]].
  - assert (H : forall P Q, (forall j, Q j <-> P j) -> forall ops R, set_history P ops R -> set_history Q ops R).
    { intros P Q HPQ ops0 R HH. inversion HH; subst.
      - constructor. intros j. rewrite H. symmetry. apply HPQ.
      - econstructor; eauto. destruct op; simpl in *; intros j; [rewrite H, HPQ|rewrite H, HPQ|rewrite H, HPQ| |apply H]; try tauto.
        rewrite H, HPQ. split; intros [Hj (i & Hi & Hlt)]; split; auto; exists i; split; auto; now apply HPQ. }
    apply (H (bs_mem (bs_update cfg keys (bs_new cfg)))); [|apply bs_history].
    intros j. unfold bs_mem. rewrite bs_update_contains, bs_new_contains by auto. intuition discriminate.
  - intros. apply bs_iter_spec.
  - apply bs_len_iter.
Qed.

Lemma bits_discard_mem k s j : bits_mem (bits_discard k s) j <-> j <> k /\ bits_mem s j.
Proof.
  unfold bits_mem. rewrite bits_discard_contains. destruct (Nat.eqb_spec j k); subst; simpl.
  - split; [discriminate|tauto].
  - tauto.
Qed.

Lemma bits_apply_means s op : bytes_ok s -> set_op_means op (bits_mem s) (bits_mem (bits_apply cfg s op)).
Proof using Hcfg.
  intros Hs. destruct op as [k|k|ks| |]; simpl.
  - intros j. unfold bits_mem. rewrite bits_add_contains by auto. rewrite orb_true_iff, Nat.eqb_eq. tauto.
  - intros j. apply bits_discard_mem.
  - intros j. unfold bits_mem. rewrite bits_update_contains by auto. reflexivity.
  - apply (pop_means bits_mem bits_iter bits_discard); [|intros; apply bits_iter_from_sorted|apply bits_discard_mem].
    intros. apply bits_iter_spec.
  - apply (clear_means bits_mem bits_iter bits_discard); [|intros; apply bits_iter_from_sorted|apply bits_discard_mem|].
    + intros. apply bits_iter_spec.
    + rewrite bits_len_iter; auto.
Qed.

Lemma bits_update_ok ks : forall s, bytes_ok s -> bytes_ok (bits_update cfg ks s).
Proof. induction ks as [|k ks IH]; simpl; auto. intros s Hs. apply IH. now apply (bits_add_ok cfg k s). Qed.

Lemma bits_apply_ok s op : bytes_ok s -> bytes_ok (bits_apply cfg s op).
Proof.
  intros Hs. destruct op as [k|k|ks| |]; simpl.
  - now apply bits_add_ok.
  - now apply bits_discard_ok.
  - now apply bits_update_ok.
  - unfold mixin_pop. destruct (bits_iter s); auto. now apply bits_discard_ok.
  - apply clear_ok; auto. intros. now apply bits_discard_ok.
Qed.

Lemma bits_history ops : forall s, bytes_ok s ->
  set_history (bits_mem s) ops (bits_mem (fold_left (bits_apply cfg) ops s)) /\
  bytes_ok (fold_left (bits_apply cfg) ops s).
Proof using Hcfg.
  induction ops as [|op ops IH]; simpl; intros s Hs; [split; auto; constructor; tauto|].
  destruct (IH (bits_apply cfg s op)) as [H1 H2]; [now apply bits_apply_ok|].
  split; auto. eapply sh_cons; [apply bits_apply_means; auto|apply H1].
Qed.

Lemma bits_after_spec keys ops : let s := bits_after cfg keys ops in
  set_history (fun k => In k keys) ops (fun k => bits_contains (Z.of_nat k) s = true) /\
  (forall z, (z < 0)%Z -> bits_contains z s = false) /\
  StronglySorted lt (bits_iter s) /\
  (forall k, In k (bits_iter s) <-> bits_contains (Z.of_nat k) s = true) /\
  bits_len s = length (bits_iter s).
Proof using Hcfg.
  intros s.
  destruct (bits_history ops (bits_update cfg keys (bits_new cfg))) as [HH Hok].
  { apply bits_update_ok, bits_new_ok. }
  split; [|split; [intros; now apply bits_contains_neg|split; [apply bits_iter_from_sorted|split]]].
  - assert (H : forall P Q, (forall j, Q j <-> P j) -> forall ops R, set_history P ops R -> set_history Q ops R).
    { intros P Q HPQ ops0 R HH0. inversion HH0; subst.
      - constructor. intros j. rewrite H. symmetry. apply HPQ.
      - econstructor; eauto. destruct op; simpl in *; intros j; [rewrite H, HPQ|rewrite H, HPQ|rewrite H, HPQ| |apply H]; try tauto.
        rewrite H, HPQ. split; intros [Hj (i & Hi & Hlt)]; split; auto; exists i; split; auto; now apply HPQ. }
    apply (H (bits_mem (bits_update cfg keys (bits_new cfg)))); [|exact HH].
    intros j. unfold bits_mem. rewrite bits_update_contains, bits_new_contains by auto. intuition discriminate.
  - intros. apply bits_iter_spec.
  - now apply bits_len_iter.
Qed.
End Sets.

Section Maps.
Context {A : Type}.
Variable A_eqb : A -> A -> bool.
Hypothesis A_eqb_spec : forall a b, reflect (a = b) (A_eqb a b).
Variable cfg : wcfg.
Hypothesis Hcfg : wcfg_ok cfg.
Variable default : A.

(** The map that the sequence [s] stands for. *)
Definition ma_map (s : list A) (k : nat) : option A := ma_getitem A_eqb default k s.

Lemma ma_map_direct s k : ma_map s k =
  if A_eqb (ma_direct default k s) default then None else Some (ma_direct default k s).
Proof using A_eqb_spec. now apply ma_getitem_direct. Qed.

Lemma A_eqb_neq a b : A_eqb a b = false <-> a <> b.
Proof using A_eqb_spec. destruct (A_eqb_spec a b); intuition congruence. Qed.

Lemma A_eqb_refl a : A_eqb a a = true.
Proof using A_eqb_spec. destruct (A_eqb_spec a a); congruence. Qed.

Lemma ma_assigned k v s : assigned default k v (ma_map s) (ma_map (set_or_extend cfg default s k v)).
Proof using A_eqb_spec Hcfg.
  assert (Hd : forall j, ma_direct default j (set_or_extend cfg default s k v) =
                 if j =? k then v else ma_direct default j s).
  { intros j. apply (ma_setitem_direct cfg Hcfg default k v s j). }
  split; [|split].
  - intros Hv. rewrite ma_map_direct, Hd, Nat.eqb_refl. apply A_eqb_neq in Hv. now rewrite Hv.
  - intros ->. rewrite ma_map_direct, Hd, Nat.eqb_refl.
    now rewrite A_eqb_refl.
  - intros j Hj. rewrite !ma_map_direct, Hd. destruct (Nat.eqb_spec j k); [congruence|reflexivity].
Qed.

Lemma ma_apply_means s op : map_op_means default op (ma_map s) (ma_map (ma_apply A_eqb cfg default s op)).
Proof using A_eqb_spec Hcfg.
  destruct op as [k v|k|items|items]; simpl.
  - apply ma_assigned.
  - split; intros; rewrite !ma_map_direct, !ma_delitem_direct by auto.
    + rewrite Nat.eqb_refl. now rewrite A_eqb_refl.
    + destruct (Nat.eqb_spec j k); [congruence|reflexivity].
  - revert s. induction items as [|[k v] items IH]; simpl; intros s; [constructor; auto|].
    eapply aa_set; [now left|apply ma_assigned|apply IH].
  - revert s. induction items as [|[k v] items IH]; simpl; intros s; [constructor; auto|].
    assert (Hd : forall j, ma_map (ma_setdefault A_eqb cfg default k v s) j =
      if j =? k then match ma_map s k with None => ma_map (set_or_extend cfg default s k v) k | o => o end
      else ma_map s j).
    { intros j. rewrite !ma_map_direct.
      pose proof (ma_setitem_direct cfg Hcfg default k v s k) as Hk. unfold ma_setitem in Hk. rewrite Hk, Nat.eqb_refl.
      rewrite ma_setdefault_direct by auto.
      destruct (Nat.eqb_spec j k); simpl; auto. subst j.
      destruct (A_eqb (ma_direct default k s) default) eqn:E; auto. now rewrite E. }
    destruct (ma_map s k) as [a|] eqn:Hk.
    + apply aa_skip; [reflexivity|congruence|].
      assert (Hsame : forall m1 m2 m', (forall j, m1 j = m2 j) ->
         all_assigned default true items m1 m' -> all_assigned default true items m2 m').
      { clear. induction items as [|[k v] items IH]; intros m1 m2 m' He Ha; inversion Ha; subst.
        - constructor. intros. rewrite H. auto.
        - match goal with Hx : assigned _ _ _ _ _ |- _ => rename Hx into H4 end. eapply aa_set; eauto.
          + rewrite <- He. auto.
          + destruct H4 as (Ha1 & Ha2 & Ha3). split; [auto|split; auto]. intros. rewrite Ha3; auto.
        - apply aa_skip; auto.
          + rewrite <- He. auto.
          + eauto. }
      eapply Hsame; [|apply IH]. intros j. rewrite Hd. destruct (Nat.eqb_spec j k); congruence.
    + eapply aa_set; [now right| |apply IH].
      pose proof (ma_assigned k v s) as (Ha1 & Ha2 & Ha3). split; [|split].
      * intros. rewrite Hd, Nat.eqb_refl. auto.
      * intros. rewrite Hd, Nat.eqb_refl. auto.
      * intros j Hj. rewrite Hd. destruct (Nat.eqb_spec j k); congruence.
Qed.

Lemma ma_history ops : forall s,
  map_history default (ma_map s) ops (ma_map (fold_left (ma_apply A_eqb cfg default) ops s)).
Proof using A_eqb_spec Hcfg.
  induction ops as [|op ops IH]; simpl; intros s; [constructor; auto|].
  eapply mh_cons; [apply ma_apply_means|apply IH].
Qed.

Lemma ma_after_spec items ops : let s := ma_after A_eqb cfg default items ops in
  map_history default (fun _ => None) (MUpdate items :: ops) (fun k => ma_getitem A_eqb default k s) /\
  (forall k, ma_direct default k s = match ma_getitem A_eqb default k s with Some v => v | None => default end) /\
  (forall k, ma_contains A_eqb default (Z.of_nat k) s = true <-> ma_getitem A_eqb default k s <> None) /\
  (forall z, (z < 0)%Z -> ma_contains A_eqb default z s = false) /\
  StronglySorted lt (ma_iter A_eqb default s) /\
  (forall k, In k (ma_iter A_eqb default s) <-> ma_getitem A_eqb default k s <> None) /\
  ma_len A_eqb default s = length (ma_iter A_eqb default s).
Proof using A_eqb_spec Hcfg.
  intros s. 
  assert (Hc : forall k, ma_contains A_eqb default (Z.of_nat k) s = true <-> ma_getitem A_eqb default k s <> None).
  { intros k. rewrite (ma_contains_direct A_eqb A_eqb_spec), (ma_getitem_direct A_eqb A_eqb_spec).
    destruct (A_eqb (ma_direct default k s) default); simpl; split; intros; congruence. }
  split; [|split; [|split; [exact Hc|split; [intros; now apply ma_contains_neg|split; [now apply ma_iter_from_sorted|split]]]]].
  - eapply mh_cons; [|apply ma_history].
    assert (Hm : forall items s m, (forall j, ma_map s j = m j) ->
      all_assigned default false items m (ma_map (ma_update cfg default items s))).
    { clear s Hc. induction items0 as [|[k v] items0 IH]; simpl; intros s m He; [constructor; auto|].
      eapply aa_set; [now left| |apply IH; intros; reflexivity].
      pose proof (ma_assigned k v s) as (Ha1 & Ha2 & Ha3). split; [auto|split; auto].
      intros j Hj. rewrite <- He. simpl. auto. }
    apply Hm. intros j. rewrite ma_map_direct, ma_new_direct.
    now rewrite A_eqb_refl.
  - intros k. rewrite ma_getitem_direct by auto. destruct (A_eqb_spec (ma_direct default k s) default); auto.
  - intros k. rewrite ma_iter_spec by auto. apply Hc.
  - apply ma_len_iter.
Qed.
End Maps.
