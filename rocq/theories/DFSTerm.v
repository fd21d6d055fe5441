(** The traversal with trace ends, if only finitely many positions can be entered. *)
From Coq Require Import List Bool Arith ZArith Lia.
From Verif Require Import Machine GearSpec Common Spec TraversalSpec DFSModel DFSSpec DFSLog DFSLogMore DFSReports DFSProofs.
Import ListNotations.

Section Nodes.
Context {V I L : Type}.
Variable vid : V -> I.
Variable next : V -> list (V * L).
Variable starts : list V.
Notation node := (node V).
Notation log_t := (log_t V).

(** All positions of length at most [m]. *)
Definition numbered {A} (l : list A) : list (nat * A) := combine (seq 0 (length l)) l.
Lemma in_numbered {A} (l : list A) : forall i x, nth_error l i = Some x -> In (i, x) (numbered l).
Proof.
  unfold numbered. intros i x H. assert (Hg : forall k (l : list A) i, nth_error l i = Some x -> In (k + i, x) (combine (seq k (length l)) l)).
  { clear. intros k l. revert k. induction l as [|a l IH]; intros k [|i] H; cbn in *; try discriminate.
    - injection H as ->. left. f_equal. lia.
    - right. replace (k + S i) with (S k + i) by lia. apply IH. exact H. }
  apply (Hg 0). exact H.
Qed.

Fixpoint level (m : nat) : list node :=
  match m with
  | 0 => map (fun x => [x]) (numbered starts)
  | S m => flat_map (fun p => match p with [] => [] | (_, u) :: _ => map (fun x => x :: p) (numbered (map fst (next u))) end) (level m)
  end.
Definition positions (m : nat) : list node := flat_map level (seq 0 m).

Lemma in_level p : dnode next starts p -> In p (level (length p - 1)).
Proof.
  induction 1 as [k s Hk|i n l j u p Hd IH Hn].
  - cbn. apply in_map_iff. exists (k, s). split; auto. apply in_numbered; auto.
  - replace (length ((i, n) :: (j, u) :: p) - 1) with (S (length ((j, u) :: p) - 1)) by (cbn; lia).
    cbn [level]. apply in_flat_map. exists ((j, u) :: p). split; auto. apply in_map_iff. exists (i, n). split; auto.
    apply in_numbered. rewrite nth_error_map, Hn. reflexivity.
Qed.
Lemma in_positions p m : dnode next starts p -> length p <= m -> In p (positions m).
Proof.
  intros Hd Hl. apply in_flat_map. exists (length p - 1). split; [|apply in_level; auto]. apply in_seq.
  pose proof (dnode_nonempty _ _ _ Hd). destruct p; [congruence|cbn in *; lia].
Qed.

(** The length of a log is bounded by the number of positions. *)
Definition leaves (log : log_t) : nat := length (filter (fun x => match fst x with LLeave => true | _ => false end) log).
Lemma log_leaves pol log k open : dfs_log vid next starts pol log k open -> leaves log + length open = length (enters log).
Proof. unfold leaves, enters. induction 1; cbn in *; try lia. Qed.
Lemma log_split (log : log_t) : length log = length (arrivals log) + leaves log.
Proof. unfold arrivals, leaves. rewrite map_length. induction log as [|(e & p) log IH]; cbn; auto. destruct e; cbn; lia. Qed.
Lemma enters_arrivals (log : log_t) : length (enters log) <= length (arrivals log).
Proof. unfold arrivals, enters. rewrite !map_length. induction log as [|(e & p) log IH]; cbn; auto. destruct e; cbn; lia. Qed.

Lemma log_bound pol log k open m : dfs_log vid next starts pol log k open ->
  (forall p, In p (arrivals log) -> length p <= m) -> length log <= 2 * length (positions m).
Proof.
  intros H Hm. pose proof (log_leaves _ _ _ _ H) as H1. pose proof (log_split log) as H2. pose proof (enters_arrivals log) as H3.
  apply LogInv_holds in H. assert (length (arrivals log) <= length (positions m)); [|lia].
  apply NoDup_incl_length; [apply (li_nodup _ _ _ _ _ H)|]. intros p Hp. apply in_positions; auto.
  apply in_arrivals in Hp. destruct Hp as (e & _ & Hp). apply (li_dnode _ _ _ _ _ H _ _ Hp).
Qed.

(** An arrival is at most one longer than the entered positions. *)
Lemma arrival_length pol log k open m : dfs_log vid next starts pol log k open ->
  (forall p, entered log p -> length p <= m) -> forall p, In p (arrivals log) -> length p <= S m.
Proof.
  intros H Hm p Hp. apply in_arrivals in Hp. destruct Hp as (e & He & Hp).
  pose proof (LogInv_holds _ _ _ _ _ _ _ H) as HI. destruct p as [|x [|y p]]; cbn; [lia|lia|].
  apply (li_parent _ _ _ _ _ HI) in Hp. apply Hm in Hp. cbn in Hp. lia.
Qed.

(** A position without repeated ids is not longer than the number of ids. *)
Lemma simple_length (ids0 : list I) (p : node) : NoDup (ids vid p) -> incl (ids vid p) ids0 -> length p <= length ids0.
Proof. intros ND Hi. apply NoDup_incl_length in Hi; auto. unfold ids in Hi. rewrite map_length in Hi. exact Hi. Qed.
End Nodes.

Section DFSTerm.
Context {V I L : Type}.
Variable V_dec : forall a b : V, {a = b} + {a <> b}.
Variable vid : V -> I.
Variable VS : VSet I.
Variable PM : PMap I V.
Variable LM : PMap I L.
Variable XM : DMap I Z 0%Z.
Variable next : V -> list (V * L).
Variable starts : list V.
Variable cfg : dfs_cfg.
Variable skip : nat -> bool.
Variable av : option (vs_t VS).
Hypothesis Hok : cfg_ok cfg (match av with Some _ => true | None => false end).
Notation pol := (dfs_policy VS cfg av).
Notation dfs_log := (dfs_log vid next starts pol).
Notation step := (dfs_step V_dec vid VS PM LM XM next cfg skip).
Notation run_it := (dfs_run V_dec vid VS PM LM XM next cfg skip starts av).

Lemma dfs_terminates lim B : (forall log k open, dfs_log log k open -> length log <= B) ->
  exists n os r, run_it lim n = (os, r) /\ forall s, r <> Running s.
Proof.
  intros HB.
  set (Inv := fun (m : nat) (s : @dfs_state V I L VS PM LM XM) => exists os log k open pend,
     Sim V_dec vid VS PM LM XM next starts cfg skip av os log k open pend s /\ m = 3 * (B - length log) + rank VS PM LM XM s).
  assert (Hgo : forall m s, Inv m s -> exists n os r, run step n s = (os, r) /\ forall s', r <> Running s').
  { induction m as [m IH] using lt_wf_ind. intros s (os & log & k & open & pend & Hs & Em).
    assert (Hx := sim_step V_dec vid VS PM LM XM next starts cfg skip av Hok _ _ _ _ _ _ Hs).
    destruct (step s) as [o s1|o s1|o x s1] eqn:E.
    - destruct Hx as (log' & k' & open' & pend' & Hs' & Hc).
      assert (Hl : length log <= B) by (destruct Hs as (Hl & _); eapply HB; eauto).
      assert (Hl' : length log' <= B) by (destruct Hs' as (Hl' & _); eapply HB; eauto).
      assert (Hr : forall t : @dfs_state V I L VS PM LM XM, rank VS PM LM XM t <= 2) by (intros t; unfold rank; destruct (f_pc t); auto; destruct (f_markers t); auto).
      destruct (IH (3 * (B - length log') + rank VS PM LM XM s1)) with (s := s1) as (n & os1 & r & HR & Hn).
      + pose proof (Hr s1). destruct Hc as [(e & ->)|(-> & Hc)]; [cbn [length] in *; lia|lia].
      + exists (os ++ o), log', k', open', pend'. auto.
      + exists (S n), (o ++ os1), r. cbn. rewrite E, HR. auto.
    - exists 1, o, (Ended s1). cbn. rewrite E. split; auto. discriminate.
    - exists 1, o, (Raised x s1). cbn. rewrite E. split; auto. discriminate. }
  unfold dfs_run. eapply Hgo. exists [], [], 0, [], None. split; [apply sim_init|reflexivity].
  Unshelve. exact Hok.
Qed.
End DFSTerm.
