(** Lemmas about the shared code of [Common.v]. *)
From Coq Require Import List ZArith Bool Lia.
From Verif Require Import GearSpec Common.
Import ListNotations.

Lemma define_visited_mem {I} (VS : VSet I) av ids i :
  vs_mem VS i (define_visited VS av ids false) = true <->
  (match av with Some s => vs_mem VS i s = true | None => False end \/ In i ids).
Proof.
  unfold define_visited. destruct av; rewrite vs_mem_of_list.
  - tauto.
  - rewrite vs_mem_empty. intuition discriminate.
Qed.

Lemma create_predecessors_start {V I} (I_dec : forall a b : I, {a = b} + {a <> b})
    (vid : V -> I) (PM : PMap I V) starts s :
  (forall a b, In a starts -> In b starts -> vid a = vid b -> a = b) ->
  In s starts ->
  pm_get PM (vid s) (create_predecessors vid PM true starts) = Some s.
Proof.
  intros Hinj Hs. unfold create_predecessors.
  destruct (pm_get_of_list_in I_dec PM (map (fun v => (vid v, v)) starts) (pm_empty PM) (vid s))
    as (a & Hin & Hg).
  - exists s. apply in_map_iff. eauto.
  - apply in_map_iff in Hin. destruct Hin as (x & Heq & Hx). injection Heq as H1 H2; subst a.
    rewrite Hg. f_equal. apply Hinj; auto.
Qed.

Lemma create_predecessors_other {V I} (vid : V -> I) (PM : PMap I V) bp starts i :
  ~ In i (map vid starts) ->
  pm_get PM i (create_predecessors vid PM bp starts) = None.
Proof.
  intros H. unfold create_predecessors. rewrite pm_get_of_list_notin.
  - apply pm_get_empty.
  - destruct bp; simpl; auto. now rewrite map_map.
Qed.

(** The limit counter: with limit [n >= 0] and [k] successful checks so far. *)
Definition limit_state (lim : option Z) (k : nat) (c : option Z) : Prop :=
  match lim with
  | None => c = None
  | Some n => c = Some (n + 1 - Z.of_nat k)%Z /\ ((0 <= n)%Z -> (Z.of_nat k <= n)%Z)
  end.

Lemma limit_state_init lim : limit_state lim 0 (limit_init lim).
Proof. destruct lim; simpl; auto. split; auto. f_equal. lia. Qed.

Lemma limit_check_some n k c c' :
  (0 <= n)%Z -> limit_state (Some n) k c -> limit_check c = Some c' ->
  limit_state (Some n) (S k) c'.
Proof.
  intros Hn [-> Hk] H. unfold limit_check in H. specialize (Hk Hn).
  destruct (Z.eqb_spec (n + 1 - Z.of_nat k) 0); [lia|].
  destruct (Z.eqb_spec (n + 1 - Z.of_nat k - 1) 0); [discriminate|].
  inversion H; subst. simpl. split; [f_equal|]; lia.
Qed.

Lemma limit_check_none n k c :
  (0 <= n)%Z -> limit_state (Some n) k c -> limit_check c = None -> Z.of_nat k = n.
Proof.
  intros Hn [-> Hk] H. unfold limit_check in H. specialize (Hk Hn).
  destruct (Z.eqb_spec (n + 1 - Z.of_nat k) 0); [lia|].
  destruct (Z.eqb_spec (n + 1 - Z.of_nat k - 1) 0); [lia|discriminate].
Qed.
