(** Example graphs for the program longest_weighted_path. *)
From Coq Require Import List Bool Arith ZArith Lia.
From Verif Require Import Machine GearSpec Common DFSModel LongestSpec LongestModel Examples DFSExamples.
Import ListNotations.
Open Scope nat_scope.

(** Edges 0 - 1 (10), 0 - 2 (20), 1 - 2 (5) *)
Definition lp_next (v : nat) : list (nat * Z) := match v with 0 => [(1, 10%Z); (2, 20%Z)] | 1 => [(2, 5%Z)] | _ => [] end.
Definition lp_run (next : nat -> list (nat * Z)) (s g n : nat) := lwp_run Nat.eq_dec hVS hPM hPM hXM next s g n.

Lemma lp_trails vs v w : trail lp_next 0 vs v w -> (v = 0 /\ vs = [0] /\ w = 0%Z) \/ (v = 1 /\ vs = [0; 1] /\ w = 10%Z) \/ (v = 2 /\ (vs = [0; 2] /\ w = 20%Z \/ vs = [0; 1; 2] /\ w = 15%Z)).
Proof.
  induction 1 as [|vs u w v l Ht IH Hin]; [auto|]. destruct IH as [(-> & -> & ->)|[(-> & -> & ->)|(-> & IH)]]; cbn in Hin.
  - destruct Hin as [E|[E|[]]]; injection E as <- <-; auto 10.
  - destruct Hin as [E|[]]; injection E as <- <-; auto 10.
  - destruct Hin.
Qed.
Lemma lp_wrong : (forall u v l, In (v, l) (lp_next u) -> (0 <= l)%Z) /\ (exists s, lp_run lp_next 0 2 100 = (Some (25%Z, [0; 1; 2]), Ended s)) /\
  ~ simple_path lp_next 0 2 [0; 1; 2] 25 /\ longest_answer lp_next 0 2 (20%Z, [0; 2]).
Proof.
  split; [|split; [eexists; vm_compute; reflexivity|split]].
  - intros [|[|[|u]]] v l; cbn; [intros [E|[E|[]]]|intros [E|[]]|intros []|intros []]; injection E as <- <-; lia.
  - intros (Ht & _). apply lp_trails in Ht. destruct Ht as [(E & _)|[(E & _)|(_ & [(E & _)|(_ & E)])]]; discriminate.
  - right. split; [split; [|split; [repeat constructor; cbn; intuition lia|discriminate]]|].
    + apply (tr_edge lp_next 0 [0] 0 0%Z 2 20%Z); [constructor|cbn; auto].
    + cbn. intros vs w (Ht & _). apply lp_trails in Ht. destruct Ht as [(E & _)|[(E & _)|(_ & [(_ & ->)|(_ & ->)])]]; [discriminate|discriminate|lia|lia].
Qed.

(** One edge 0 - 1 with weight -2 *)
Definition neg_next (v : nat) : list (nat * Z) := match v with 0 => [(1, (-2)%Z)] | _ => [] end.
Lemma lp_negative : (exists s, lp_run neg_next 0 1 100 = (Some ((-1)%Z, []), Ended s)) /\ simple_path neg_next 0 1 [0; 1] (-2).
Proof.
  split; [eexists; vm_compute; reflexivity|]. split; [|split; [repeat constructor; cbn; intuition lia|discriminate]]. apply (tr_edge neg_next 0 [0] 0 0%Z 1 (-2)%Z); [constructor|cbn; auto].
Qed.

(** A grid with 3 rows and 3 columns, vertex = 3 * row + column, all weights 1 *)
Definition grid_next (v : nat) : list (nat * Z) :=
  (if 0 <? v mod 3 then [(v - 1, 1%Z)] else []) ++ (if v mod 3 <? 2 then [(v + 1, 1%Z)] else []) ++ (if 2 <? v then [(v - 3, 1%Z)] else []) ++ (if v <? 6 then [(v + 3, 1%Z)] else []).
Lemma grid_weights u v l : In (v, l) (grid_next u) -> l = 1%Z.
Proof.
  unfold grid_next. rewrite !in_app_iff. intros H. destruct (0 <? u mod 3), (u mod 3 <? 2), (2 <? u), (u <? 6); cbn in H; repeat (destruct H as [H|H]); try (now destruct H); congruence.
Qed.
(** [lp_next] with a loop at vertex 0 as first edge *)
Definition loop_next (v : nat) : list (nat * Z) := match v with 0 => (0, 0%Z) :: lp_next 0 | _ => lp_next v end.
Lemma loop_weights u v l : In (v, l) (loop_next u) -> (0 <= l)%Z.
Proof.
  destruct u as [|[|u]]; cbn; [intros [E|[E|[E|[]]]]|intros [E|[]]|intros []]; injection E as <- <-; lia.
Qed.
