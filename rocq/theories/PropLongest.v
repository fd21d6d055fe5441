(** The documented program for longest paths: C111. *)
From Coq Require Import List ZArith Bool Arith.
From Verif Require Import Machine GearSpec Common DFSModel LongestSpec LongestModel LongestProofs LongestExamples Examples.
Import ListNotations.
Open Scope nat_scope.

(** C111 fails: with edges 0 - 1 (weight 10), 0 - 2 (20), 1 - 2 (5), the longest simple path from 0 to 2 is the edge from 0 to 2, with length 20. The program returns the path 0, 1, 2 and length 25. The
    path has length 15: the traversal shows the label 20 for the edge from 0 to 1 (C16). *)
Theorem C111_longest_path_refuted : exists next : nat -> list (nat * Z),
  (forall u v l, In (v, l) (next u) -> (0 <= l)%Z) /\ (exists s, lp_run next 0 2 100 = (Some (25%Z, [0; 1; 2]), Ended s)) /\
  ~ simple_path next 0 2 [0; 1; 2] 25 /\ longest_answer next 0 2 (20%Z, [0; 2]).
Proof. exact (ex_intro _ lp_next lp_wrong). Qed.
Print Assumptions C111_longest_path_refuted.

(** With negative weights, it fails for a second reason: paths with a length below 0 are not found. *)
Theorem C111_longest_path_negative_refuted : exists next : nat -> list (nat * Z),
  (exists s, lp_run next 0 1 100 = (Some ((-1)%Z, []), Ended s)) /\ simple_path next 0 1 [0; 1] (-2).
Proof. exact (ex_intro _ neg_next lp_negative). Qed.
Print Assumptions C111_longest_path_negative_refuted.

(** C111, what holds. If all edges have the same weight (as in problem 2 of the documentation), or the first edge of the start vertex is a loop, and no weight is negative, then the program never fails, it never has a
    wrong path or length, and when it has ended, its result is a longest simple path from the start vertex to the goal vertex and its length, or (-1, ()) if there is no such path. For a finite graph, the program ends.
    Missing: other weights, for which the program can be wrong. *)
Theorem C111_longest_path_partial :
  forall {V : Type} (V_dec : forall a b : V, {a = b} + {a <> b}) (VS : VSet V) (PM : PMap V V) (LM : PMap V Z) (XM : DMap V Z 0%Z) (next : V -> list (V * Z)) (start goal : V),
  ((exists c, (0 <= c)%Z /\ forall u v l, In (v, l) (next u) -> l = c) \/
   ((forall u v l, In (v, l) (next u) -> (0 <= l)%Z) /\ exists l rest, next start = (start, l) :: rest) ->
   forall n out r, lwp_run V_dec VS PM LM XM next start goal n = (out, r) ->
     exists answer, out = Some answer /\ (answer = ((-1)%Z, []) \/ simple_path next start goal (snd answer) (fst answer)) /\
     match r with Running _ => True | Ended _ => longest_answer next start goal answer | Raised _ _ => False end) /\
  (forall l, (forall vs v w, trail next start vs v w -> In v l) -> exists n out r, lwp_run V_dec VS PM LM XM next start goal n = (out, r) /\ forall s, r <> Running s).
Proof.
  exact (fun V V_dec VS PM LM XM next start goal => conj
    (fun H => match H with
              | or_introl (ex_intro _ c (conj Hc Hw)) => lwp_equal_weights V_dec VS PM LM XM next start goal c Hc Hw
              | or_intror (conj Hp (ex_intro _ l (ex_intro _ rest Hf))) => lwp_first_loop V_dec VS PM LM XM next start goal l rest Hp Hf
              end)
    (lwp_terminates V_dec VS PM LM XM next start goal)).
Qed.
Print Assumptions C111_longest_path_partial.

(** A grid with 3 rows and 3 columns and weights 1, and the example above with a loop at vertex 0: now the result is right. *)
Example C111_grid : (forall u v l, In (v, l) (grid_next u) -> l = 1%Z) /\ exists s, lp_run grid_next 0 7 1000 = (Some (7%Z, [0; 3; 4; 1; 2; 5; 8; 7]), Ended s).
Proof. split; [exact grid_weights|]. eexists. vm_compute. reflexivity. Qed.
Example C111_loop : (forall u v l, In (v, l) (loop_next u) -> (0 <= l)%Z) /\ loop_next 0 = (0, 0%Z) :: lp_next 0 /\ exists s, lp_run loop_next 0 2 100 = (Some (20%Z, [0; 2]), Ended s).
Proof. split; [exact loop_weights|]. split; [reflexivity|]. eexists. vm_compute. reflexivity. Qed.
