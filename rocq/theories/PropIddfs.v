(** The documented program for iterative deepening: C112. *)
From Coq Require Import List ZArith Bool Arith.
From Verif Require Import Machine GearSpec Common Spec DFSModel SCCSpec IddfsSpec IddfsModel IddfsProofs IddfsExamples LongestExamples Examples.
Import ListNotations.
Open Scope nat_scope.

(** C112 fails in one case: in mode ALL_WALKS, for a vertex with a loop, the program never ends if the goal cannot be reached. (Only vertex 0 can be reached, and this is known after the first search.) *)
Theorem C112_iterative_deepening_walks_refuted : exists next : nat -> list (nat * nat),
  (forall w v, walk (edge_of next) 0 w v -> v = 0) /\ forall rounds n, id_run next ALL_WALKS [0] [1] rounds n = Unfinished.
Proof. exact (ex_intro _ self_next (conj self_walks self_never)). Qed.
Print Assumptions C112_iterative_deepening_walks_refuted.

(** C112, what holds, for the modes ALL_PATHS and ALL_WALKS, with at most [rounds] depth limits and [n] passes of the traversal per search. There are no errors. A returned trace is a walk from a start vertex to
    a goal vertex, and there is no such walk with fewer vertices. The program reports that there is no way only if there is none. If there is one, the program finds one (also in infinite graphs). If only finitely many vertices can
    be reached, the program ends in mode ALL_PATHS, and in mode ALL_WALKS if there are no cycles. Missing: the end of the program in mode ALL_WALKS for graphs with cycles in which no goal can be reached. *)
Theorem C112_iterative_deepening_partial :
  forall {V L : Type} (V_dec : forall a b : V, {a = b} + {a <> b}) (VS : VSet V) (PM : PMap V V) (LM : PMap V L) (XM : DMap V Z 0%Z) (next : V -> list (V * L)) (mode : dfs_mode) (starts goals : list V),
  mode <> DFS_TREE -> let E := edge_of next in let result rounds n := iddfs V_dec VS PM LM XM next mode starts goals rounds n 0 in
  (forall rounds n, match result rounds n with
     | Found t => way E starts goals t /\ forall t', way E starts goals t' -> length t <= length t'
     | NotFound => forall t, ~ way E starts goals t
     | Unfinished => True
     | GoOn | Failed _ => False
     end) /\
  (forall t, way E starts goals t -> exists rounds n t', result rounds n = Found t') /\
  (forall l, (forall s w v, In s starts -> walk E s w v -> In v l) -> (mode = ALL_WALKS -> no_cycles E) -> exists rounds n, result rounds n <> Unfinished).
Proof.
  exact (fun V L V_dec VS PM LM XM next mode starts goals Hm => conj (iddfs_sound V_dec VS PM LM XM next mode starts goals Hm)
    (conj (iddfs_finds V_dec VS PM LM XM next mode starts goals Hm) (iddfs_ends V_dec VS PM LM XM next mode starts goals Hm))).
Qed.
Print Assumptions C112_iterative_deepening_partial.

(** A grid with 3 rows and 3 columns: two goals, and a goal that cannot be reached *)
Example C112_example : id_run grid_next ALL_PATHS [0] [8; 5] 10 1000 = Found [0; 3; 4; 5] /\ id_run grid_next ALL_WALKS [0] [8] 10 1000 = Found [0; 3; 6; 7; 8] /\
  id_run grid_next ALL_PATHS [0; 1] [9] 20 3000 = NotFound /\ id_run grid_next ALL_WALKS [6; 2] [2; 8] 20 3000 = Found [2].
Proof. vm_compute. repeat split. Qed.
