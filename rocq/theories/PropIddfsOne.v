(** The documented program for iterative deepening in a single search: C116. *)
From Coq Require Import List ZArith Bool Arith.
From Verif Require Import Machine GearSpec Common Spec DFSModel SCCSpec IddfsSpec IddfsModel IddfsOneModel IddfsOneProofs IddfsExamples LongestExamples Examples DFSExamples.
Import ListNotations.
Open Scope nat_scope.

(** C116, the two documented programs give the same results, for the modes ALL_PATHS and ALL_WALKS: [iddfs_one] is the program with a single search in a growing graph, observed after [n] passes, [iddfs] the program with one search
    per depth limit, with at most [rounds] searches and [n] passes per search. If one of them returns a trace (or that there is no way), the other one returns the same, and if one of them runs forever, the other one does, too. *)
Theorem C116_same_results :
  forall {V L : Type} (V_dec : forall a b : V, {a = b} + {a <> b}) (VS : VSet V) (PM : PMap V V) (LM : PMap V L) (XM : DMap V Z 0%Z) (next : V -> list (V * L)) (mode : dfs_mode) (starts goals : list V),
  mode <> DFS_TREE -> goals <> [] -> forall res, res <> Unfinished ->
  (exists n, iddfs_one V_dec VS PM LM XM next mode starts goals n = res) <-> (exists rounds n, iddfs V_dec VS PM LM XM next mode starts goals rounds n 0 = res).
Proof. exact @one_same. Qed.
Print Assumptions C116_same_results.

(** C116, the result of the program with a single search: There are no errors. A returned trace is a walk from a start vertex to a goal vertex, and there is no such walk with fewer vertices. The program reports that there is
    no way only if there is none. If there is one, the program finds one (also in infinite graphs). If only finitely many vertices can be reached, the program ends in mode ALL_PATHS, and in mode ALL_WALKS if there are no cycles. *)
Theorem C116_shortest_way :
  forall {V L : Type} (V_dec : forall a b : V, {a = b} + {a <> b}) (VS : VSet V) (PM : PMap V V) (LM : PMap V L) (XM : DMap V Z 0%Z) (next : V -> list (V * L)) (mode : dfs_mode) (starts goals : list V),
  mode <> DFS_TREE -> let E := edge_of next in let result n := iddfs_one V_dec VS PM LM XM next mode starts goals n in
  (forall n, match result n with
     | Found t => way E starts goals t /\ forall t', way E starts goals t' -> length t <= length t'
     | NotFound => forall t, ~ way E starts goals t
     | Unfinished => True
     | GoOn | Failed _ => False
     end) /\
  (forall t, way E starts goals t -> exists n t', result n = Found t') /\
  (forall l, (forall s w v, In s starts -> walk E s w v -> In v l) -> (mode = ALL_WALKS -> no_cycles E) -> exists n, result n <> Unfinished).
Proof.
  exact (fun V L V_dec VS PM LM XM next mode starts goals Hm => conj (one_sound V_dec VS PM LM XM next mode starts goals Hm)
    (conj (one_finds V_dec VS PM LM XM next mode starts goals Hm) (one_ends V_dec VS PM LM XM next mode starts goals Hm))).
Qed.
Print Assumptions C116_shortest_way.

(** A grid with 3 rows and 3 columns: two goals, and a goal that cannot be reached; the results are those of the other program (C112_example). *)
Example C116_example : let one next mode starts goals n := iddfs_one Nat.eq_dec hVS hPM hPM hXM next mode starts goals n in
  one grid_next ALL_PATHS [0] [8; 5] 1000 = Found [0; 3; 4; 5] /\ one grid_next ALL_WALKS [0] [8] 1000 = Found [0; 3; 6; 7; 8] /\
  one grid_next ALL_PATHS [0; 1] [9] 5000 = NotFound /\ one grid_next ALL_WALKS [6; 2] [2; 8] 1000 = Found [2] /\ id_run grid_next ALL_PATHS [0] [8; 5] 10 1000 = Found [0; 3; 4; 5].
Proof. vm_compute. repeat split. Qed.
