(** Properties of bidirectional breadth first search: C31, C69. *)
From Coq Require Import List ZArith Bool Arith.
From Verif Require Import Machine Spec TraversalSpec GearSpec Common PathsModel PathModel PathSpec BiSpec BFSModel BiBFSModel BiBFSProofs BiBFSMore Examples BiExamples.
Import ListNotations.

(** C31. The two neighbor functions present a graph and its reverse.  Whatever the search has done after [n] passes: it returns at most one result; a returned length is
    the number of edges of a shortest path from a start vertex to a goal vertex, or -1, if silent failing is demanded and there is no such path; KeyError is raised only if
    there is no such path, RuntimeError only if a limit is given.  The search ends if there is a path, or if only finitely many vertices can be reached from the start
    vertices, or if the goal vertices can be reached from finitely many vertices only. *)
Theorem C31_bidirectional_bfs_exact :
  forall {V I L : Type} (V_dec : forall a b : V, {a = b} + {a <> b}) (I_dec : forall a b : I, {a = b} + {a <> b}) (vid : V -> I)
    (VS : VSet I) (PM : PMap I V) (LM : PMap I L) (next_f next_b : V -> list (V * L)) (labeled build_path fail_silently : bool)
    (E : I -> I -> Prop) (starts goals : list V) (lim : option Z),
  presents vid next_f E -> presents vid next_b (fun i j => E j i) ->
  let search := bb_run V_dec I_dec vid VS PM LM next_f next_b labeled build_path fail_silently starts goals lim in
  (forall n os r, search n = (os, r) ->
     match r with
     | Running _ => os = []
     | Ended _ => exists x, os = [x] /\
         ((exists k, br_length x = Z.of_nat k /\ shortest_connection vid E starts goals k) \/
          (fail_silently = true /\ br_length x = (-1)%Z /\ forall k, ~ connection vid E starts goals k))
     | Raised e _ => os = [] /\
         ((e = RuntimeErrorLimit /\ lim <> None) \/
          (e = KeyErrorNotFound /\ fail_silently = false /\ forall k, ~ connection vid E starts goals k))
     end) /\
  ((exists k, connection vid E starts goals k) \/
   (exists l, forall i, reachable E (is_start vid starts) i -> In i l) \/
   (exists l, forall i, reachable (fun a b => E b a) (is_start vid goals) i -> In i l) ->
   exists n os r, search n = (os, r) /\ forall s, r <> Running s).
Proof.
  intros V I L V_dec I_dec vid VS PM LM next_f next_b labeled build_path fail_silently E starts goals lim Hf Hb.
  exact (conj (bb_run_exact V_dec I_dec vid VS PM LM next_f next_b labeled build_path fail_silently E Hf Hb starts goals lim)
              (bb_run_ends V_dec I_dec vid VS PM LM next_f next_b labeled build_path fail_silently E Hf Hb starts goals lim)).
Qed.
Print Assumptions C31_bidirectional_bfs_exact.

(** C31, the path.  If building a path is demanded and different vertices have different ids: when a length [k] is returned, all methods of the returned path object agree
    on a path with [k] edges; it leads from a start vertex to a goal vertex along edges of the graph, and its labels are labels of these edges. *)
Theorem C31_bidirectional_bfs_path :
  forall {V I L : Type} (V_dec : forall a b : V, {a = b} + {a <> b}) (I_dec : forall a b : I, {a = b} + {a <> b}) (vid : V -> I)
    (VS : VSet I) (PM : PMap I V) (LM : PMap I L) (next_f next_b : V -> list (V * L)) (labeled fail_silently : bool)
    (E : I -> I -> Prop) (starts goals : list V) (lim : option Z),
  presents vid next_f E -> presents vid next_b (fun i j => E j i) ->
  (forall u w, vid u = vid w -> u = w) ->
  forall n x r k, bb_run V_dec I_dec vid VS PM LM next_f next_b labeled true fail_silently starts goals lim n = ([x], r) ->
  br_length x = Z.of_nat k ->
  exists l es g,
    shows (br_path x) (S k) l es /\ po_labeled (br_path x) = labeled /\ length l = S k /\ In g goals /\
    path_list (fun u w => E (vid u) (vid w)) (fun u => In u starts) l g /\
    (labeled = true -> forall u w d, In (u, w, d) es -> In (w, d) (next_f u) \/ In (u, d) (next_b w)).
Proof.
  intros V I L V_dec I_dec vid VS PM LM next_f next_b labeled fail_silently E starts goals lim Hf Hb Hinj n x r k.
  exact (bb_run_path V_dec I_dec vid VS PM LM next_f next_b labeled true fail_silently E Hf Hb starts goals lim n x r k eq_refl Hinj).
Qed.
Print Assumptions C31_bidirectional_bfs_path.

Example C31_example :
  presents (fun v => v) g_next (graph_of g_next) /\ presents (fun v => v) g_back (fun i j => graph_of g_next j i) /\
  let p := bb_run Nat.eq_dec Nat.eq_dec (fun v => v) hVS hPM hPM g_next g_back true true false [5] [4] None 60 in
  map br_length (fst p) = [4%Z] /\ map (fun x => path_vertices_from_start (br_path x) 10) (fst p) = [POk [5; 0; 1; 3; 4]] /\
  map (fun x => path_labeled_edges_from_start (br_path x) 10) (fst p) = [POk [(5, 0, 50); (0, 1, 10); (1, 3, 13); (3, 4, 34)]] /\
  (exists s, snd (bb_run Nat.eq_dec Nat.eq_dec (fun v => v) hVS hPM hPM g_next g_back true true false [4] [0] None 60) = Raised KeyErrorNotFound s).
Proof.
  split; [apply presents_graph_of|]. split; [apply g_back_presents|]. split; [vm_compute; reflexivity|]. split; [vm_compute; reflexivity|].
  split; [vm_compute; reflexivity|]. eexists. vm_compute. reflexivity.
Qed.

(** C69. The path of C31 does not need to be a path of the returned length if different vertices can have the same id: here the vertices 1 and 11 are the same for the
    graph, length 1 is returned, but the path has three vertices, and there is no edge between the last two. *)
Theorem C69_bidirectional_path_same_ids_refuted :
  exists (vid : nat -> nat) (next_f next_b : nat -> list (nat * unit)) (E : nat -> nat -> Prop) starts goals,
  presents vid next_f E /\ presents vid next_b (fun i j => E j i) /\
  exists n x r, bb_run Nat.eq_dec Nat.eq_dec vid hVS hPM hPM next_f next_b false true false starts goals None n = ([x], r) /\
    br_length x = 1%Z /\ path_vertices_from_start (br_path x) 10 = POk [0; 11; 1] /\ ~ E (vid 11) (vid 1).
Proof. exact bidirectional_same_ids. Qed.
Print Assumptions C69_bidirectional_path_same_ids_refuted.
