(** Property "a bidirectional search reads only what is nearer than half of the way": C95. *)
From Coq Require Import List ZArith Bool Arith Lia.
From Verif Require Import Spec Machine GearSpec Common TraversalSpec BFSModel BiBFSModel BiSpec BiReadSpec BiBFSRead Examples BiExamples.
Import ListNotations.

(** C95. For all graphs, gears, start and goal vertices, options and limits, and at any time of the search (after [n] passes): the forward neighbor function has only been called for vertices that are [k] edges
    away from a start vertex, and each path from a start vertex to a goal vertex has more than [2 * k] edges. The backward neighbor function has only been called for vertices that are [k] edges before a goal vertex,
    and each path has more than [2 * k + 1] edges. *)
Theorem C95_bidirectional_bfs_reads_half :
  forall {V I L : Type} (V_dec : forall a b : V, {a = b} + {a <> b}) (I_dec : forall a b : I, {a = b} + {a <> b}) (vid : V -> I)
    (VS : VSet I) (PM : PMap I V) (LM : PMap I L) (next_f next_b : V -> list (V * L)) (labeled build_path fail_silently : bool)
    (E : I -> I -> Prop) (starts goals : list V) (lim : option Z),
  presents vid next_f E -> presents vid next_b (fun i j => E j i) ->
  forall n os r,
  bb_run V_dec I_dec vid VS PM LM next_f next_b labeled build_path fail_silently starts goals lim n = (os, r) ->
  (forall v, In v (read_forwards (outcome_state r)) ->
     exists k, steps_away vid E starts v k /\ forall l, connection vid E starts goals l -> 2 * k < l) /\
  (forall v, In v (read_backwards (outcome_state r)) ->
     exists k, steps_away vid (fun i j => E j i) goals v k /\ forall l, connection vid E starts goals l -> 2 * k + 1 < l).
Proof.
  exact (fun V I L V_dec I_dec vid VS PM LM next_f next_b labeled build_path fail_silently E starts goals lim Hf Hb n os r =>
    bb_reads V_dec I_dec vid VS PM LM next_f next_b labeled build_path fail_silently E Hf Hb starts goals lim n os r).
Qed.
Print Assumptions C95_bidirectional_bfs_reads_half.

(** An infinite graph: from v to 2v + 1 and 2v + 2 *)
Definition up_next (v : nat) : list (nat * unit) := match v with 0 => [] | S u => [(Nat.div2 u, tt)] end.
Lemma up_next_presents : presents id_nat up_next (fun i j => graph_of inf_next j i).
Proof.
  intros v j. unfold graph_of, up_next, inf_next. cbn [map fst In]. destruct v as [|u]; cbn [map fst In].
  - split; [tauto|]. intros [H|[H|[]]]; lia.
  - rewrite Nat.div2_div. pose proof (Nat.div_mod u 2 ltac:(lia)) as H. pose proof (Nat.mod_upper_bound u 2 ltac:(lia)) as H1.
    split; [intros [<-|[]]; destruct (u mod 2) as [|[|m]]; [left; lia|right; left; lia|lia]|].
    intros [H2|[H2|[]]]; left; lia.
Qed.
Example C95_nonvacuous :
  presents id_nat inf_next (graph_of inf_next) /\ presents id_nat up_next (fun i j => graph_of inf_next j i) /\
  let p := bb_run Nat.eq_dec Nat.eq_dec id_nat hVS hPM hPM inf_next up_next false true false [0] [21] None 100 in
  (map br_length (fst p), rev (read_forwards (outcome_state (snd p))), rev (read_backwards (outcome_state (snd p)))) = ([4%Z], [0; 1; 2], [21; 10]).
Proof.
  split; [apply presents_graph_of|]. split; [exact up_next_presents|]. vm_compute. reflexivity.
Qed.
