(** The documented programs for articulation points and biconnected components: C107, C108. *)
From Coq Require Import List ZArith Bool Arith.
From Verif Require Import Machine GearSpec Common Spec DFSModel SCCSpec ArtSpec ArtModel ArtProofs ArtExamples Examples DFSExamples.
Import ListNotations.
Open Scope nat_scope.

(** C107. The program hopcroft_tarjan_articulation_points of the documentation, for an undirected graph with neighbor function [next] (labels are ignored) and a vertex [start]. It never fails with an error of
    its own dictionaries. [vs] are the vertices that it has reported after [n] passes of the traversal. Each of them is an articulation point that is connected with [start]. When the program has ended, all
    articulation points that are connected with [start] have been reported. The only error is the one for a calculation limit (if there is one), and the program ends if only finitely many vertices are connected with [start]. *)
Theorem C107_articulation_points :
  forall {V L : Type} (V_dec : forall a b : V, {a = b} + {a <> b}) (VS : VSet V) (PM : PMap V V) (LM : PMap V L) (XM : DMap V Z 0%Z) (next : V -> list (V * L)) (start : V),
  let E := edge_of next in undirected E ->
  (forall lim n out r, art_run V_dec VS PM LM XM next start lim n = (out, r) ->
     exists vs, out = Some vs /\ (forall v, In v vs -> articulation_point E v /\ leads E start v) /\
     match r with
     | Running _ => True
     | Ended _ => forall v, articulation_point E v -> leads E start v -> In v vs
     | Raised x _ => x = RuntimeErrorLimit /\ lim <> None
     end) /\
  (forall l, (forall v, leads E start v -> In v l) -> forall lim, exists n out r, art_run V_dec VS PM LM XM next start lim n = (out, r) /\ forall s, r <> Running s).
Proof. exact (fun V L V_dec VS PM LM XM next start Hsym => conj (art_correct V_dec VS PM LM XM next start Hsym) (art_terminates V_dec VS PM LM XM next start)). Qed.
Print Assumptions C107_articulation_points.

(** The graph of the documentation (MY 0, GYB 1, GS 2, S 3, TM 4, B 5, G0 6, G1 7, RT 8, G2 9, G3 10, R0 11, R1 12, R2 13), and the result that the documentation shows. *)
Example C107_documented_result : undirected (edge_of (und_next doc_edges)) /\
  exists s, art_run Nat.eq_dec hVS hPM hPM hXM (und_next doc_edges) 0 None 200 = (Some [8; 4; 2; 1; 1; 0], Ended s).
Proof. split; [apply und_undirected|]. eexists. vm_compute. reflexivity. Qed.

(** C108 fails: the program hopcroft_tarjan_biconnected_components, with the documented loop.
    With the documented graph, the program delivers the result that the documentation shows, but [GYB; TM; MY] is no biconnected component (GYB and TM are connected by MY only), and the component
    [MY; GYB] is missing. *)
Theorem C108_biconnected_components_documented_refuted :
  exists cs s, bic_run Nat.eq_dec hVS hPM hPM hXM (und_next doc_edges) 0 None 200 = (Some cs, Ended s) /\
    In [1; 4; 0] cs /\ ~ biconnected (edge_of (und_next doc_edges)) [1; 4; 0] /\
    biconnected_component (edge_of (und_next doc_edges)) [0; 1] /\ forall C, In C cs -> ~ (incl C [0; 1] /\ incl [0; 1] C).
Proof. exact documented_components. Qed.
Print Assumptions C108_biconnected_components_documented_refuted.

(** The result can be wrong at other vertices than the first one, too: a triangle 0, 1, 2 and a neighbor 3 of 1. *)
Theorem C108_biconnected_components_inner_refuted :
  exists cs s, bic_run Nat.eq_dec hVS hPM hPM hXM (und_next [(0, 2); (0, 1); (1, 3); (1, 2)]) 0 None 200 = (Some cs, Ended s) /\
    In [3; 2; 1] cs /\ ~ biconnected (edge_of (und_next [(0, 2); (0, 1); (1, 3); (1, 2)])) [3; 2; 1].
Proof. exact inner_components. Qed.
Print Assumptions C108_biconnected_components_inner_refuted.

(** And a graph without articulation points has no reported component, although all vertices form one. *)
Theorem C108_biconnected_components_missing_refuted :
  exists s, bic_run Nat.eq_dec hVS hPM hPM hXM (und_next [(0, 1)]) 0 None 200 = (Some [], Ended s) /\ biconnected_component (edge_of (und_next [(0, 1)])) [0; 1].
Proof. exact missing_components. Qed.
Print Assumptions C108_biconnected_components_missing_refuted.
