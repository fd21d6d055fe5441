(** The documented program for strongly connected components: C106. *)
From Coq Require Import List ZArith Bool Arith.
From Verif Require Import Machine GearSpec Common Spec DFSModel SCCSpec SCCModel SCCProofs Examples DFSExamples.
Import ListNotations.
Open Scope nat_scope.

(** C106. The program tarjan_strongly_connected_components of the documentation, with a neighbor function [next] (labels are ignored) and start vertices [starts]. [out] are the lists it has delivered
    after [n] passes of the traversal. Each of them is a complete strongly connected component of the graph, without repetitions, and consists of vertices that can be reached from the start
    vertices. No vertex is delivered twice. Edges from a component lead to the same component or to one that has been delivered before. When the program has ended, each vertex that can be reached has been delivered. The only error
    is the one for a calculation limit (if there is one), and the program ends if only finitely many vertices can be reached. *)
Theorem C106_strongly_connected_components :
  forall {V L : Type} (V_dec : forall a b : V, {a = b} + {a <> b}) (VS : VSet V) (PM : PMap V V) (LM : PMap V L) (XM : DMap V Z 0%Z) (next : V -> list (V * L)) (starts : list V),
  let E := edge_of next in
  (forall lim n out r, scc_run V_dec VS PM LM XM next starts lim n = (out, r) ->
     (forall C, In C out -> strongly_connected_component E C /\ forall v, In v C -> exists s, In s starts /\ leads E s v) /\
     NoDup (concat out) /\
     (forall a C b, out = a ++ C :: b -> forall u v, In u C -> E u v -> In v C \/ In v (concat a)) /\
     match r with
     | Running _ => True
     | Ended _ => forall s v, In s starts -> leads E s v -> In v (concat out)
     | Raised x _ => x = RuntimeErrorLimit /\ lim <> None
     end) /\
  (forall l, (forall s v, In s starts -> leads E s v -> In v l) -> forall lim, exists n out r, scc_run V_dec VS PM LM XM next starts lim n = (out, r) /\ forall s, r <> Running s).
Proof. exact (fun V L V_dec VS PM LM XM next starts => conj (scc_correct V_dec VS PM LM XM next starts) (scc_terminates V_dec VS PM LM XM next starts)). Qed.
Print Assumptions C106_strongly_connected_components.

(** The graph of the documentation, and the result that the documentation shows. *)
Definition doc_next (v : nat) : list (nat * unit) :=
  map (fun w => (w, tt)) match v with 0 => [1; 2] | 1 => [0; 3] | 2 => [0; 3] | 3 => [5] | 4 => [2; 5; 7] | 5 => [3; 8] | 6 => [4] | 7 => [5; 6] | 9 => [8] | _ => [] end.
Example C106_documented_result : exists s, scc_run Nat.eq_dec hVS hPM hPM hXM doc_next (seq 0 10) None 60 = ([[8]; [5; 3]; [1; 2; 0]; [6; 7; 4]; [9]], Ended s).
Proof. eexists. vm_compute. reflexivity. Qed.
