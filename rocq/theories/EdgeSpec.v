(** Specification vocabulary for the edge gadgets. *)
From Coq Require Import List ZArith.
Import ListNotations.

Section EdgeSpec.
Context {K D : Type}.
Variable K_dec : forall a b : K, {a = b} + {a <> b}.

(** The edges of a list of edges (from, to, data) that start at vertex [v], in the order of the list; if [inverted], also the edges that end there, inverted. *)
Definition edges_at (inverted : bool) (edges : list (K * K * list D)) (v : K) : list (K * list D) :=
  flat_map (fun e => let '(from, to, data) := e in
    (if K_dec v from then [(to, data)] else []) ++ (if inverted then if K_dec v to then [(from, data)] else [] else [])) edges.

(** What is listed for vertex [v] in an index, or nothing. *)
Definition listed_at {X} (index : list (K * list X)) (v : K) : list X :=
  match find (fun p => if K_dec v (fst p) then true else false) index with Some p => snd p | None => [] end.

(** The graph of a list of edges. *)
Definition edge_of (inverted : bool) (edges : list (K * K * list D)) (a b : K) : Prop :=
  exists data, In (a, b, data) edges \/ (inverted = true /\ In (b, a, data) edges).
End EdgeSpec.

(** The edges of an index. *)
Definition index_edges {K D} (index : list (K * list (K * list D))) : list (K * K * list D) :=
  flat_map (fun p => map (fun e => (fst p, fst e, snd e)) (snd p)) index.

(** A sequence as the mapping of its indices to its elements. *)
Definition seq_index {X} (s : list X) : list (Z * X) := combine (map Z.of_nat (seq 0 (length s))) s.

(** An index of vertices as index of edges without data. *)
Definition without_data {K} (index : list (K * list K)) : list (K * list (K * list unit)) := map (fun p => (fst p, map (fun u => (u, [])) (snd p))) index.
