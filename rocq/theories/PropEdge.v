(** Properties of the edge gadgets: C45, C71. *)
From Coq Require Import List ZArith Bool Arith Lia.
From Verif Require Import TraversalSpec EdgeModel EdgeSpec EdgeProofs.
Import ListNotations.

(** C45, adapt_edge_iterable.  Whatever calls of the returned neighbor function have been made before, the answer for a vertex are the given edges that start there, and
    with add_inverted also the given edges that end there, inverted, in the given order; without attributes the answer are the end vertices of these edges.  Vertices
    without edges have no neighbors. *)
Theorem C45_adapt_edge_iterable :
  forall {K D : Type} (K_dec : forall a b : K, {a = b} + {a <> b}) (add_inverted : bool) (edges : list (K * K * list D)) (calls : list K),
  iterable_attributes K_dec add_inverted edges calls = map (edges_at K_dec add_inverted edges) calls /\
  iterable_plain K_dec add_inverted edges calls = map (fun v => map fst (edges_at K_dec add_inverted edges v)) calls.
Proof. intros K D K_dec inv edges calls. exact (conj (iterable_attributes_exact K_dec inv edges calls) (iterable_plain_exact K_dec inv edges calls)). Qed.
Print Assumptions C45_adapt_edge_iterable.

Example C45_iterable_example :
  iterable_attributes Nat.eq_dec true [(1, 2, [10]); (2, 3, [20]); (1, 3, [30]); (3, 3, [40])] [3; 7; 1; 7; 2] =
    [[(2, [20]); (1, [30]); (3, [40]); (3, [40])]; []; [(2, [10]); (3, [30])]; []; [(1, [10]); (3, [20])]] /\
  iterable_plain Nat.eq_dec false [(1, 2, [10]); (2, 3, [20]); (1, 3, [30]); (3, 3, [40])] [3; 7; 1; 7; 2] = [[3]; []; [2; 3]; []; [3]].
Proof. split; reflexivity. Qed.

(** C45, the answers of C45_adapt_edge_iterable, as neighbor function of a traversal, present the graph of the given edges. *)
Theorem C45_edge_iterable_graph :
  forall {K D : Type} (K_dec : forall a b : K, {a = b} + {a <> b}) (add_inverted : bool) (edges : list (K * K * list D)),
  presents (fun v => v) (edges_at K_dec add_inverted edges) (edge_of add_inverted edges).
Proof. intros K D. exact edges_at_presents. Qed.
Print Assumptions C45_edge_iterable_graph.

Example C45_edge_iterable_graph_example :
  edge_of true [(1, 2, [10]); (2, 3, [20])] 3 2 /\ ~ edge_of false [(1, 2, [10]); (2, 3, [20])] 3 2.
Proof. split; [exists [20]; right; split; [reflexivity|right; left; reflexivity]|]. intros (d & [[H|[H|[]]]|[H _]]); discriminate. Qed.

(** C45, adapt_edge_index for a mapping (a dict or, [default], a defaultdict of lists).  The answer for a vertex is what the index lists for it; with add_inverted, it
    are the edges of the index at this vertex, and the inverted ones. *)
Theorem C45_adapt_edge_index_mapping :
  forall {K D : Type} (K_dec : forall a b : K, {a = b} + {a <> b}) (default add_inverted : bool) (calls : list K),
  (forall index : list (K * list (K * list D)),
     index_mapping_attributes K_dec default add_inverted index calls =
     map (fun v => if add_inverted then edges_at K_dec true (index_edges index) v else listed_at K_dec index v) calls) /\
  (forall index : list (K * list K),
     index_mapping_plain (D := unit) K_dec default add_inverted index calls =
     map (fun v => if add_inverted then map fst (edges_at K_dec true (index_edges (without_data index)) v) else listed_at K_dec index v) calls).
Proof.
  intros K D K_dec default inv calls.
  exact (conj (fun index => mapping_attributes_exact K_dec default inv index calls) (fun index => mapping_plain_exact K_dec default inv index calls)).
Qed.
Print Assumptions C45_adapt_edge_index_mapping.

Example C45_mapping_example :
  index_mapping_attributes Nat.eq_dec false true [(1, [(2, [10]); (3, [30])]); (2, [(3, [20])])] [3; 7; 2] = [[(1, [30]); (2, [20])]; []; [(1, [10]); (3, [20])]] /\
  index_mapping_plain (D := unit) Nat.eq_dec true false [(1, [2; 3]); (2, [3])] [3; 1; 3; 2] = [[]; [2; 3]; []; [3]].
Proof. split; reflexivity. Qed.

(** C45, adapt_edge_index for a sequence: the same, where the vertices are the indices of the sequence.  Without add_inverted, only calls with non-negative numbers are
    regarded (see C71). *)
Theorem C45_adapt_edge_index_sequence :
  forall {D : Type} (add_inverted : bool) (calls : list Z), add_inverted = true \/ (forall v, In v calls -> (0 <= v)%Z) ->
  (forall index : list (list (Z * list D)),
     index_sequence_attributes add_inverted index calls =
     map (fun v => if add_inverted then edges_at Z.eq_dec true (index_edges (seq_index index)) v else listed_at Z.eq_dec (seq_index index) v) calls) /\
  (forall index : list (list Z),
     index_sequence_plain add_inverted index calls =
     map (fun v => if add_inverted then map fst (edges_at Z.eq_dec true (index_edges (without_data (seq_index index))) v) else listed_at Z.eq_dec (seq_index index) v) calls).
Proof.
  intros D inv calls H.
  exact (conj (fun index => sequence_attributes_exact inv index calls H) (fun index => sequence_plain_exact inv index calls H)).
Qed.
Print Assumptions C45_adapt_edge_index_sequence.

Example C45_sequence_example :
  index_sequence_plain true [[1; 2]; [2]; []]%Z [0; 2; 5; -1]%Z = [[1; 2]; [0; 1]; []; []]%Z /\
  index_sequence_plain false [[1; 2]; [2]; []]%Z [0; 2; 5; 1]%Z = [[1; 2]; []; []; [2]]%Z /\
  (forall v, In v [0; 2; 5; 1]%Z -> (0 <= v)%Z).
Proof. split; [reflexivity|]. split; [reflexivity|]. simpl. lia. Qed.

(** C71, negated.  For a sequence, without add_inverted, the neighbor function gives the edges of another vertex to a vertex that is not an index of the sequence: the
    answer for the (negative) vertex -1 are the edges of the last vertex.  (With add_inverted, it is no edges.) *)
Theorem C71_edge_index_negative_vertex_refuted :
  exists (index : list (list Z)) (v : Z), listed_at Z.eq_dec (seq_index index) v = [] /\
    index_sequence_plain false index [v] = [[0%Z]] /\ index_sequence_plain true index [v] <> [[0%Z]].
Proof. exists [[]; [0%Z]], (-1)%Z. split; [reflexivity|]. split; [reflexivity|]. vm_compute. discriminate. Qed.
Print Assumptions C71_edge_index_negative_vertex_refuted.
