(** C102, C103: more about the trees and paths of TraversalMinimumSpanningTree. *)
From Coq Require Import List ZArith Arith Bool Lia Permutation.
From Verif Require Import Machine GearSpec Spec TraversalSpec Common Weight WeightSpec PathsModel PathsSpec PathsExact MSTModel MSTSpec MSTProofs MSTFinal MSTMoreSpec MSTMore
  FloatModel Examples AStarExamples MSTExamples.
Import ListNotations.

(** C102. In graphs with each edge in both directions: the edges reported so far are minimal not only for the sum of weights, but for every measure [value] that does not get
    smaller with the weight (e.g. only the edges above some weight are counted, or weights are squared): no set [F] of edges that connects all reachable vertices to the
    start vertices has a smaller total, if it has the same number of edges or if the measure is not negative. The totals are computed exactly, whatever the addition of
    weights does. *)
Theorem C102_mst_minimal_in_every_measure :
  forall {V I L : Type} (I_dec : forall a b : I, {a = b} + {a <> b}) (vid : V -> I) (WT : Weights) (VS : VSet I) (PM : PMap I V) (LM : PMap I L)
    (next : V -> list (V * w_t WT * L)) (cfg : mst_cfg) (E : I -> w_t WT -> I -> Prop) (starts : list V),
  presents_weighted WT vid next E ->
  forall lim n os r value, undirected WT E -> mst_run vid WT VS PM LM next cfg starts lim n = (os, r) -> monotone WT value ->
  let T := mst_edges vid WT PM LM os in
  forall F, attaches WT E (is_start vid starts) F -> length F = length T \/ (forall e, In e F -> (0 <= value (edge_weight WT e))%Z) ->
  (total_measure WT value T <= total_measure WT value F)%Z.
Proof. exact (@mst_measure). Qed.
Print Assumptions C102_mst_minimal_in_every_measure.

(** So, also with floats as weights, whose sums are rounded: no other such set of edges has a smaller exact total of weights. ([py_largest]: PyFloat has Python's floats.) *)
Theorem C102_float_mst_minimal :
  forall {V I L : Type} (I_dec : forall a b : I, {a = b} + {a <> b}) (vid : V -> I) (VS : VSet I) (PM : PMap I V) (LM : PMap I L)
    (next : V -> list (V * w_t PyFloat * L)) (cfg : mst_cfg) (E : I -> w_t PyFloat -> I -> Prop) (starts : list V),
  presents_weighted PyFloat vid next E ->
  forall lim n os r, undirected PyFloat E -> mst_run vid PyFloat VS PM LM next cfg starts lim n = (os, r) ->
  let T := mst_edges vid PyFloat PM LM os in
  forall F, attaches PyFloat E (is_start vid starts) F -> (total_measure PyFloat (@float_units 53 py_largest) T <= total_measure PyFloat (@float_units 53 py_largest) F)%Z.
Proof. exact (@mst_float_measure 53 py_largest py_prec py_largest_nonneg). Qed.
Print Assumptions C102_float_mst_minimal.

(** C103. In every graph, also in a directed one, and at any time: each reported vertex is the end of a walk from a start vertex along reported edges, and the heaviest
    edge of such a walk is at most as heavy as the heaviest edge of any walk of the graph from any start vertex to the vertex. With build_paths, the delivered path is such a
    walk. *)
Theorem C103_mst_heaviest_edge_minimal :
  forall {V I L : Type} (V_dec : forall a b : V, {a = b} + {a <> b}) (I_dec : forall a b : I, {a = b} + {a <> b})
    (vid : V -> I) (WT : Weights) (VS : VSet I) (PM : PMap I V) (LM : PMap I L)
    (next : V -> list (V * w_t WT * L)) (cfg : mst_cfg) (E : I -> w_t WT -> I -> Prop) (starts : list V),
  presents_weighted WT vid next E ->
  forall lim n os r, mst_run vid WT VS PM LM next cfg starts lim n = (os, r) ->
  let St := is_start vid starts in
  let T := mst_edges vid WT PM LM os in
  (forall rep, In rep os -> exists s p, St s /\ wwalk WT (only WT T) s p (vid (mr_vertex rep))) /\
  (forall s p i, St s -> wwalk WT (only WT T) s p i -> forall s' q, St s' -> wwalk WT E s' q i -> not_heavier WT p q) /\
  (mc_build_paths cfg = true -> starts_distinct vid starts -> forall rep, In rep os ->
     exists s0 p, In s0 starts /\ chain next s0 p (mr_vertex rep) /\
       delivers_exactly V_dec vid PM LM (mr_pred rep) (mr_labels rep) (mc_labeled cfg) (mr_vertex rep) (chain_vertices s0 p) (chain_edges s0 p) /\
       wwalk WT (only WT T) (vid s0) (map (fun e => (snd (fst e), vid (fst (fst e)))) p) (vid (mr_vertex rep))).
Proof.
  exact (fun V I L V_dec I_dec vid WT VS PM LM next cfg E starts HE lim n os r HR =>
    conj (mst_walk I_dec vid WT VS PM LM next cfg E starts HE lim n os r HR)
    (conj (mst_not_heavier I_dec vid WT VS PM LM next cfg E starts HE lim n os r HR)
          (mst_path V_dec I_dec vid WT VS PM LM next cfg E starts HE lim n os r HR))).
Qed.
Print Assumptions C103_mst_heaviest_edge_minimal.

(** A measure, a graph, its edges reported by the traversal, and a set of edges that connects all vertices but is worse. *)
Definition heavy (w : w_t ZI) : Z := match w with Some z => if (z <=? 1)%Z then 0%Z else 1%Z | None => 1%Z end.
Lemma mst_next_closed s p k : wwalk ZI (@wgraph_of nat ZI mst_next) s p k -> In s [0; 1; 2; 3] -> In k [0; 1; 2; 3].
Proof. intros Hw. induction Hw as [i|i w j p k He Hw IH]; [auto|]. intros _. apply IH. unfold wgraph_of in He. graph_cases 4 He; cbn; tauto. Qed.
Example C102_nonvacuous :
  let T := mst_edges id_nat ZI hPM hPM (fst (mst_run id_nat ZI hVS hPM hPM mst_next mst_default [0] None 100)) in
  let F := [(0, Some 4%Z, 2); (0, Some 1%Z, 1); (0, Some 5%Z, 3)] in
  monotone ZI heavy /\ undirected ZI (@wgraph_of nat ZI mst_next) /\ attaches ZI (@wgraph_of nat ZI mst_next) (is_start id_nat [0]) F /\
  T = [(0, Some 1%Z, 1); (1, Some 1%Z, 2); (2, Some 2%Z, 3)] /\ total_measure ZI heavy T = 1%Z /\ total_measure ZI heavy F = 2%Z.
Proof.
  cbv zeta. split; [|split; [exact mst_next_undirected|split; [|vm_compute; auto]]].
  - intros [a|] [b|] H; cbn in *; try discriminate; try lia; [|destruct (a <=? 1)%Z; lia]. apply Z.leb_le in H. destruct (Z.leb_spec a 1), (Z.leb_spec b 1); lia.
  - assert (HL : forall k, In k [0; 1; 2; 3] -> linked ZI [(0, Some 4%Z, 2); (0, Some 1%Z, 1); (0, Some 5%Z, 3)] k 0).
    { intros k Hk. cbn in Hk. decompose [or] Hk; subst; try contradiction; try constructor;
        (econstructor; [|constructor]); [exists (Some 1%Z)|exists (Some 4%Z)|exists (Some 5%Z)]; cbn; tauto. }
    split; [intros i w j H; cbn in H; decompose [or] H; try contradiction; injection H0 as <- <- <- || injection H1 as <- <- <-; unfold wgraph_of; cbn; tauto|].
    intros i (s & p & Hs & Hw). exists 0. split; [left; reflexivity|]. apply HL. destruct Hs as [<-|[]]. change (id_nat 0) with 0 in Hw.
    apply (mst_next_closed _ _ _ Hw). now left.
Qed.
(** The lightest way to vertex 3 goes along three edges; the direct edge is heavier. *)
Example C103_nonvacuous :
  let os := fst (mst_run id_nat ZI hVS hPM hPM mst_next mst_default [0] None 100) in
  map mr_vertex os = [1; 2; 3] /\ wwalk ZI (only ZI (mst_edges id_nat ZI hPM hPM os)) 0 [(Some 1%Z, 1); (Some 1%Z, 2); (Some 2%Z, 3)] 3 /\
  wwalk ZI (@wgraph_of nat ZI mst_next) 0 [(Some 5%Z, 3)] 3.
Proof.
  cbv zeta. split; [vm_compute; reflexivity|]. split.
  - replace (mst_edges id_nat ZI hPM hPM _) with [(0, Some 1%Z, 1); (1, Some 1%Z, 2); (2, Some 2%Z, 3)] by (vm_compute; reflexivity).
    repeat (econstructor; [unfold only; cbn; tauto|]). constructor.
  - econstructor; [|constructor]. unfold wgraph_of. cbn. tauto.
Qed.
