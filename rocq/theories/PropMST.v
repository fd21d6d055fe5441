(** Properties of TraversalMinimumSpanningTree: C28, C29, C57. *)
From Coq Require Import List ZArith Bool Arith Lia Permutation.
From Verif Require Import Machine GearSpec Spec TraversalSpec Common PathsModel PathsSpec PathsExact Weight WeightSpec
  HeapModel AStarSpec MSTModel MSTSpec MSTProofs MSTFinal Examples AStarExamples MSTExamples.
Import ListNotations.

(** C28. For all graphs, gears, options, start vertices, limits and numbers [n] of passes: each report comes with an edge
    of the neighbor function that leads from a start vertex, or an already reported vertex, to the reported vertex,
    which is neither a start vertex nor already reported. With build_paths, the paths container then delivers a chain of
    reported edges from a start vertex to the vertex, with the labels of these edges. The reported edges
    ([mst_edges]: attribute edge of each report, as id, weight, id) contain no cycle, do not connect different start vertices, and
    connect each reported vertex with a start vertex. When the traversal ends, each vertex that can be reached is
    a start vertex or has been reported. If the number of reachable ids is finite, the traversal ends. *)
Theorem C28_mst_spanning_tree :
  forall {V I L : Type} (V_dec : forall a b : V, {a = b} + {a <> b}) (I_dec : forall a b : I, {a = b} + {a <> b})
    (vid : V -> I) (WT : Weights) (VS : VSet I) (PM : PMap I V) (LM : PMap I L)
    (next : V -> list (V * w_t WT * L)) (cfg : mst_cfg) (E : I -> w_t WT -> I -> Prop) (starts : list V),
  presents_weighted WT vid next E ->
  let St := is_start vid starts in
  (forall lim n os r, mst_run vid WT VS PM LM next cfg starts lim n = (os, r) ->
    let T := mst_edges vid WT PM LM os in
    (forall o1 rep o2, os = o1 ++ rep :: o2 ->
       exists u w l, mr_edge rep = Some (u, (mr_vertex rep, w, l)) /\ In (mr_vertex rep, w, l) (next u) /\
         (In u starts \/ In u (map mr_vertex o1)) /\
         ~ St (vid (mr_vertex rep)) /\ ~ In (vid (mr_vertex rep)) (mst_ids vid o1) /\
         (mc_build_paths cfg = true -> starts_distinct vid starts ->
          exists s0 p, In s0 starts /\ chain next s0 p (mr_vertex rep) /\
            (forall a b d, In (a, b, d) (chain_edges s0 p) ->
               exists rep' w', In rep' (o1 ++ [rep]) /\ mr_edge rep' = Some (a, (b, w', d))) /\
            delivers_exactly V_dec vid PM LM (mr_pred rep) (mr_labels rep) (mc_labeled cfg) (mr_vertex rep)
              (chain_vertices s0 p) (chain_edges s0 p))) /\
    acyclic WT T /\
    (forall s s', St s -> St s' -> linked WT T s s' -> s = s') /\
    (forall rep, In rep os -> exists s, St s /\ linked WT T (vid (mr_vertex rep)) s) /\
    (forall s', r = Ended s' -> forall i, wreachable WT E St i -> St i \/ In i (mst_ids vid os))) /\
  (forall ids, (forall i, wreachable WT E St i -> In i ids) ->
     exists n os s, mst_run vid WT VS PM LM next cfg starts None n = (os, Ended s)).
Proof.
  intros V I L V_dec I_dec vid WT VS PM LM next cfg E starts HE St. split.
  - exact (mst_tree_all V_dec I_dec vid WT VS PM LM next cfg E HE starts).
  - exact (mst_terminates I_dec vid WT VS PM LM next cfg E HE starts).
Qed.
Print Assumptions C28_mst_spanning_tree.

Example C28_example :
  match mst_run id_nat ZI hVS bPM bPM mst_next mst_default [0] None 100 with
  | (os, Ended s) =>
      map (fun rep => mr_edge rep) os =
        [Some (0, (1, Some 1%Z, 1)); Some (1, (2, Some 1%Z, 12)); Some (2, (3, Some 2%Z, 23))] /\
      mst_edges id_nat ZI bPM bPM os = [(0, Some 1%Z, 1); (1, Some 1%Z, 2); (2, Some 2%Z, 3)] /\
      iter_vertices_from_start Nat.eq_dec id_nat bPM (m_pred s) 9 3 = POk [0; 1; 2; 3]
  | _ => False
  end.
Proof. vm_compute. auto. Qed.

(** C29. In graphs with each edge in both directions (with the same weight): whenever edges [T] have been reported, each set [F] of
    edges that connects all reachable vertices to the start vertices can be written as [F'] and [rest], where each edge
    in [T] weighs at most as much as an edge of [F'] (each used once), and where the edges [T] and [rest] together
    also connect all reachable vertices to the start vertices. When the traversal ends, [T] itself connects them,
    and (if sums of weights are exact) its total weight is at most that of [F], provided that [F] has the same number of
    edges (like all spanning trees) or that weights are non-negative. *)
Theorem C29_mst_minimal :
  forall {V I L : Type} (V_dec : forall a b : V, {a = b} + {a <> b}) (I_dec : forall a b : I, {a = b} + {a <> b})
    (vid : V -> I) (WT : Weights) (VS : VSet I) (PM : PMap I V) (LM : PMap I L)
    (next : V -> list (V * w_t WT * L)) (cfg : mst_cfg) (E : I -> w_t WT -> I -> Prop) (starts : list V) lim n os r,
  presents_weighted WT vid next E -> undirected WT E ->
  mst_run vid WT VS PM LM next cfg starts lim n = (os, r) ->
  let St := is_start vid starts in
  let T := mst_edges vid WT PM LM os in
  (forall F, attaches WT E St F ->
     exists F' rest, Permutation F (F' ++ rest) /\
       Forall2 (fun t f => w_leb WT (edge_weight WT t) (edge_weight WT f) = true) T F' /\
       attaches WT E St (T ++ rest)) /\
  (forall s', exact WT -> r = Ended s' ->
     attaches WT E St T /\
     forall F, attaches WT E St F -> length F = length T \/ nonnegative WT E ->
       w_leb WT (total_weight WT T) (total_weight WT F) = true).
Proof.
  intros V I L V_dec I_dec vid WT VS PM LM next cfg E starts lim n os r HE HU HR St T. split.
  - exact (mst_min_all I_dec vid WT VS PM LM next cfg E HE starts lim n os r HR HU).
  - intros s' Hx Hr. exact (mst_total_all V_dec I_dec vid WT VS PM LM next cfg E HE starts lim n os r HR s' HU Hx Hr).
Qed.
Print Assumptions C29_mst_minimal.

Example C29_example :
  undirected ZI (@wgraph_of nat ZI mst_next) /\ exact ZI /\ nonnegative ZI (@wgraph_of nat ZI mst_next) /\
  total_weight ZI [(0, Some 1%Z, 1); (1, Some 1%Z, 2); (2, Some 2%Z, 3)] = Some 4%Z.
Proof.
  split; [exact mst_next_undirected|]. split; [exact exact_ZInfWeights|]. split; [exact mst_next_nonneg|reflexivity].
Qed.

(** C57, refuted. The documentation says that edges that have been found more recently are preferred (among those with
    equal weight). The edge from 1 to 3 is found, when 1 is expanded, later than the edge from 0 to 2, and they have the
    same weight. Yet, the edge from 0 to 2 is reported before the edge from 1 to 3. *)
Theorem C57_mst_tie_breaker_refuted :
  exists (next : nat -> list (nat * w_t ZI * unit)),
  undirected ZI (@wgraph_of unit ZI next) /\
  In (2, Some 1%Z, tt) (next 0) /\ In (3, Some 1%Z, tt) (next 1) /\
  match mst_run id_nat ZI hVS hPM hPM next mst_default [0] None 100 with
  | (os, Ended s) =>
      map mr_vertex os = [1; 2; 3] /\ rev (m_calls s) = [0; 1; 2; 3] /\
      map (fun rep => option_map fst (mr_edge rep)) os = [Some 0; Some 0; Some 1]
  | _ => False
  end.
Proof. exact mst_ties. Qed.
Print Assumptions C57_mst_tie_breaker_refuted.
