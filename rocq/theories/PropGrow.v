(** C123: further edges and start vertices, and lower weights, never lose vertices and never lead to larger depths or distances.
    Two neighbor functions: the second one gives (seen by ids) at least the edges of the first one; for weighted graphs: for each edge of the first one an edge with the same ends and a
    weight that is not higher.  The ids of the start vertices of the first traversal are among those of the second one.  The second traversal has ended, and the first one is at any
    place.  Each vertex reported by the first one is a start vertex of the second one (and so not reported there, by C01), or has been reported by the second one,
    - by breadth first search with a depth that is not larger,
    - by Dijkstra with a distance that is not larger (if the addition of weights is monotone in the weight of the edge, as for numbers and rounded numbers),
    - or just reported, by neighbors-then-depth.
    If the bidirectional breadth first search finds a path in the first graph, it finds one in the second graph, and that is not longer. *)
From Coq Require Import List ZArith Bool Arith Lia.
From Verif Require Import Machine GearSpec Spec TraversalSpec Common Weight WeightSpec BFSModel NTDModel DijkstraModel BiSpec BiBFSModel GrowProofs Examples NTDExamples BiExamples.
Import ListNotations.

Theorem C123_breadth_first_grows :
  forall {V I L : Type} (I_dec : forall a b : I, {a = b} + {a <> b}) (vid : V -> I)
    (VS : VSet I) (PM : PMap I V) (LM : PMap I L) (next1 next2 : V -> list (V * L)) (E1 E2 : I -> I -> Prop) (starts1 starts2 : list V),
  presents vid next1 E1 -> presents vid next2 E2 -> (forall i j, E1 i j -> E2 i j) -> (forall i, In i (map vid starts1) -> In i (map vid starts2)) ->
  forall c1 c2 lim1 lim2 n1 n2 os1 r1 os2 s2, bc_is_tree c1 = false -> bc_is_tree c2 = false -> bc_report_depth_increase c1 = false -> bc_report_depth_increase c2 = false ->
  bfs_run vid VS PM LM next1 c1 starts1 None lim1 n1 = (os1, r1) -> bfs_run vid VS PM LM next2 c2 starts2 None lim2 n2 = (os2, Ended s2) ->
  forall rep1, In rep1 os1 -> In (vid (br_vertex rep1)) (map vid starts2) \/
    exists rep2, In rep2 os2 /\ vid (br_vertex rep2) = vid (br_vertex rep1) /\ (br_depth rep2 <= br_depth rep1)%Z.
Proof. exact @bfs_grows. Qed.
Print Assumptions C123_breadth_first_grows.

Theorem C123_neighbors_then_depth_grows :
  forall {V I L : Type} (I_dec : forall a b : I, {a = b} + {a <> b}) (vid : V -> I)
    (VS : VSet I) (PM : PMap I V) (LM : PMap I L) (next1 next2 : V -> list (V * L)) (E1 E2 : I -> I -> Prop) (starts1 starts2 : list V),
  presents vid next1 E1 -> presents vid next2 E2 -> (forall i j, E1 i j -> E2 i j) -> (forall i, In i (map vid starts1) -> In i (map vid starts2)) ->
  forall c1 c2 lim1 lim2 n1 n2 os1 r1 os2 s2, nc_is_tree c1 = false -> nc_is_tree c2 = false ->
  ntd_run vid VS PM LM next1 c1 starts1 None lim1 n1 = (os1, r1) -> ntd_run vid VS PM LM next2 c2 starts2 None lim2 n2 = (os2, Ended s2) ->
  forall i, In i (ntd_ids vid os1) -> In i (map vid starts2) \/ In i (ntd_ids vid os2).
Proof. exact @ntd_grows. Qed.
Print Assumptions C123_neighbors_then_depth_grows.

Theorem C123_shortest_paths_grow :
  forall {V I L : Type} (I_dec : forall a b : I, {a = b} + {a <> b}) (vid : V -> I) (WT : Weights)
    (DM : DMap I (w_t WT) (w_inf WT)) (PM : PMap I V) (LM : PMap I L) (next1 next2 : V -> list (V * w_t WT * L)) (E1 E2 : I -> w_t WT -> I -> Prop) (starts1 starts2 : list V),
  presents_weighted WT vid next1 E1 -> presents_weighted WT vid next2 E2 ->
  (forall i w j, E1 i w j -> exists w', E2 i w' j /\ w_leb WT w' w = true) -> (forall i, In i (map vid starts1) -> In i (map vid starts2)) ->
  (forall w' w d, w_leb WT w' w = true -> w_leb WT (w_add WT w' d) (w_add WT w d) = true) ->
  forall c1 c2 lim1 lim2 n1 n2 os1 r1 os2 s2, nonnegative WT E1 -> nonnegative WT E2 -> dc_is_tree c1 = false -> dc_is_tree c2 = false ->
  dij_run vid WT DM PM LM next1 c1 starts1 None lim1 n1 = (os1, r1) -> dij_run vid WT DM PM LM next2 c2 starts2 None lim2 n2 = (os2, Ended s2) ->
  forall rep1, In rep1 os1 -> In (vid (dr_vertex rep1)) (map vid starts2) \/
    exists rep2, In rep2 os2 /\ vid (dr_vertex rep2) = vid (dr_vertex rep1) /\ w_leb WT (dr_distance rep2) (dr_distance rep1) = true.
Proof. exact @dij_grows. Qed.
Print Assumptions C123_shortest_paths_grow.

Theorem C123_bidirectional_breadth_first_grows :
  forall {V I L : Type} (V_dec : forall a b : V, {a = b} + {a <> b}) (I_dec : forall a b : I, {a = b} + {a <> b}) (vid : V -> I)
    (VS : VSet I) (PM : PMap I V) (LM : PMap I L) (next1 next2 : V -> list (V * L)) (E1 E2 : I -> I -> Prop) (starts1 starts2 : list V),
  presents vid next1 E1 -> presents vid next2 E2 -> (forall i j, E1 i j -> E2 i j) -> (forall i, In i (map vid starts1) -> In i (map vid starts2)) ->
  forall (back1 back2 : V -> list (V * L)) (goals1 goals2 : list V),
  presents vid back1 (fun i j => E1 j i) -> presents vid back2 (fun i j => E2 j i) -> (forall i, In i (map vid goals1) -> In i (map vid goals2)) ->
  forall lab1 lab2 bp1 bp2 fs1 fs2 n1 n2 x1 s1 os2 r2,
  bb_run V_dec I_dec vid VS PM LM next1 back1 lab1 bp1 fs1 starts1 goals1 None n1 = ([x1], Ended s1) -> (0 <= br_length x1)%Z ->
  bb_run V_dec I_dec vid VS PM LM next2 back2 lab2 bp2 fs2 starts2 goals2 None n2 = (os2, r2) -> (forall s, r2 <> Running s) ->
  (exists s2, r2 = Ended s2) /\ exists x2, os2 = [x2] /\ (0 <= br_length x2 <= br_length x1)%Z.
Proof. exact @bb_grows. Qed.
Print Assumptions C123_bidirectional_breadth_first_grows.

(** A further edge from 0 to 4 *)
Definition g_more (v : nat) : list (nat * nat) := match v with 0 => [(4, 99)] | _ => [] end ++ g_next v.
Definition g_more_back (v : nat) : list (nat * nat) := match v with 4 => [(0, 99)] | _ => [] end ++ g_back v.
Lemma g_more_has i j : graph_of g_next i j -> graph_of g_more i j.
Proof. unfold graph_of, g_more. rewrite map_app, in_app_iff. auto. Qed.
Lemma g_more_back_presents : presents (fun v => v) g_more_back (fun i j => graph_of g_more j i).
Proof.
  intros u j. unfold g_more_back, graph_of, g_more. rewrite !map_app, !in_app_iff. pose proof (g_back_presents u j) as H. unfold graph_of in H. rewrite H.
  split; (intros [K|K]; [left|now right]).
  - do 5 (destruct u as [|u]; [cbn in K; now intuition (subst; cbn; auto)|]). destruct K.
  - destruct j as [|j]; [|destruct K]. cbn in K. destruct K as [<-|[]]. cbn. auto.
Qed.
Example C123_example_bfs : (forall i j, graph_of g_next i j -> graph_of g_more i j) /\
  map (fun rep => (br_vertex rep, br_depth rep)) (fst (bfs_run id_nat hVS bPM bPM g_next bfs_default [5] None None 60)) = [(0, 1%Z); (1, 2%Z); (2, 2%Z); (3, 3%Z); (4, 4%Z)] /\
  map (fun rep => (br_vertex rep, br_depth rep)) (fst (bfs_run id_nat hVS bPM bPM g_more bfs_default [1; 5] None None 60)) = [(3, 1%Z); (0, 1%Z); (4, 2%Z); (2, 2%Z)] /\
  (exists s, snd (bfs_run id_nat hVS bPM bPM g_more bfs_default [1; 5] None None 60) = Ended s).
Proof. split; [exact g_more_has|]. split; [vm_compute; reflexivity|]. split; [vm_compute; reflexivity|]. eexists; vm_compute; reflexivity. Qed.
Example C123_example_bidirectional : presents (fun v => v) g_more_back (fun i j => graph_of g_more j i) /\
  (forall i j, graph_of g_next i j -> graph_of g_more i j) /\
  match bb_run Nat.eq_dec Nat.eq_dec (fun v => v) hVS hPM hPM g_next g_back true true false [5] [4] None 60, bb_run Nat.eq_dec Nat.eq_dec (fun v => v) hVS hPM hPM g_more g_more_back true true false [5] [4] None 60 with
  | ([x1], Ended _), ([x2], Ended _) => br_length x1 = 4%Z /\ br_length x2 = 2%Z
  | _, _ => False
  end.
Proof. split; [exact g_more_back_presents|]. split; [exact g_more_has|]. vm_compute. auto. Qed.

(** A lower weight *)
Definition w_lower (v : nat) : list (nat * option Z * nat) := match v with 0 => [(1, Some 2%Z, 10); (2, Some 1%Z, 20)] | _ => w_next v end.
Lemma w_lower_has i w j : @wgraph_of nat ZI w_next i w j -> exists w', @wgraph_of nat ZI w_lower i w' j /\ w_leb ZI w' w = true.
Proof.
  destruct i as [|i].
  - unfold wgraph_of. cbn [w_next map fst snd]. intros [[= <- <-]|[[= <- <-]|[]]]; [exists (Some 2%Z)|exists (Some 1%Z)]; split; try reflexivity; cbn; auto.
  - intros H. exists w. split; [exact H|]. destruct (w_leb_total ZI w w); auto.
Qed.
Lemma w_lower_nonneg : nonnegative ZI (@wgraph_of nat ZI w_lower).
Proof.
  intros [|i] w j H; [|exact (w_next_nonneg (S i) w j H)]. unfold wgraph_of in H. cbn [w_lower map fst snd] in H. destruct H as [[= <- <-]|[[= <- <-]|[]]]; reflexivity.
Qed.
Lemma ZI_add_mono w' w d : w_leb ZI w' w = true -> w_leb ZI (w_add ZI w' d) (w_add ZI w d) = true.
Proof. destruct w' as [a|], w as [b|], d as [c|]; cbn; try reflexivity; try discriminate. rewrite !Z.leb_le. lia. Qed.
Example C123_example_dijkstra : (forall i w j, @wgraph_of nat ZI w_next i w j -> exists w', @wgraph_of nat ZI w_lower i w' j /\ w_leb ZI w' w = true) /\
  (forall w' w d, w_leb ZI w' w = true -> w_leb ZI (w_add ZI w' d) (w_add ZI w d) = true) /\
  nonnegative ZI (@wgraph_of nat ZI w_next) /\ nonnegative ZI (@wgraph_of nat ZI w_lower) /\
  map (fun rep => (dr_vertex rep, dr_distance rep)) (fst (dij_run id_nat ZI hDMZ bPM bPM w_next dij_plain [0] None None 60)) = [(2, Some 1%Z); (1, Some 3%Z); (3, Some 4%Z); (4, Some 4%Z)] /\
  map (fun rep => (dr_vertex rep, dr_distance rep)) (fst (dij_run id_nat ZI hDMZ bPM bPM w_lower dij_plain [0] None None 60)) = [(2, Some 1%Z); (1, Some 2%Z); (3, Some 3%Z); (4, Some 3%Z)] /\
  (exists s, snd (dij_run id_nat ZI hDMZ bPM bPM w_lower dij_plain [0] None None 60) = Ended s).
Proof.
  split; [exact w_lower_has|]. split; [exact ZI_add_mono|]. split; [exact w_next_nonneg|]. split; [exact w_lower_nonneg|].
  split; [vm_compute; reflexivity|]. split; [vm_compute; reflexivity|]. eexists; vm_compute; reflexivity.
Qed.
