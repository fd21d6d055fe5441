(** Properties of TraversalShortestPaths: C20, C21, C22, C23, C24, C25, C53. *)
From Coq Require Import List ZArith Bool Arith Lia Sorted.
From Verif Require Import Machine GearSpec Spec TraversalSpec Common PathsModel PathsSpec PathsExact Weight WeightSpec
  HeapModel DijkstraModel DijkstraPlain GoModel GoProofs Examples.
Import ListNotations.

(** C20. For all graphs with non-negative weights, gears, options (not is_tree), start vertices,
    limits and numbers [n] of passes: the distance at a report is the minimal weight of a
    walk from a start vertex to the reported vertex; vertices are reported with
    ascending distance. *)
Theorem C20_dijkstra_distance_minimal :
  forall {V I L : Type} (I_dec : forall a b : I, {a = b} + {a <> b}) (vid : V -> I) (WT : Weights)
    (DM : DMap I (w_t WT) (w_inf WT)) (PM : PMap I V) (LM : PMap I L)
    (next : V -> list (V * w_t WT * L)) (cfg : dij_cfg) (E : I -> w_t WT -> I -> Prop) (starts : list V) lim n os r,
  dc_is_tree cfg = false -> presents_weighted WT vid next E -> nonnegative WT E ->
  dij_run vid WT DM PM LM next cfg starts None lim n = (os, r) ->
  (forall rep, In rep os -> is_distance WT E (is_start vid starts) (vid (dr_vertex rep)) (dr_distance rep)) /\
  StronglySorted (fun a b => w_leb WT (dr_distance a) (dr_distance b) = true) os.
Proof.
  intros V I L I_dec vid WT DM PM LM next cfg E starts lim n os r Ht HE Hn HR.
  exact (dij_distances I_dec vid WT DM PM LM next cfg Ht E HE Hn starts lim n os r HR).
Qed.
Print Assumptions C20_dijkstra_distance_minimal.

Example C20_example :
  presents_weighted ZI id_nat w_next (wgraph_of (WT := ZI) w_next) /\ nonnegative ZI (@wgraph_of nat ZI w_next) /\
  let p := dij_run id_nat ZI hDMZ bPM bPM w_next dij_plain [0] None None 40 in
  map (fun rep => (dr_vertex rep, dr_distance rep, dr_depth rep)) (fst p)
  = [(2, Some 1%Z, 1); (1, Some 3%Z, 2); (3, Some 4%Z, 3); (4, Some 4%Z, 4)] /\
  match snd p with Ended _ => True | _ => False end.
Proof. split; [apply presents_wgraph_of|]. split; [apply w_next_nonneg|]. vm_compute. auto. Qed.

(** C21. Each vertex is reported at most once; reported vertices are reachable and no start vertices; when the
    traversal has ended, all reachable vertices have been reported (or are start vertices).
    Without limit: if only finitely many vertices are reachable, the traversal ends, or an
    OverflowError is raised (see C24); a vertex with finite distance [d] is eventually reported, or an
    OverflowError is raised, if only finitely many vertices are reached by walks of
    weight at most [d] (so, also in infinite graphs). *)
Theorem C21_dijkstra_reports_reachable_once :
  forall {V I L : Type} (I_dec : forall a b : I, {a = b} + {a <> b}) (vid : V -> I) (WT : Weights)
    (DM : DMap I (w_t WT) (w_inf WT)) (PM : PMap I V) (LM : PMap I L)
    (next : V -> list (V * w_t WT * L)) (cfg : dij_cfg) (E : I -> w_t WT -> I -> Prop) (starts : list V),
  dc_is_tree cfg = false -> presents_weighted WT vid next E -> nonnegative WT E ->
  let St := is_start vid starts in
  (forall lim n os r, dij_run vid WT DM PM LM next cfg starts None lim n = (os, r) ->
     NoDup (dij_ids vid os) /\
     (forall rep, In rep os -> ~ St (vid (dr_vertex rep)) /\ wreachable WT E St (vid (dr_vertex rep))) /\
     (forall s', r = Ended s' -> forall i, wreachable WT E St i -> St i \/ In i (dij_ids vid os))) /\
  (forall l, (forall i, wreachable WT E St i -> In i l) ->
     exists n os s, dij_run vid WT DM PM LM next cfg starts None None n = (os, Ended s) \/
                    dij_run vid WT DM PM LM next cfg starts None None n = (os, Raised OverflowErrorDistance s)) /\
  (forall i d l, is_distance WT E St i d -> w_ltb WT d (w_inf WT) = true -> ~ St i ->
     (forall s p j, St s -> wwalk WT E s p j -> w_leb WT (walk_weight WT p) d = true -> In j l) ->
     exists n, (exists s, snd (dij_run vid WT DM PM LM next cfg starts None None n) = Raised OverflowErrorDistance s) \/
               In i (dij_ids vid (fst (dij_run vid WT DM PM LM next cfg starts None None n)))).
Proof.
  intros V I L I_dec vid WT DM PM LM next cfg E starts Ht HE Hn.
  exact (conj (dij_reported I_dec vid WT DM PM LM next cfg Ht E HE Hn starts)
        (conj (dij_plain_terminates I_dec vid WT DM PM LM next cfg Ht E HE Hn starts)
              (dij_plain_live I_dec vid WT DM PM LM next cfg Ht E HE Hn starts))).
Qed.
Print Assumptions C21_dijkstra_reports_reachable_once.

Example C21_example :
  presents_weighted ZI id_nat winf_next (wgraph_of (WT := ZI) winf_next) /\ nonnegative ZI (@wgraph_of unit ZI winf_next) /\
  dij_ids id_nat (fst (dij_run id_nat ZI hDMZ hPM hPM winf_next dij_plain [3] None None 40))
  = [4; 5; 6; 7; 8; 9; 12; 10; 11].
Proof. split; [apply presents_wgraph_of|]. split; [apply winf_next_nonneg|]. vm_compute. auto. Qed.

(** C22. With build_paths: at each report, and ever after, the paths container delivers for the
    reported vertex one and the same chain [p] of edges of the neighbor function, from a start
    vertex to it, with the labels of these edges, whose weights sum up to the reported distance and that has
    [depth] edges. Start vertices have the empty path. *)
Theorem C22_dijkstra_paths :
  forall {V I L : Type} (V_dec : forall a b : V, {a = b} + {a <> b}) (I_dec : forall a b : I, {a = b} + {a <> b})
    (vid : V -> I) (WT : Weights)
    (DM : DMap I (w_t WT) (w_inf WT)) (PM : PMap I V) (LM : PMap I L)
    (next : V -> list (V * w_t WT * L)) (cfg : dij_cfg) (E : I -> w_t WT -> I -> Prop) (starts : list V) lim n os r,
  dc_is_tree cfg = false -> presents_weighted WT vid next E -> nonnegative WT E ->
  dc_build_paths cfg = true -> starts_distinct vid starts ->
  dij_run vid WT DM PM LM next cfg starts None lim n = (os, r) ->
  (forall rep, In rep os -> exists s0 p, In s0 starts /\ chain next s0 p (dr_vertex rep) /\
     chain_weight WT (w_zero WT) p = dr_distance rep /\ length p = dr_depth rep /\
     delivers_exactly V_dec vid PM LM (dr_pred rep) (dr_labels rep) (dc_labeled cfg) (dr_vertex rep)
       (chain_vertices s0 p) (chain_edges s0 p) /\
     delivers_exactly V_dec vid PM LM (d_pred (outcome_state r)) (d_labels (outcome_state r)) (dc_labeled cfg)
       (dr_vertex rep) (chain_vertices s0 p) (chain_edges s0 p)) /\
  (forall v, In v starts ->
     delivers_exactly V_dec vid PM LM (d_pred (outcome_state r)) (d_labels (outcome_state r)) (dc_labeled cfg) v [v] []).
Proof.
  intros V I L V_dec I_dec vid WT DM PM LM next cfg E starts lim n os r Ht HE Hn Hb Hd HR.
  exact (dij_paths I_dec vid WT DM PM LM next cfg Ht E HE Hn starts lim n os r HR V_dec Hb Hd).
Qed.
Print Assumptions C22_dijkstra_paths.

Example C22_example :
  starts_distinct id_nat [0] /\
  map (fun rep => iter_labeled_edges_from_start Nat.eq_dec id_nat bPM bPM
                    (dr_pred rep) (dr_labels rep) 10 (dr_vertex rep))
    (fst (dij_run id_nat ZI hDMZ bPM bPM w_next dij_plain [0] None None 40))
  = [POk [(0, 2, 20)]; POk [(0, 2, 20); (2, 1, 21)]; POk [(0, 2, 20); (2, 1, 21); (1, 3, 13)];
     POk [(0, 2, 20); (2, 1, 21); (1, 3, 13); (3, 4, 34)]].
Proof. split; [|vm_compute; reflexivity]. intros a b _ _ H. exact H. Qed.

(** C23. With keep_distances, [distances] holds at each report the final distance of all vertices
    reported up to then, and keeps it; start vertices have distance zero; when the traversal has
    ended, it holds the minimal distance of each reachable vertex, and infinity for all others. *)
Theorem C23_dijkstra_keep_distances :
  forall {V I L : Type} (I_dec : forall a b : I, {a = b} + {a <> b}) (vid : V -> I) (WT : Weights)
    (DM : DMap I (w_t WT) (w_inf WT)) (PM : PMap I V) (LM : PMap I L)
    (next : V -> list (V * w_t WT * L)) (cfg : dij_cfg) (E : I -> w_t WT -> I -> Prop) (starts : list V) lim n os r,
  dc_is_tree cfg = false -> presents_weighted WT vid next E -> nonnegative WT E ->
  dij_run vid WT DM PM LM next cfg starts None lim n = (os, r) ->
  dc_keep_distances cfg = true ->
  let St := is_start vid starts in
  (forall o1 rep o2 rep', os = o1 ++ rep :: o2 -> In rep' (o1 ++ [rep]) ->
     dm_get DM (vid (dr_vertex rep')) (dr_distances rep) = dr_distance rep') /\
  (forall rep, In rep os -> dm_get DM (vid (dr_vertex rep)) (d_distances (outcome_state r)) = dr_distance rep) /\
  (forall i, St i -> dm_get DM i (d_distances (outcome_state r)) = w_zero WT /\
     forall rep, In rep os -> dm_get DM i (dr_distances rep) = w_zero WT) /\
  (forall s', r = Ended s' -> forall i,
     (wreachable WT E St i -> is_distance WT E St i (dm_get DM i (d_distances s'))) /\
     (~ wreachable WT E St i -> dm_get DM i (d_distances s') = w_inf WT)).
Proof.
  intros V I L I_dec vid WT DM PM LM next cfg E starts lim n os r Ht HE Hn HR.
  exact (dij_keep I_dec vid WT DM PM LM next cfg Ht E HE Hn starts lim n os r HR).
Qed.
Print Assumptions C23_dijkstra_keep_distances.

Example C23_example :
  match dij_run id_nat ZI hDMZ bPM bPM w_next dij_default [0] None None 40 with
  | (_, Ended s) => map (fun i => dm_get hDMZ i (d_distances s)) [0; 1; 2; 3; 4; 5]
                    = [Some 0; Some 3; Some 1; Some 4; Some 4; None]%Z
  | _ => False
  end.
Proof. vm_compute. reflexivity. Qed.

(** C24 for Dijkstra. No reported distance and no distance stored in [distances] reaches infinity; an
    OverflowError is raised only if an edge extends a shortest path to weight infinity or more; and if there
    is such an edge, the traversal does not end without the exception. *)
Theorem C24_dijkstra_overflow :
  forall {V I L : Type} (I_dec : forall a b : I, {a = b} + {a <> b}) (vid : V -> I) (WT : Weights)
    (DM : DMap I (w_t WT) (w_inf WT)) (PM : PMap I V) (LM : PMap I L)
    (next : V -> list (V * w_t WT * L)) (cfg : dij_cfg) (E : I -> w_t WT -> I -> Prop) (starts : list V) lim n os r,
  dc_is_tree cfg = false -> presents_weighted WT vid next E -> nonnegative WT E ->
  dij_run vid WT DM PM LM next cfg starts None lim n = (os, r) ->
  let St := is_start vid starts in
  (forall rep, In rep os -> w_ltb WT (dr_distance rep) (w_inf WT) = true /\
     forall i, dm_get DM i (dr_distances rep) = w_inf WT \/ w_ltb WT (dm_get DM i (dr_distances rep)) (w_inf WT) = true) /\
  (forall i, dm_get DM i (d_distances (outcome_state r)) = w_inf WT \/
             w_ltb WT (dm_get DM i (d_distances (outcome_state r))) (w_inf WT) = true) /\
  (forall s', r = Raised OverflowErrorDistance s' ->
     exists i d w j, is_distance WT E St i d /\ E i w j /\ w_leb WT (w_inf WT) (w_add WT w d) = true) /\
  (forall s', r = Ended s' ->
     forall i d w j, is_distance WT E St i d -> E i w j -> w_ltb WT (w_add WT w d) (w_inf WT) = true).
Proof.
  intros V I L I_dec vid WT DM PM LM next cfg E starts lim n os r Ht HE Hn HR.
  exact (dij_overflow I_dec vid WT DM PM LM next cfg Ht E HE Hn starts lim n os r HR).
Qed.
Print Assumptions C24_dijkstra_overflow.

(** Distances are stored in bytes: infinity is 255. *)
Definition B255 : Weights := ZWeights 255 eq_refl.
Example C24_example :
  let next := fun v => match v with 0 => [(1, 100%Z, tt)] | 1 => [(2, 100%Z, tt)] | 2 => [(3, 55%Z, tt)] | _ => [] end in
  nonnegative B255 (@wgraph_of unit B255 next) /\
  let p := dij_run id_nat B255 (hDM 255%Z) hPM hPM next dij_plain [0] None None 40 in
  dij_ids id_nat (fst p) = [1; 2] /\ match snd p with Raised OverflowErrorDistance _ => True | _ => False end.
Proof.
  split; [|vm_compute; auto]. intros i w j Hin. unfold wgraph_of in Hin.
  do 3 (destruct i as [|i]; [simpl in Hin; destruct Hin as [Hin|[]]; injection Hin as <- <-; reflexivity|]). contradiction.
Qed.

(** C25. [go_for_distance_range(start, stop)], called after [k] vertices have been reported ([l] are
    the vertices still to come), delivers exactly the vertices with distance in the range, in order. If the
    iteration stopped before the end, at most two vertices have been lost for a
    following iteration, just one if some vertex was in the range; all vertices lost or left have
    distance [stop] or more. *)
Theorem C25_dijkstra_distance_range :
  forall {V I L : Type} (I_dec : forall a b : I, {a = b} + {a <> b}) (vid : V -> I) (WT : Weights)
    (DM : DMap I (w_t WT) (w_inf WT)) (PM : PMap I V) (LM : PMap I L)
    (next : V -> list (V * w_t WT * L)) (cfg : dij_cfg) (E : I -> w_t WT -> I -> Prop) (starts : list V) lim n os r,
  dc_is_tree cfg = false -> presents_weighted WT vid next E -> nonnegative WT E ->
  dij_run vid WT DM PM LM next cfg starts None lim n = (os, r) ->
  forall (k : nat) (start stop : w_t WT) e,
  let l := skipn k os in
  let in_range := filter (fun rep => w_leb WT start (dr_distance rep) && w_ltb WT (dr_distance rep) stop) l in
  let res := go_for_range (fun rep => w_leb WT start (dr_distance rep))
                          (fun rep => w_ltb WT (dr_distance rep) stop) l e in
  fst res = in_range /\
  (forall rest, snd res = Stopped rest -> exists below lost,
      l = below ++ in_range ++ lost ++ rest /\
      (forall rep, In rep below -> w_ltb WT (dr_distance rep) start = true) /\
      (forall rep, In rep (lost ++ rest) -> w_leb WT stop (dr_distance rep) = true) /\
      1 <= length lost <= 2 /\ (in_range <> [] -> length lost = 1)).
Proof.
  intros V I L I_dec vid WT DM PM LM next cfg E starts lim n os r Ht HE Hn HR.
  exact (dij_distance_range I_dec vid WT DM PM LM next cfg Ht E HE Hn starts lim n os r HR).
Qed.
Print Assumptions C25_dijkstra_distance_range.

Example C25_example :
  let os := fst (dij_run id_nat ZI hDMZ bPM bPM w_next dij_plain [0] None None 40) in
  dij_ids id_nat (fst (go_for_range (fun rep => w_leb ZI (Some 2%Z) (dr_distance rep))
                                (fun rep => w_ltb ZI (dr_distance rep) (Some 4%Z)) os SEnd)) = [1].
Proof. vm_compute. reflexivity. Qed.

(** C53. With known_distances [known]: [ini] are the initial distances (known ones, and zero for start vertices without
    a known one; those of start vertices must not be negative). The reported vertices are exactly those with an
    improving walk (see WeightSpec.v), each is reported once, in ascending order of distance,
    with the least weight of an improving walk. *)
Theorem C53_dijkstra_known_distances :
  forall {V I L : Type} (I_dec : forall a b : I, {a = b} + {a <> b}) (vid : V -> I) (WT : Weights)
    (DM : DMap I (w_t WT) (w_inf WT)) (PM : PMap I V) (LM : PMap I L)
    (next : V -> list (V * w_t WT * L)) (cfg : dij_cfg) (E : I -> w_t WT -> I -> Prop) (starts : list V)
    (known : dm_t DM) (ini : I -> w_t WT),
  dc_is_tree cfg = false -> presents_weighted WT vid next E -> nonnegative WT E ->
  let St := is_start vid starts in
  initial_distances WT St (fun i => dm_get DM i known) ini ->
  (forall i, St i -> w_leb WT (w_zero WT) (ini i) = true) ->
  (forall lim n os r, dij_run vid WT DM PM LM next cfg starts (Some known) lim n = (os, r) ->
     NoDup (dij_ids vid os) /\
     StronglySorted (fun a b => w_leb WT (dr_distance a) (dr_distance b) = true) os /\
     (forall rep, In rep os -> 0 < dr_depth rep /\
        improving WT E St ini (vid (dr_vertex rep)) (dr_depth rep) (dr_distance rep) /\
        forall k d, improving WT E St ini (vid (dr_vertex rep)) k d -> w_leb WT (dr_distance rep) d = true) /\
     (forall s', r = Ended s' -> forall i k d, improving WT E St ini i (S k) d -> In i (dij_ids vid os))) /\
  (forall l, (forall i k d, improving WT E St ini i k d -> In i l) ->
     exists n os s, dij_run vid WT DM PM LM next cfg starts (Some known) None n = (os, Ended s) \/
        dij_run vid WT DM PM LM next cfg starts (Some known) None n = (os, Raised OverflowErrorDistance s)).
Proof.
  intros V I L I_dec vid WT DM PM LM next cfg E starts known ini Ht HE Hn St Hi Hp.
  exact (conj (dij_known I_dec vid WT DM PM LM next cfg Ht E HE Hn starts known ini Hi Hp)
              (dij_known_terminates I_dec vid WT DM PM LM next cfg Ht E HE Hn starts known ini Hi Hp)).
Qed.
Print Assumptions C53_dijkstra_known_distances.

(** Vertex 1 has the known distance 2 (it cannot be improved), vertex 3 has 9 (it can). *)
Definition known_ex : dm_t hDMZ := dm_set hDMZ 3 (Some 9%Z) (dm_set hDMZ 1 (Some 2%Z) (dm_empty hDMZ)).
Example C53_example :
  initial_distances ZI (is_start id_nat [2]) (fun i => dm_get hDMZ i known_ex)
    (fun i => match i with 2 => Some 0%Z | _ => dm_get hDMZ i known_ex end) /\
  map (fun rep => (dr_vertex rep, dr_distance rep))
    (fst (dij_run id_nat ZI hDMZ hPM hPM w_next dij_plain [2] (Some known_ex) None 60))
  = [(3, Some 8%Z); (4, Some 8%Z); (0, Some 15%Z)].
Proof.
  split; [|vm_compute; reflexivity]. intros i. destruct (Nat.eq_dec i 2) as [->|Hne].
  - split; auto. intros [H|H]; [exfalso; apply H; now left|exfalso; apply H; reflexivity].
  - split; [intros [H|[]]; simpl in H; congruence|]. intros _. do 3 (destruct i; try reflexivity). congruence.
Qed.
