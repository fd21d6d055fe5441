(** Properties of TraversalShortestPathsInfBranchingSorted: C30, C75, C76, and its parts of C05 and C43. *)
From Coq Require Import List ZArith Bool Arith Lia Sorted.
From Verif Require Import Machine MachineSim GearSpec GearProofs Spec TraversalSpec Common LimitSim BFSSim DijkstraSim PathsModel PathsSpec PathsExact Weight WeightSpec
  DijkstraModel InfModel InfSpec InfGraph InfRun InfMore InfPaths InfReads InfLimit InfCount InfSim Examples.
Import ListNotations.

(** The graph of the examples: an even vertex [v] has infinitely many edges, to [v + 2k + 1] with weight [k + 1]; an odd vertex has an edge of weight 0 and one of weight 5. *)
Definition iedge (v k : nat) : option (nat * option Z) :=
  if Nat.even v then Some (v + 2 * k + 1, Some (Z.of_nat (k + 1)))
  else match k with 0 => Some (v + 3, Some 0%Z) | 1 => Some (v + 1, Some 5%Z) | _ => None end.
(** A finite part *)
Definition fedge (v k : nat) : option (nat * option Z) :=
  match v, k with 0, 0 => Some (1, Some 1%Z) | 0, 1 => Some (2, Some 4%Z) | 1, 0 => Some (0, Some 0%Z) | 1, 1 => Some (2, Some 2%Z) | _, _ => None end.
Definition sdec := @state_dec nat Nat.eq_dec.
Definition sDM : DMap (nat * nat) (option Z) None := HashDMap sdec (None : option Z).
Definition sPM : PMap (nat * nat) (nat * nat) := HashPMap sdec.
Definition sLM : PMap (nat * nat) unit := HashPMap sdec.
Definition irun1 edge starts lim n := inf_run Nat.eq_dec edge hDMZ hPM sDM sPM sLM true true starts lim n.

Lemma iedge_ok : edge_sequences iedge /\ edges_sorted iedge /\ edges_nonnegative iedge.
Proof.
  split; [|split].
  - intros v k. unfold iedge. destruct (Nat.even v); [discriminate|]. destruct k as [|[|k]]; simpl; congruence.
  - intros v k u a u' b. unfold iedge. destruct (Nat.even v).
    + intros [= <- <-] [= <- <-]. simpl. apply Z.leb_le. lia.
    + destruct k as [|[|k]]; [|discriminate|discriminate]. intros [= <- <-] [= <- <-]. reflexivity.
  - intros v k u w. unfold iedge. destruct (Nat.even v).
    + intros [= <- <-]. simpl. apply Z.leb_le. lia.
    + destruct k as [|[|k]]; [| |discriminate]; intros [= <- <-]; reflexivity.
Qed.
Lemma fedge_ok : edge_sequences fedge /\ edges_sorted fedge /\ edges_nonnegative fedge /\ edges_finite fedge.
Proof.
  repeat split.
  - intros [|[|v]] [|[|k]]; simpl; congruence.
  - intros [|[|v]] [|[|k]] u a u' b; simpl; try discriminate; intros [= <- <-] [= <- <-]; reflexivity.
  - intros [|[|v]] [|[|k]] u w; simpl; try discriminate; intros [= <- <-]; reflexivity.
  - intros [|[|v]] [|[|k]] u w; simpl; try discriminate; intros [= <- <-]; discriminate.
Qed.

(** C30.  For all graphs whose vertices have finite or infinite sequences of edges, sorted by non-negative weights, all gears, options, distinct start vertices, limits and numbers
    [n] of passes: no vertex is reported twice or is a start vertex, distances are reported in ascending order, and the distance at a report is
    finite and the minimal weight of a walk from a start vertex.  When the traversal has ended, all reachable vertices have been reported. *)
Theorem C30_distances :
  forall {V : Type} (V_dec : forall a b : V, {a = b} + {a <> b}) (edge : V -> nat -> option (V * option Z))
    (DM : DMap V (option Z) None) (PM : PMap V V) (DMi : DMap (V * nat) (option Z) None) (PMi : PMap (V * nat) (V * nat)) (LMi : PMap (V * nat) unit)
    (build_paths store_distances : bool) (starts : list V) lim n os r,
  edge_sequences edge -> edges_sorted edge -> edges_nonnegative edge -> NoDup starts ->
  inf_run V_dec edge DM PM DMi PMi LMi build_paths store_distances starts lim n = (os, r) ->
  let E := inf_edge edge in
  let St := fun v => In v starts in
  NoDup (map nr_vertex os) /\
  StronglySorted (fun a b => w_leb ZInfWeights (nr_distance a) (nr_distance b) = true) os /\
  (forall rep, In rep os -> ~ In (nr_vertex rep) starts /\ is_distance ZInfWeights E St (nr_vertex rep) (nr_distance rep) /\ nr_distance rep <> None) /\
  (forall s, r = Ended s -> forall v, wreachable ZInfWeights E St v -> In v starts \/ In v (map nr_vertex os)).
Proof.
  intros V V_dec edge DM PM DMi PMi LMi build_paths store_distances starts lim n os r H1 H2 H3 H4 HR.
  exact (inf_reports V_dec edge H1 H2 H3 DM PM DMi PMi LMi build_paths store_distances starts H4 lim n os r HR).
Qed.
Print Assumptions C30_distances.

Example C30_distances_example :
  (edge_sequences iedge /\ edges_sorted iedge /\ edges_nonnegative iedge) /\
  map (fun rep => (nr_vertex rep, nr_distance rep)) (fst (irun1 iedge [0] None 60)) = [(1, Some 1%Z); (4, Some 1%Z); (5, Some 2%Z); (8, Some 2%Z); (3, Some 2%Z); (6, Some 2%Z)].
Proof. split; [exact iedge_ok|]. vm_compute. reflexivity. Qed.

(** C30, continued.  Without limit: the traversal of a graph with finitely many reachable vertices and edges ends, or raises OverflowError, which does not happen
    if all weights are finite.  In any graph, a vertex with finite distance [d] is reported after finitely many steps, or OverflowError is
    raised, if there are only finitely many vertices and edges within distance [d]. *)
Theorem C30_progress :
  forall {V : Type} (V_dec : forall a b : V, {a = b} + {a <> b}) (edge : V -> nat -> option (V * option Z))
    (DM : DMap V (option Z) None) (PM : PMap V V) (DMi : DMap (V * nat) (option Z) None) (PMi : PMap (V * nat) (V * nat)) (LMi : PMap (V * nat) unit)
    (build_paths store_distances : bool) (starts : list V),
  edge_sequences edge -> edges_sorted edge -> edges_nonnegative edge -> NoDup starts ->
  let E := inf_edge edge in
  let St := fun v => In v starts in
  let run_ := inf_run V_dec edge DM PM DMi PMi LMi build_paths store_distances starts in
  (forall lv le, (forall v, wreachable ZInfWeights E St v -> In v lv) ->
     (forall v k u w, wreachable ZInfWeights E St v -> edge v k = Some (u, w) -> In (v, k) le) ->
     exists n os s, run_ None n = (os, Ended s) \/ run_ None n = (os, Raised OverflowErrorDistance s)) /\
  (edges_finite edge -> forall lim n s, snd (run_ lim n) <> Raised OverflowErrorDistance s) /\
  (forall v d lv le, is_distance ZInfWeights E St v d -> d <> None -> ~ In v starts ->
     (forall s q u, In s starts -> wwalk ZInfWeights E s q u -> w_leb ZInfWeights (walk_weight ZInfWeights q) d = true -> In u lv) ->
     (forall s q u k t w, In s starts -> wwalk ZInfWeights E s q u -> edge u k = Some (t, w) ->
        w_leb ZInfWeights (w_add ZInfWeights w (walk_weight ZInfWeights q)) d = true -> In (u, k) le) ->
     exists n, (exists s, snd (run_ None n) = Raised OverflowErrorDistance s) \/ In v (map nr_vertex (fst (run_ None n)))).
Proof.
  intros V V_dec edge DM PM DMi PMi LMi build_paths store_distances starts H1 H2 H3 H4.
  exact (conj (inf_terminates V_dec edge H1 H2 H3 DM PM DMi PMi LMi build_paths store_distances starts H4)
        (conj (fun Hf lim n s => inf_no_overflow V_dec edge H1 H2 H3 DM PM DMi PMi LMi build_paths store_distances starts H4 lim n s Hf)
              (inf_live V_dec edge H1 H2 H3 DM PM DMi PMi LMi build_paths store_distances starts H4))).
Qed.
Print Assumptions C30_progress.

Example C30_progress_example :
  (edge_sequences fedge /\ edges_sorted fedge /\ edges_nonnegative fedge /\ edges_finite fedge) /\
  match irun1 fedge [0] None 40 with (os, Ended _) => map (fun rep => (nr_vertex rep, nr_distance rep)) os = [(1, Some 1%Z); (2, Some 3%Z)] | _ => False end.
Proof. split; [exact fedge_ok|]. vm_compute. reflexivity. Qed.

(** C30, continued.  With build_paths: at each report, and ever after, the paths container delivers for the reported vertex a walk from a start vertex, whose weight is
    the reported distance; for start vertices it delivers the empty path.  ([delivers]: all methods of the container agree on that path; paths are unlabeled.) *)
Theorem C30_paths :
  forall {V : Type} (V_dec : forall a b : V, {a = b} + {a <> b}) (edge : V -> nat -> option (V * option Z))
    (DM : DMap V (option Z) None) (PM : PMap V V) (LM : PMap V unit) (DMi : DMap (V * nat) (option Z) None) (PMi : PMap (V * nat) (V * nat)) (LMi : PMap (V * nat) unit)
    (store_distances : bool) (starts : list V) lim n os r,
  edge_sequences edge -> edges_sorted edge -> edges_nonnegative edge -> NoDup starts ->
  inf_run V_dec edge DM PM DMi PMi LMi true store_distances starts lim n = (os, r) ->
  forall labels Q,
  (forall rep, In rep os -> exists s0 q, In s0 starts /\ wwalk ZInfWeights (inf_edge edge) s0 q (nr_vertex rep) /\ walk_weight ZInfWeights q = nr_distance rep /\
     delivers V_dec (fun v => v) PM LM (nr_pred rep) labels false Q (nr_vertex rep) (s0 :: map snd q) /\
     delivers V_dec (fun v => v) PM LM (n_pred (outcome_state r)) labels false Q (nr_vertex rep) (s0 :: map snd q)) /\
  (forall v, In v starts -> delivers V_dec (fun v => v) PM LM (n_pred (outcome_state r)) labels false Q v [v] /\
     forall rep, In rep os -> delivers V_dec (fun v => v) PM LM (nr_pred rep) labels false Q v [v]).
Proof.
  intros V V_dec edge DM PM LM DMi PMi LMi store_distances starts lim n os r H1 H2 H3 H4 HR.
  exact (inf_paths V_dec edge H1 H2 H3 DM PM DMi PMi LMi true store_distances starts H4 lim n os r HR eq_refl LM).
Qed.
Print Assumptions C30_paths.

Example C30_paths_example :
  let s := outcome_state (snd (irun1 iedge [0] None 60)) in
  iter_vertices_from_start Nat.eq_dec (fun v => v) hPM (n_pred s) 9 6 = POk [0; 3; 6].
Proof. vm_compute. reflexivity. Qed.

(** C30, continued.  Attribute distances.  With store_distances: at each time, it holds exactly the distances of the vertices reported so far, 0 for the start vertices, and
    infinity for others; when the traversal has ended, it holds the distances of the reachable vertices and nothing else.  Without: it is empty. *)
Theorem C30_stored_distances :
  forall {V : Type} (V_dec : forall a b : V, {a = b} + {a <> b}) (edge : V -> nat -> option (V * option Z))
    (DM : DMap V (option Z) None) (PM : PMap V V) (DMi : DMap (V * nat) (option Z) None) (PMi : PMap (V * nat) (V * nat)) (LMi : PMap (V * nat) unit)
    (build_paths store_distances : bool) (starts : list V) lim n os r,
  edge_sequences edge -> edges_sorted edge -> edges_nonnegative edge -> NoDup starts ->
  inf_run V_dec edge DM PM DMi PMi LMi build_paths store_distances starts lim n = (os, r) ->
  let E := inf_edge edge in
  let St := fun v => In v starts in
  let holds (D : dm_t DM) (reports : list (inf_report DM PM)) :=
    (forall rep, In rep reports -> dm_get DM (nr_vertex rep) D = nr_distance rep) /\
    (forall v, In v starts -> dm_get DM v D = Some 0%Z) /\
    (forall v, ~ In v starts -> ~ In v (map nr_vertex reports) -> dm_get DM v D = None) in
  (store_distances = true ->
    holds (n_distances (outcome_state r)) os /\
    (forall o1 rep o2, os = o1 ++ rep :: o2 -> holds (nr_distances rep) (o1 ++ [rep])) /\
    (forall s, r = Ended s -> forall v,
       (wreachable ZInfWeights E St v -> is_distance ZInfWeights E St v (dm_get DM v (n_distances s))) /\
       (~ wreachable ZInfWeights E St v -> dm_get DM v (n_distances s) = None))) /\
  (store_distances = false -> forall v, dm_get DM v (n_distances (outcome_state r)) = None /\ forall rep, In rep os -> dm_get DM v (nr_distances rep) = None).
Proof.
  intros V V_dec edge DM PM DMi PMi LMi build_paths store_distances starts lim n os r H1 H2 H3 H4 HR.
  exact (inf_stored V_dec edge H1 H2 H3 DM PM DMi PMi LMi build_paths store_distances starts H4 lim n os r HR).
Qed.
Print Assumptions C30_stored_distances.

Example C30_stored_distances_example :
  match irun1 fedge [0] None 40 with (_, Ended s) => map (fun v => dm_get hDMZ v (n_distances s)) [0; 1; 2; 3] = [Some 0%Z; Some 1%Z; Some 3%Z; None] | _ => False end.
Proof. vm_compute. reflexivity. Qed.

(** C75.  The neighbor function is called at most once for each vertex, and attribute distance then is the distance of the vertex.  Each element of an iterator is read once.
    Edges are read lazily: after edge number [j] of a vertex (and so possibly infinitely many further ones), the next one is only demanded if the way over
    edge [j] is not longer than the way to any vertex still to be reported.  When the traversal has ended, all edges of all reachable vertices have been read. *)
Theorem C75_lazy_reading :
  forall {V : Type} (V_dec : forall a b : V, {a = b} + {a <> b}) (edge : V -> nat -> option (V * option Z))
    (DM : DMap V (option Z) None) (PM : PMap V V) (DMi : DMap (V * nat) (option Z) None) (PMi : PMap (V * nat) (V * nat)) (LMi : PMap (V * nat) unit)
    (build_paths store_distances : bool) (starts : list V) lim n os r,
  edge_sequences edge -> edges_sorted edge -> edges_nonnegative edge -> NoDup starts ->
  inf_run V_dec edge DM PM DMi PMi LMi build_paths store_distances starts lim n = (os, r) ->
  let E := inf_edge edge in
  let St := fun v => In v starts in
  let calls := n_calls (outcome_state r) in
  let reads := n_reads (outcome_state r) in
  NoDup reads /\ NoDup (map fst calls) /\
  (forall v d, In (v, d) calls -> is_distance ZInfWeights E St v d) /\
  (forall v, In v (map fst calls) <-> In (v, 0) reads) /\
  (forall v j, In (v, S j) reads -> exists u b d, edge v j = Some (u, b) /\ is_distance ZInfWeights E St v d /\
     forall x dx, is_distance ZInfWeights E St x dx -> ~ In x starts -> ~ In x (map nr_vertex os) -> w_leb ZInfWeights (w_add ZInfWeights b d) dx = true) /\
  (forall s, r = Ended s -> forall v, wreachable ZInfWeights E St v -> In (v, 0) reads /\ forall k, edge v k <> None -> In (v, S k) reads).
Proof.
  intros V V_dec edge DM PM DMi PMi LMi build_paths store_distances starts lim n os r H1 H2 H3 H4 HR.
  exact (inf_reads V_dec edge H1 H2 H3 DM PM DMi PMi LMi build_paths store_distances starts H4 lim n os r HR).
Qed.
Print Assumptions C75_lazy_reading.

Example C75_example :
  let p := irun1 iedge [0] None 24 in
  map nr_vertex (fst p) = [1; 4] /\ rev (n_reads (outcome_state (snd p))) = [(0, 0); (0, 1); (1, 0); (1, 1); (4, 0); (4, 1)] /\
  rev (n_calls (outcome_state (snd p))) = [(0, Some 0%Z); (1, Some 1%Z); (4, Some 1%Z)].
Proof. vm_compute. auto. Qed.

(** C75, attribute distance.  From one pass to the next, the attribute only changes when a vertex is reported (then it is the reported distance) and when the neighbor function is
    called (then it is the distance noted with the call); reading further edges of vertices, and edges that lead to no report, leaves it unchanged. *)
Theorem C75_distance_attribute :
  forall {V : Type} (V_dec : forall a b : V, {a = b} + {a <> b}) (edge : V -> nat -> option (V * option Z))
    (DM : DMap V (option Z) None) (PM : PMap V V) (DMi : DMap (V * nat) (option Z) None) (PMi : PMap (V * nat) (V * nat)) (LMi : PMap (V * nat) unit)
    (build_paths store_distances : bool) (starts : list V) lim n os s os' r',
  inf_run V_dec edge DM PM DMi PMi LMi build_paths store_distances starts lim n = (os, Running s) ->
  inf_run V_dec edge DM PM DMi PMi LMi build_paths store_distances starts lim (S n) = (os', r') ->
  exists calls out, n_calls (outcome_state r') = calls ++ n_calls s /\ os' = os ++ out /\
    match calls, out with
    | [], [] => n_distance (outcome_state r') = n_distance s
    | [], [rep] => n_distance (outcome_state r') = nr_distance rep
    | [(v, d)], _ => n_distance (outcome_state r') = d /\ length out <= 1
    | _, _ => False
    end.
Proof.
  intros V V_dec edge DM PM DMi PMi LMi build_paths store_distances starts lim n os s os' r' H1 H2.
  exact (inf_attribute V_dec edge DM PM DMi PMi LMi build_paths store_distances starts lim n os s os' r' H1 H2).
Qed.
Print Assumptions C75_distance_attribute.

Example C75_distance_attribute_example :
  map (fun n => n_distance (outcome_state (snd (irun1 iedge [0] None n)))) [0; 1; 4; 8; 12; 24] = [None; Some 0%Z; Some 0%Z; Some 0%Z; Some 1%Z; Some 1%Z].
Proof. vm_compute. auto. Qed.

(** C05 for infinite branching: with a limit of [c], at most [c] elements are demanded from the iterators; up to that, the traversal is the one without limit; when one more would
    be needed, RuntimeError is raised, and only then. *)
Theorem C05_infinite_branching_calculation_limit :
  forall {V : Type} (V_dec : forall a b : V, {a = b} + {a <> b}) (edge : V -> nat -> option (V * option Z))
    (DM : DMap V (option Z) None) (PM : PMap V V) (DMi : DMap (V * nat) (option Z) None) (PMi : PMap (V * nat) (V * nat)) (LMi : PMap (V * nat) unit)
    (build_paths store_distances : bool) (starts : list V) (c : Z) n os r os' r',
  edge_sequences edge -> edges_sorted edge -> edges_nonnegative edge -> NoDup starts -> (0 <= c)%Z ->
  inf_run V_dec edge DM PM DMi PMi LMi build_paths store_distances starts None n = (os, r) ->
  inf_run V_dec edge DM PM DMi PMi LMi build_paths store_distances starts (Some c) n = (os', r') ->
  (Z.of_nat (length (n_reads (outcome_state r'))) <= c)%Z /\
  ((Z.of_nat (length (n_reads (outcome_state r))) <= c)%Z -> os' = os /\ outcome_map (inf_forget_limit DM PM DMi PMi LMi) r' = r) /\
  ((c < Z.of_nat (length (n_reads (outcome_state r))))%Z ->
     (exists s', r' = Raised RuntimeErrorLimit s') /\
     Z.of_nat (length (n_reads (outcome_state r'))) = c /\ exists ext, os = os' ++ ext).
Proof.
  intros V V_dec edge DM PM DMi PMi LMi build_paths store_distances starts c n os r os' r' H1 H2 H3 H4 Hc.
  exact (inf_limit_reads V_dec edge DM PM DMi PMi LMi build_paths store_distances H1 H2 H3 starts c n os r os' r' H4 Hc).
Qed.
Print Assumptions C05_infinite_branching_calculation_limit.

Example C05_infinite_branching_example :
  match irun1 iedge [0] (Some 5%Z) 100 with (os, Raised RuntimeErrorLimit s) => map nr_vertex os = [1; 4] /\ length (n_reads s) = 5 | _ => False end.
Proof. vm_compute. auto. Qed.

(** C76.  In a graph with finitely many reachable vertices and edges and finite weights, a complete traversal stays within the limit if and only if the limit is at least the number of
    reachable vertices plus the number of their edges; then, the limit changes nothing. *)
Theorem C76_limit_is_vertices_plus_edges :
  forall {V : Type} (V_dec : forall a b : V, {a = b} + {a <> b}) (edge : V -> nat -> option (V * option Z))
    (DM : DMap V (option Z) None) (PM : PMap V V) (DMi : DMap (V * nat) (option Z) None) (PMi : PMap (V * nat) (V * nat)) (LMi : PMap (V * nat) unit)
    (build_paths store_distances : bool) (starts lv : list V) (le : list (V * nat)) (c : Z),
  edge_sequences edge -> edges_sorted edge -> edges_nonnegative edge -> NoDup starts ->
  finite_graph edge starts lv le -> edges_finite edge -> (0 <= c)%Z ->
  let run_ := inf_run V_dec edge DM PM DMi PMi LMi build_paths store_distances starts in
  exists n os s, run_ None n = (os, Ended s) /\
    ((Z.of_nat (length lv + length le) <= c)%Z -> exists s', run_ (Some c) n = (os, Ended s') /\ inf_forget_limit DM PM DMi PMi LMi s' = s) /\
    ((c < Z.of_nat (length lv + length le))%Z -> exists os' s', run_ (Some c) n = (os', Raised RuntimeErrorLimit s') /\ exists ext, os = os' ++ ext).
Proof.
  intros V V_dec edge DM PM DMi PMi LMi build_paths store_distances starts lv le c H1 H2 H3 H4.
  exact (inf_limit_count V_dec edge H1 H2 H3 DM PM DMi PMi LMi build_paths store_distances starts H4 lv le c).
Qed.
Print Assumptions C76_limit_is_vertices_plus_edges.

Example C76_example :
  finite_graph fedge [0] [0; 1; 2] [(0, 0); (0, 1); (1, 0); (1, 1)] /\
  match irun1 fedge [0] (Some 7%Z) 40 with (_, Ended _) => True | _ => False end /\
  match irun1 fedge [0] (Some 6%Z) 40 with (_, Raised RuntimeErrorLimit _) => True | _ => False end.
Proof.
  split; [|vm_compute; auto]. unfold finite_graph. split; [repeat constructor; simpl; intuition congruence|]. split; [repeat constructor; simpl; intuition congruence|].
  assert (HR : forall v, In v [0; 1; 2] <-> wreachable ZInfWeights (inf_edge fedge) (fun s => In s [0]) v).
  { intros v. split.
    - intros [<-|[<-|[<-|[]]]].
      + exists 0, []. split; [now left|constructor].
      + exists 0, [(Some 1%Z, 1)]. split; [now left|]. econstructor; [now exists 0|constructor].
      + exists 0, [(Some 4%Z, 2)]. split; [now left|]. econstructor; [now exists 1|constructor].
    - assert (G : forall a p c, wwalk ZInfWeights (inf_edge fedge) a p c -> In a [0; 1; 2] -> In c [0; 1; 2]).
      { intros a p c Hp. induction Hp as [|a w b p c HE Hw IH]; auto. intros _. apply IH.
        destruct HE as (k & Hk). destruct a as [|[|a]], k as [|[|k]]; try discriminate; injection Hk as <- _; simpl; auto. }
      intros (s & p & [<-|[]] & Hp). apply (G _ _ _ Hp). now left. }
  split; [exact HR|]. intros v k. rewrite <- HR. split.
  - intros H. destruct H as [H|[H|[H|[H|[]]]]]; injection H as <- <-; (split; [simpl; auto|discriminate]).
  - intros [[<-|[<-|[<-|[]]]] Hk]; destruct k as [|[|k]]; simpl in *; auto; congruence.
Qed.

(** C77.  The documentation says that the limit is the maximal number of vertices and edges, in sum, that are read from the graph.  In an infinite traversal, more are read:
    with a limit of 2, the edges of a vertex have been demanded and 2 of them have been read, and no error has been raised. *)
Theorem C77_limit_bounds_vertices_and_edges_refuted :
  exists (edge : nat -> nat -> option (nat * option Z)) (c : Z) n os s,
    edge_sequences edge /\ edges_sorted edge /\ edges_nonnegative edge /\ edges_finite edge /\
    irun1 edge [0] (Some c) n = (os, Running s) /\
    (c < Z.of_nat (length (n_calls s) + length (filter (fun e => match edge (fst e) (snd e) with Some _ => true | None => false end) (n_reads s))))%Z.
Proof.
  exists iedge, 2%Z, 7. eexists _, _. split; [apply iedge_ok|]. split; [apply iedge_ok|]. split; [apply iedge_ok|]. split.
  - intros v k u w. unfold iedge. destruct (Nat.even v); [intros [= <- <-]; discriminate|]. destruct k as [|[|k]]; try discriminate; intros [= <- <-]; discriminate.
  - split; [vm_compute; reflexivity|]. vm_compute. reflexivity.
Qed.
Print Assumptions C77_limit_bounds_vertices_and_edges_refuted.

(** C43 for infinite branching: two gears, for results and for internal collections, lead to the same reports and the same contents of the collections. *)
Theorem C43_infinite_branching_gear_independent :
  forall {V : Type} (V_dec : forall a b : V, {a = b} + {a <> b}) (edge : V -> nat -> option (V * option Z))
    (DM1 DM2 : DMap V (option Z) None) (PM1 PM2 : PMap V V) (DMi1 DMi2 : DMap (V * nat) (option Z) None) (PMi1 PMi2 : PMap (V * nat) (V * nat)) (LMi1 LMi2 : PMap (V * nat) unit)
    (build_paths store_distances : bool) (starts : list V) lim n,
  let p1 := inf_run V_dec edge DM1 PM1 DMi1 PMi1 LMi1 build_paths store_distances starts lim n in
  let p2 := inf_run V_dec edge DM2 PM2 DMi2 PMi2 LMi2 build_paths store_distances starts lim n in
  Forall2 (inf_same_report DM1 DM2 PM1 PM2) (fst p1) (fst p2) /\
  outcome_rel (inf_same_state DM1 DM2 PM1 PM2 DMi1 DMi2 PMi1 PMi2 LMi1 LMi2) (snd p1) (snd p2).
Proof.
  intros V V_dec edge DM1 DM2 PM1 PM2 DMi1 DMi2 PMi1 PMi2 LMi1 LMi2 build_paths store_distances starts lim n.
  exact (inf_gear V_dec edge DM1 DM2 PM1 PM2 DMi1 DMi2 PMi1 PMi2 LMi1 LMi2 build_paths store_distances starts lim n).
Qed.
Print Assumptions C43_infinite_branching_gear_independent.

Example C43_infinite_branching_example :
  map nr_vertex (fst (irun1 iedge [0] None 40)) = map nr_vertex (fst (inf_run Nat.eq_dec iedge hDMZ bPM sDM sPM sLM true true [0] None 40)) /\
  3 < length (fst (irun1 iedge [0] None 40)).
Proof. vm_compute. split; [reflexivity|lia]. Qed.
