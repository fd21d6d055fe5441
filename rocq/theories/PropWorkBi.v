(** Property "work that is linear in what is read, for bidirectional searches and infinite branching": C105. A pass of the loops is the unit of work. *)
From Coq Require Import List Arith ZArith Lia.
From Verif Require Import Machine GearSpec Spec TraversalSpec Common Weight WeightSpec BFSModel BiBFSModel BiSpec BiReadSpec BiSPModel BiSPSpec InfModel InfSpec WorkSpec WorkBiSpec WorkBi
  Examples BiExamples BiSPExamples PropBiRead PropInf.
Import ListNotations.

(** C105, BSearchBreadthFirst.  (1) A search that is still running has done work linear in the edges of the vertices it has called the neighbor functions for.  (2) Let [ids_f] contain the vertices that are nearer
    to the start vertices than half of each way to a goal, and [ids_b] the same for the goals: then the search ends within work linear in these vertices and their edges, however large the rest of the
    graph is; each of these vertices counts only once. *)
Theorem C105_bidirectional_breadth_first_work :
  forall {V I L : Type} (V_dec : forall a b : V, {a = b} + {a <> b}) (I_dec : forall a b : I, {a = b} + {a <> b}) (vid : V -> I)
    (VS : VSet I) (PM : PMap I V) (LM : PMap I L) (next_f next_b : V -> list (V * L)) (labeled build_path fail_silently : bool) (starts goals : list V) (lim : option Z),
  let search := bb_run V_dec I_dec vid VS PM LM next_f next_b labeled build_path fail_silently starts goals lim in
  (forall n os s, search n = (os, Running s) -> n <= 2 + work next_f 1 4 (read_forwards s) + work next_b 1 4 (read_backwards s)) /\
  (forall (E : I -> I -> Prop) (deg_f deg_b : I -> nat) (ids_f ids_b : list I),
     presents vid next_f E -> presents vid next_b (fun i j => E j i) ->
     (forall v, length (next_f v) <= deg_f (vid v)) -> (forall v, length (next_b v) <= deg_b (vid v)) ->
     (forall s p i, is_start vid starts s -> walk E s p i -> (forall l, connection vid E starts goals l -> 2 * length p < l) -> In i ids_f) ->
     (forall g p i, is_start vid goals g -> walk (fun i j => E j i) g p i -> (forall l, connection vid E starts goals l -> 2 * length p + 1 < l) -> In i ids_b) ->
     forall n os r, search n = (os, r) ->
     2 + work next_f 1 4 starts + graph_work deg_f 1 4 ids_f + work next_b 1 4 goals + graph_work deg_b 1 4 ids_b < n -> forall s, r <> Running s).
Proof.
  exact (fun V I L V_dec I_dec vid VS PM LM next_f next_b labeled build_path fail_silently starts goals lim => conj
    (fun n os s => bb_work V_dec I_dec vid VS PM LM next_f next_b labeled build_path fail_silently starts goals lim n os s)
    (fun E deg_f deg_b ids_f ids_b Hf Hb Df Db If Ib n os r => bb_work_graph V_dec I_dec vid VS PM LM next_f next_b labeled build_path fail_silently E starts goals deg_f deg_b ids_f ids_b lim n os r Hf Hb Df Db If Ib)).
Qed.
Print Assumptions C105_bidirectional_breadth_first_work.

(** C105, BSearchShortestPath.  (1) As before; each start and goal vertex counts once more.  (2) With at most [d_f] and [d_b] edges per vertex, the search ends within work linear in the number of vertices
    that are not farther away than some path from a start to a goal is long (or that can be reached at all, see [covered]). *)
Theorem C105_bidirectional_shortest_path_work :
  forall {V I L : Type} (V_dec : forall a b : V, {a = b} + {a <> b}) (I_dec : forall a b : I, {a = b} + {a <> b}) (vid : V -> I)
    (WT : Weights) (DM : DMap I (w_t WT) (w_inf WT)) (PM : PMap I V) (LM : PMap I L) (next_f next_b : V -> list (V * w_t WT * L)) (labeled build_path fail_silently : bool)
    (starts goals : list V) (lim : option Z),
  let search := b2_run V_dec I_dec vid WT DM PM LM next_f next_b labeled build_path fail_silently starts goals lim in
  (forall n os s, search n = (os, Running s) -> exists s', s = Some s' /\
     n <= length starts + length goals + work next_f 2 1 (asked_forwards s') + work next_b 2 1 (asked_backwards s')) /\
  (forall (E : I -> w_t WT -> I -> Prop) (d_f d_b : nat) (ids_f ids_b : list I),
     exact_addition WT -> presents_weighted WT vid next_f E -> presents_weighted WT vid next_b (fun i w j => E j w i) -> nonnegative WT E ->
     (forall v, length (next_f v) <= d_f) -> (forall v, length (next_b v) <= d_b) ->
     covered vid WT E (wconnection vid WT E starts goals) starts ids_f -> covered vid WT (fun i w j => E j w i) (wconnection vid WT E starts goals) goals ids_b ->
     forall n os r, search n = (os, r) ->
     length starts + length goals + (2 * d_f + 1) * (length ids_f + length starts) + (2 * d_b + 1) * (length ids_b + length goals) < n -> forall s, r <> Running s).
Proof.
  exact (fun V I L V_dec I_dec vid WT DM PM LM next_f next_b labeled build_path fail_silently starts goals lim => b2_work_final V_dec I_dec vid WT DM PM LM next_f next_b labeled build_path fail_silently starts goals lim).
Qed.
Print Assumptions C105_bidirectional_shortest_path_work.

(** C105, TraversalShortestPathsInfBranchingSorted.  (1) Work is linear in the number of elements read from the iterators of edges.  (2) In a finite graph, it is linear in the number of vertices and edges. *)
Theorem C105_infinite_branching_work :
  forall {V : Type} (V_dec : forall a b : V, {a = b} + {a <> b}) (edge : V -> nat -> option (V * option Z))
    (DM : DMap V (option Z) None) (PM : PMap V V) (DMi : DMap (V * nat) (option Z) None) (PMi : PMap (V * nat) (V * nat)) (LMi : PMap (V * nat) unit)
    (build_paths store_distances : bool) (starts : list V) (lim : option Z) n os s,
  inf_run V_dec edge DM PM DMi PMi LMi build_paths store_distances starts lim n = (os, Running s) ->
  n <= length starts + 5 * length (n_reads s) /\
  (forall lv le, edge_sequences edge -> edges_sorted edge -> edges_nonnegative edge -> NoDup starts -> finite_graph edge starts lv le ->
     n <= length starts + 5 * (length lv + length le)).
Proof.
  exact (fun V V_dec edge DM PM DMi PMi LMi build_paths store_distances starts lim n os s HR => conj
    (inf_work V_dec edge DM PM DMi PMi LMi build_paths store_distances starts lim n os s HR)
    (fun lv le H1 H2 H3 H4 H5 => inf_work_graph V_dec edge DM PM DMi PMi LMi build_paths store_distances starts lv le lim n os s H1 H2 H3 H4 H5 HR)).
Qed.
Print Assumptions C105_infinite_branching_work.

(** The infinite binary tree: of the infinitely many vertices, three are read in one direction and two in the other. *)
Example C105_nonvacuous_bfs :
  presents id_nat inf_next (graph_of inf_next) /\ presents id_nat up_next (fun i j => graph_of inf_next j i) /\
  (forall v, length (inf_next v) <= 2) /\ (forall v, length (up_next v) <= 1) /\
  (forall s p i, is_start id_nat [0] s -> walk (graph_of inf_next) s p i -> (forall l, connection id_nat (graph_of inf_next) [0] [21] l -> 2 * length p < l) -> In i [0; 1; 2]) /\
  (forall g p i, is_start id_nat [21] g -> walk (fun i j => graph_of inf_next j i) g p i -> (forall l, connection id_nat (graph_of inf_next) [0] [21] l -> 2 * length p + 1 < l) -> In i [21; 10]) /\
  2 + work inf_next 1 4 [0] + graph_work (fun _ => 2) 1 4 [0; 1; 2] + work up_next 1 4 [21] + graph_work (fun _ => 1) 1 4 [21; 10] = 41 /\
  (exists s, snd (bb_run Nat.eq_dec Nat.eq_dec id_nat hVS hPM hPM inf_next up_next false true false [0] [21] None 42) = Ended s) /\
  (exists s, snd (bb_run Nat.eq_dec Nat.eq_dec id_nat hVS hPM hPM inf_next up_next false true false [0] [21] None 12) = Running s).
Proof.
  split; [apply presents_graph_of|]. split; [exact up_next_presents|]. split; [intros v; cbn; lia|]. split; [intros [|v]; cbn; lia|].
  assert (Hc : connection id_nat (graph_of inf_next) [0] [21] 4).
  { exists 0, [1; 4; 10; 21], 21. split; [now left|]. split; [now left|]. split; [|reflexivity].
    repeat (eapply walk_cons; [vm_compute; intuition|]). constructor. }
  split.
  - intros s p i [<-|[]] W Hp. specialize (Hp 4 Hc). destruct p as [|j [|k p]]; cbn [length] in Hp; [inversion W; subst; now left| |lia].
    inversion W as [|? ? ? ? HE W']; subst. inversion W'; subst. vm_compute in HE. vm_compute. tauto.
  - split.
    + intros g p i [<-|[]] W Hp. specialize (Hp 4 Hc). destruct p as [|j [|k p]]; cbn [length] in Hp; [inversion W; subst; now left| |lia].
      inversion W as [|? ? ? ? HE W']; subst. inversion W'; subst. unfold graph_of, inf_next in HE. cbn [map fst In] in HE. cbn in HE. right; left. lia.
    + split; [reflexivity|]. split; eexists; vm_compute; reflexivity.
Qed.

(** An infinite path with edges of weight 3 *)
Definition path_next (v : nat) : list (nat * option Z * unit) := [(S v, Some 3%Z, tt)].
Definition path_back (v : nat) : list (nat * option Z * unit) := match v with 0 => [] | S u => [(u, Some 3%Z, tt)] end.
Definition path_edge (i : nat) (w : option Z) (j : nat) : Prop := w = Some 3%Z /\ j = S i.
Example C105_nonvacuous_shortest_path :
  exact_addition ZI /\ presents_weighted ZI id_nat path_next path_edge /\ presents_weighted ZI id_nat path_back (fun i w j => path_edge j w i) /\ nonnegative ZI path_edge /\
  (forall v, length (path_next v) <= 1) /\ (forall v, length (path_back v) <= 1) /\
  covered id_nat ZI path_edge (wconnection id_nat ZI path_edge [0] [2]) [0] [0; 1; 2] /\
  covered id_nat ZI (fun i w j => path_edge j w i) (wconnection id_nat ZI path_edge [0] [2]) [2] [0; 1; 2] /\
  (exists s, snd (b2_run Nat.eq_dec Nat.eq_dec id_nat ZI hDMZ hPM hPM path_next path_back false true false [0] [2] None 27) = Ended s) /\
  (exists s, snd (b2_run Nat.eq_dec Nat.eq_dec id_nat ZI hDMZ hPM hPM path_next path_back false true false [0] [2] None 5) = Running s).
Proof.
  split; [exact ZInfWeights_exact|]. split.
  { intros u w j. unfold path_next, path_edge. cbn [map fst snd In]. split; [intros [H|[]]; injection H as <- <-; auto|]. intros (-> & ->). now left. }
  split. { intros u w j. unfold path_back, path_edge. destruct u as [|u]; cbn [map fst snd In]; [split; [tauto|intros (_ & H); discriminate]|]. split; [intros [H|[]]; injection H as <- <-; auto|].
    intros (-> & H). injection H as <-. now left. }
  split; [intros i w j (-> & _); reflexivity|]. split; [intros v; cbn; lia|]. split; [intros [|v]; cbn; lia|]. split; [|split].
  - right. exists (Some 6%Z). split.
    + exists 0, [(Some 3%Z, 1); (Some 3%Z, 2)], 2. split; [now left|]. split; [now left|]. split; [|reflexivity]. repeat (eapply wwalk_cons; [split; reflexivity|]). constructor.
    + intros s p i [<-|[]] W Hp. inversion W as [|? ? ? ? ? (-> & ->) W1]; subst; [now left|]. inversion W1 as [|? ? ? ? ? (-> & ->) W2]; subst; [now (right; left)|].
      inversion W2 as [|? ? ? ? ? (-> & ->) W3]; subst; [now (right; right; left)|]. exfalso.
      assert (G : forall a q b, wwalk ZI path_edge a q b -> forall d, (9 <= d)%Z -> exists d', fold_left (fun d e => w_add ZI (fst e) d) q (Some d) = Some d' /\ (9 <= d')%Z).
      { clear. intros a q b H. induction H as [|a w b q c (-> & _) H IH]; intros d Hd; [exists d; auto|]. cbn [fold_left fst]. apply IH. lia. }
      unfold walk_weight in Hp. cbn [fold_left fst] in Hp. destruct (G _ _ _ W3 9%Z) as (d' & K1 & K2); [lia|]. cbn [w_add ZI ZInfWeights zi_add w_zero] in Hp. cbn in K1, Hp. rewrite K1 in Hp. cbn in Hp. apply Z.leb_le in Hp. lia.
  - left. intros i (s & p & [<-|[]] & W). assert (i <= 2); [|destruct i as [|[|[|i]]]; cbn; auto; lia].
    assert (G : forall a q b, wwalk ZI (fun i w j => path_edge j w i) a q b -> b <= a) by (intros a q b H; induction H as [|a w b q c (_ & ->) H IH]; lia).
    exact (G _ _ _ W).
  - split; eexists; vm_compute; reflexivity.
Qed.

Example C105_nonvacuous_infinite :
  match irun1 iedge [0] None 24 with (os, Running s) => (map nr_vertex os, length (n_reads s)) = ([1; 4], 6) | _ => False end.
Proof. vm_compute. reflexivity. Qed.
