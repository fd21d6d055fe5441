(** C122, continued: the order of edges and start vertices does not influence the results of A* and of infinite branching.
    - A* with a consistent heuristic: the two runs may even use two different consistent heuristics.  When both have ended, the same vertices have been
      reported with the same path lengths.
    - Infinite branching: two functions give the same edges, each sorted by weight (so, edges of equal weight may come in another order, or more than once).  When both have ended,
      the same vertices have been reported with the same distances, and the sequences of distances are equal. *)
From Coq Require Import List ZArith Bool Arith Lia Permutation.
From Verif Require Import Machine GearSpec Spec TraversalSpec Common Weight WeightSpec AStarSpec AStarModel InfModel InfSpec OrderMore Examples AStarExamples PropOrder.
From Verif Require PropInf.
Import ListNotations.

Theorem C122_a_star_order :
  forall {V I L : Type} (V_dec : forall a b : V, {a = b} + {a <> b}) (I_dec : forall a b : I, {a = b} + {a <> b}) (vid : V -> I) (WT : Weights)
    (DM : DMap I (w_t WT) (w_inf WT)) (PM : PMap I V) (LM : PMap I L) (next1 next2 : V -> list (V * w_t WT * L)) (E : I -> w_t WT -> I -> Prop) (starts1 starts2 : list V),
  presents_weighted WT vid next1 E -> presents_weighted WT vid next2 E -> (forall i, In i (map vid starts1) <-> In i (map vid starts2)) ->
  forall heuristic1 heuristic2 h1 h2 c1 c2 lim1 lim2 n1 n2 os1 os2 s1 s2, nonnegative WT E -> exact WT ->
  (forall v, heuristic1 v = h1 (vid v)) -> consistent WT E h1 -> finite_estimates WT h1 ->
  (forall v, heuristic2 v = h2 (vid v)) -> consistent WT E h2 -> finite_estimates WT h2 ->
  ac_is_tree c1 = false -> ac_is_tree c2 = false ->
  ast_run vid WT DM PM LM next1 c1 heuristic1 starts1 None None lim1 n1 = (os1, Ended s1) ->
  ast_run vid WT DM PM LM next2 c2 heuristic2 starts2 None None lim2 n2 = (os2, Ended s2) ->
  Permutation (map (fun rep => (vid (ar_vertex rep), ar_path_length rep)) os1) (map (fun rep => (vid (ar_vertex rep), ar_path_length rep)) os2).
Proof. exact @ast_order_same. Qed.
Print Assumptions C122_a_star_order.

Theorem C122_infinite_branching_order :
  forall {V : Type} (V_dec : forall a b : V, {a = b} + {a <> b}) (edge1 edge2 : V -> nat -> option (V * option Z))
    (DM : DMap V (option Z) None) (PM : PMap V V) (DMi : DMap (V * nat) (option Z) None) (PMi : PMap (V * nat) (V * nat)) (LMi : PMap (V * nat) unit)
    (starts1 starts2 : list V) bp1 bp2 st1 st2 lim1 lim2 n1 n2 os1 os2 s1 s2,
  edge_sequences edge1 -> edges_sorted edge1 -> edges_nonnegative edge1 -> NoDup starts1 ->
  edge_sequences edge2 -> edges_sorted edge2 -> edges_nonnegative edge2 -> NoDup starts2 ->
  (forall v w u, inf_edge edge1 v w u <-> inf_edge edge2 v w u) -> (forall v, In v starts1 <-> In v starts2) ->
  inf_run V_dec edge1 DM PM DMi PMi LMi bp1 st1 starts1 lim1 n1 = (os1, Ended s1) ->
  inf_run V_dec edge2 DM PM DMi PMi LMi bp2 st2 starts2 lim2 n2 = (os2, Ended s2) ->
  Permutation (map (fun rep => (nr_vertex rep, nr_distance rep)) os1) (map (fun rep => (nr_vertex rep, nr_distance rep)) os2) /\
  map nr_distance os1 = map nr_distance os2.
Proof. exact @inf_order. Qed.
Print Assumptions C122_infinite_branching_order.

(** Two heuristics, and two orders *)
Lemma zero_consistent : consistent ZI (@wgraph_of nat ZI as_next) (fun _ => Some 0%Z).
Proof. intros i w j H. pose proof (as_next_nonneg i w j H) as N. destruct w as [w|]; [|reflexivity]. cbn in *. rewrite Z.add_0_r. exact N. Qed.
Example C122_example_a_star : presents_weighted ZI id_nat as_next (@wgraph_of nat ZI as_next) /\ presents_weighted ZI id_nat (turned as_next) (@wgraph_of nat ZI as_next) /\
  nonnegative ZI (@wgraph_of nat ZI as_next) /\ exact ZI /\
  consistent ZI (@wgraph_of nat ZI as_next) as_hc /\ finite_estimates ZI as_hc /\ consistent ZI (@wgraph_of nat ZI as_next) (fun _ => Some 0%Z) /\ finite_estimates ZI (fun _ : nat => Some 0%Z) /\
  match ast_run id_nat ZI hDMZ bPM bPM as_next ast_default as_hc [0] None None None 60, ast_run id_nat ZI hDMZ bPM bPM (turned as_next) ast_default (fun _ => Some 0%Z) [0; 0] None None None 60 with
  | (os1, Ended _), (os2, Ended _) => length os1 = 4 /\ length os2 = 4
  | _, _ => False
  end.
Proof.
  split; [apply presents_wgraph_of|]. split; [apply turned_presents_weighted, presents_wgraph_of|]. split; [exact as_next_nonneg|]. split; [exact exact_ZInfWeights|].
  split; [exact as_hc_consistent|]. split; [exact as_hc_finite|]. split; [exact zero_consistent|]. split; [intros i; reflexivity|]. vm_compute. auto.
Qed.

(** Edges of equal weight in another order, and one edge twice *)
Definition edge_a (v k : nat) : option (nat * option Z) :=
  match v, k with 0, 0 => Some (1, Some 1%Z) | 0, 1 => Some (2, Some 1%Z) | 1, 0 => Some (3, Some 2%Z) | 2, 0 => Some (3, Some 3%Z) | _, _ => None end.
Definition edge_b (v k : nat) : option (nat * option Z) :=
  match v, k with 0, 0 => Some (2, Some 1%Z) | 0, 1 => Some (1, Some 1%Z) | 1, 0 => Some (3, Some 2%Z) | 1, 1 => Some (3, Some 2%Z) | 2, 0 => Some (3, Some 3%Z) | _, _ => None end.
Lemma edge_a_ok : edge_sequences edge_a /\ edges_sorted edge_a /\ edges_nonnegative edge_a.
Proof.
  split; [|split].
  - intros [|[|[|v]]] [|[|k]]; simpl; congruence.
  - intros [|[|[|v]]] [|[|k]] u a u' b; simpl; try discriminate; intros [= <- <-] [= <- <-]; reflexivity.
  - intros [|[|[|v]]] [|[|k]] u w; simpl; try discriminate; intros [= <- <-]; reflexivity.
Qed.
Lemma edge_b_ok : edge_sequences edge_b /\ edges_sorted edge_b /\ edges_nonnegative edge_b.
Proof.
  split; [|split].
  - intros [|[|[|v]]] [|[|k]]; simpl; congruence.
  - intros [|[|[|v]]] [|[|k]] u a u' b; simpl; try discriminate; intros [= <- <-] [= <- <-]; reflexivity.
  - intros [|[|[|v]]] [|[|k]] u w; simpl; try discriminate; intros [= <- <-]; reflexivity.
Qed.
Lemma edges_same v w u : inf_edge edge_a v w u <-> inf_edge edge_b v w u.
Proof.
  split; intros [k H]; destruct v as [|[|[|v]]]; destruct k as [|[|k]]; simpl in H; try discriminate; injection H as <- <-;
    solve [exists 0; reflexivity | exists 1; reflexivity].
Qed.
Example C122_example_infinite_branching : (edge_sequences edge_a /\ edges_sorted edge_a /\ edges_nonnegative edge_a) /\ (edge_sequences edge_b /\ edges_sorted edge_b /\ edges_nonnegative edge_b) /\
  (forall v w u, inf_edge edge_a v w u <-> inf_edge edge_b v w u) /\
  match PropInf.irun1 edge_a [0] None 60, PropInf.irun1 edge_b [0] None 60 with
  | (os1, Ended _), (os2, Ended _) => map (fun rep => (nr_vertex rep, nr_distance rep)) os1 = [(2, Some 1%Z); (1, Some 1%Z); (3, Some 3%Z)] /\
                                      map (fun rep => (nr_vertex rep, nr_distance rep)) os2 = [(1, Some 1%Z); (2, Some 1%Z); (3, Some 3%Z)]
  | _, _ => False
  end.
Proof. split; [exact edge_a_ok|]. split; [exact edge_b_ok|]. split; [exact edges_same|]. vm_compute. auto. Qed.
