(** Property C119: TraversalShortestPathsInfBranchingSorted with floats. *)
From Coq Require Import List ZArith Bool Arith Lia Sorted SpecFloat.
From Verif Require Import Machine GearSpec GearProofs Spec Common Weight WeightSpec DijkstraModel FloatModel SignedFloat InfModel InfSpec InfNumModel InfFloatSpec InfFloat InfFloatExamples Examples PropInf.
Import ListNotations.
Local Open Scope nat_scope.

(** The property for floats, with sorted edges of non-negative weight: no vertex is reported twice, distances are reported in ascending order, and no distance is larger than the weight of
    an edge from a start vertex to the vertex.  Each of these parts is false for Python's floats. *)
Theorem C119_float_infinite_branching_refuted :
  exists (edge : nat -> nat -> option (nat * w_t PySigned)) (n : nat),
  (forall v k, edge v k = None -> edge v (S k) = None) /\
  (forall v k u a u' b, edge v k = Some (u, a) -> edge v (S k) = Some (u', b) -> w_leb PySigned a b = true) /\
  (forall v k u a, edge v k = Some (u, a) -> w_leb PySigned (w_zero PySigned) a = true) /\
  let p := num_run Nat.eq_dec PySigned (s_sub 53 py_largest) edge fs_DM fs_PM fs_LM [0] None n in
  match snd p with Ended _ => True | _ => False end /\
  ~ NoDup (map fst (fst p)) /\
  ~ StronglySorted (fun p q => w_leb PySigned (snd p) (snd q) = true) (fst p) /\
  exists v k w b, In (v, w) (fst p) /\ edge 0 k = Some (v, b) /\ w_leb PySigned w b = false.
Proof.
  exists rounded_edge, 40. destruct rounded_edge_ok as (H1 & H2 & H3). split; [exact H1|]. split; [exact H2|]. split; [exact H3|]. cbv zeta.
  set (p := num_run Nat.eq_dec PySigned (s_sub 53 py_largest) rounded_edge fs_DM fs_PM fs_LM [0] None 40).
  assert (E0 : match snd p with Ended _ => True | _ => False end) by (vm_compute; exact Logic.I).
  assert (E1 : map fst (fst p) = [1; 3; 3; 2]) by (vm_compute; reflexivity).
  assert (E2 : match fst p with [_; a; b; _] => w_leb PySigned (snd a) (snd b) | _ => true end = false) by (vm_compute; reflexivity).
  assert (E3 : match fst p with [_; _; _; c] => w_leb PySigned (snd c) (sf 4503599627370499 0) | _ => true end = false) by (vm_compute; reflexivity).
  split; [exact E0|]. split; [|split].
  - rewrite E1. intros H. inversion H as [|? ? _ H']. inversion H' as [|? ? H'' _]. apply H''. left. reflexivity.
  - clearbody p. destruct (fst p) as [|x [|a [|b [|c [|d l]]]]]; try discriminate E1. intros H. inversion H as [|? ? H' _]. inversion H' as [|? ? _ H'']. inversion H'' as [|? ? Hab _]. congruence.
  - clearbody p. destruct (fst p) as [|x [|a [|b [|[u w] [|d l]]]]]; try discriminate E1. injection E1 as _ _ _ E1. cbn [fst] in E1. subst u. cbn [snd] in E3.
    exists 2, 1, w, (sf 4503599627370499 0). split; [right; right; right; now left|]. split; [reflexivity|exact E3].
Qed.
Print Assumptions C119_float_infinite_branching_refuted.

(** What holds.  If all weights are multiples of 2^j of the unit, and for each edge that a run with exact numbers takes from an iterator, the sum of the distance of its vertex and
    its weight is below 2^(prec + j) and not too large for a float: the run with floats reports no vertex twice and no start vertex, it reports in ascending order, each reported distance is the
    exact distance, and when it has ended, all reachable vertices have been reported.  For all graphs, gears, distinct start vertices, limits, numbers [n] of passes, and float formats.
    The gears [DMr] to [LMi] are those of the run with exact numbers.  Missing: what holds if sums need more bits; by the theorem above, the claim is then false. *)
Theorem C119_float_infinite_branching_partial :
  forall {V : Type} (V_dec : forall a b : V, {a = b} + {a <> b}) prec largest (Hprec : (1 <= prec)%Z) (Hlarge : (0 <= largest)%Z),
  let FW := SignedWeights prec largest Hprec Hlarge in
  forall (edge : V -> nat -> option (V * w_t FW)),
  (forall v k, edge v k = None -> edge v (S k) = None) ->
  (forall v k u a u' b, edge v k = Some (u, a) -> edge v (S k) = Some (u', b) -> w_leb FW a b = true) ->
  (forall v k u a, edge v k = Some (u, a) -> w_leb FW (w_zero FW) a = true) ->
  forall j, (0 <= j)%Z -> (forall v k u a, edge v k = Some (u, Finite prec largest a) -> (2 ^ j | sfin_value prec largest a)%Z) ->
  forall (DM : DMap (V * nat) (w_t FW) (w_inf FW)) (PM : PMap (V * nat) (V * nat)) (LM : PMap (V * nat) unit)
    (DMr : DMap V (option Z) None) (PMr : PMap V V) (DMi : DMap (V * nat) (option Z) None) (PMi : PMap (V * nat) (V * nat)) (LMi : PMap (V * nat) unit)
    (starts : list V), NoDup starts -> forall lim n,
  let E := inf_edge (exact_edge prec largest edge) in
  let St := fun v => In v starts in
  (forall v k u a d, In (v, k) (n_reads (outcome_state (snd (inf_run V_dec (exact_edge prec largest edge) DMr PMr DMi PMi LMi false false starts lim n)))) ->
     edge v k = Some (u, Finite prec largest a) -> is_distance ZInfWeights E St v (Some d) ->
     (sfin_value prec largest a + d < 2 ^ (prec + j) /\ sfin_value prec largest a + d <= largest)%Z) ->
  forall os r, num_run V_dec FW (s_sub prec largest) edge DM PM LM starts lim n = (os, r) ->
  NoDup (map fst os) /\
  StronglySorted (fun p q => w_leb FW (snd p) (snd q) = true) os /\
  (forall v w, In (v, w) os -> ~ In v starts /\ exists a, w = Finite prec largest a /\ is_distance ZInfWeights E St v (Some (sfin_value prec largest a))) /\
  (forall s, r = Ended s -> forall v, wreachable ZInfWeights E St v -> In v starts \/ In v (map fst os)).
Proof.
  intros V V_dec prec largest Hprec Hlarge FW edge Hseq Hsort Hnn j Hj Hm DM PM LM DMr PMr DMi PMi LMi starts Hnd lim n E St Hreads os r.
  exact (float_reports V_dec prec largest Hprec Hlarge edge Hseq Hsort Hnn j Hj Hm DM PM LM DMr PMr DMi PMi LMi starts Hnd lim n Hreads os r).
Qed.
Print Assumptions C119_float_infinite_branching_partial.

(** The same, compared with the run with exact numbers: under these hypotheses, both runs report the same vertices with the same values, and end or raise alike (so C30_progress, about ends and
    vertices that are reported at some time, holds with floats, too). *)
Theorem C119_float_like_exact_partial :
  forall {V : Type} (V_dec : forall a b : V, {a = b} + {a <> b}) prec largest (Hprec : (1 <= prec)%Z) (Hlarge : (0 <= largest)%Z),
  let FW := SignedWeights prec largest Hprec Hlarge in
  forall (edge : V -> nat -> option (V * w_t FW)),
  (forall v k, edge v k = None -> edge v (S k) = None) ->
  (forall v k u a u' b, edge v k = Some (u, a) -> edge v (S k) = Some (u', b) -> w_leb FW a b = true) ->
  (forall v k u a, edge v k = Some (u, a) -> w_leb FW (w_zero FW) a = true) ->
  forall j, (0 <= j)%Z -> (forall v k u a, edge v k = Some (u, Finite prec largest a) -> (2 ^ j | sfin_value prec largest a)%Z) ->
  forall (DM : DMap (V * nat) (w_t FW) (w_inf FW)) (PM : PMap (V * nat) (V * nat)) (LM : PMap (V * nat) unit)
    (DMr : DMap V (option Z) None) (PMr : PMap V V) (DMi : DMap (V * nat) (option Z) None) (PMi : PMap (V * nat) (V * nat)) (LMi : PMap (V * nat) unit)
    (starts : list V), NoDup starts -> forall lim n,
  let exact := inf_run V_dec (exact_edge prec largest edge) DMr PMr DMi PMi LMi false false starts lim n in
  let floats := num_run V_dec FW (s_sub prec largest) edge DM PM LM starts lim n in
  (forall v k u a d, In (v, k) (n_reads (outcome_state (snd exact))) -> edge v k = Some (u, Finite prec largest a) ->
     is_distance ZInfWeights (inf_edge (exact_edge prec largest edge)) (fun v => In v starts) v (Some d) ->
     (sfin_value prec largest a + d < 2 ^ (prec + j) /\ sfin_value prec largest a + d <= largest)%Z) ->
  Forall2 (fun p rep => fst p = nr_vertex rep /\ exists a, snd p = Finite prec largest a /\ nr_distance rep = Some (sfin_value prec largest a)) (fst floats) (fst exact) /\
  match snd floats, snd exact with Running _, Running _ => True | Ended _, Ended _ => True | Raised x _, Raised y _ => x = y | _, _ => False end.
Proof.
  intros V V_dec prec largest Hprec Hlarge FW edge Hseq Hsort Hnn j Hj Hm DM PM LM DMr PMr DMi PMi LMi starts Hnd lim n exact floats Hreads.
  exact (float_same V_dec prec largest Hprec Hlarge edge Hseq Hsort Hnn j Hj Hm DM PM LM DMr PMr DMi PMi LMi starts Hnd lim n Hreads).
Qed.
Print Assumptions C119_float_like_exact_partial.

(** A graph with infinitely many edges meets the hypotheses: the distances 0.5 and 0.625 are exact. *)
Example C119_partial_example :
  float_edges_ok many_edge /\
  (forall v k u a, many_edge v k = Some (u, Finite 53 py_largest a) -> (2 ^ 1071 | sfin_value 53 py_largest a)%Z) /\
  (forall v k u a d, In (v, k) (n_reads (outcome_state (snd (inf_run Nat.eq_dec (exact_edge 53 py_largest many_edge) hDMZ hPM sDM sPM sLM false false [0] None 60)))) ->
     many_edge v k = Some (u, Finite 53 py_largest a) -> is_distance ZInfWeights (inf_edge (exact_edge 53 py_largest many_edge)) (fun v => In v [0]) v (Some d) ->
     (sfin_value 53 py_largest a + d < 2 ^ (53 + 1071) /\ sfin_value 53 py_largest a + d <= py_largest)%Z) /\
  map (fun p => (fst p, option_map (fun z => z / 2 ^ 1071)%Z (s_value (snd p)))) (fst (fs_run many_edge [0] 60)) = [(1, Some 4%Z); (2, Some 5%Z)].
Proof.
  split; [exact many_edge_ok|]. split; [exact many_edge_multiple|]. split; [intros v k u a d _; exact (many_edge_small v k u a d)|]. vm_compute. reflexivity.
Qed.

(** The same operations with the standard library's specification of floats: (2^52 + 3 + 0.0 - 1.5) + 1.5 is 2^52 + 4. *)
Example C119_specfloat_example :
  let x := binary_normalize 53 1024 4503599627370499 0 false in
  let h := binary_normalize 53 1024 3 (-1) false in
  SFadd 53 1024 (SFsub 53 1024 (SFadd 53 1024 x (S754_zero false)) h) h = binary_normalize 53 1024 4503599627370500 0 false.
Proof. vm_compute. reflexivity. Qed.
