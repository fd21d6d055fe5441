(** C97: TraversalShortestPaths with gears that keep distances in arrays of C floats. *)
From Coq Require Import List ZArith Bool Arith Lia.
From Verif Require Import Machine GearSpec Spec TraversalSpec Common PathsModel Weight WeightSpec
  HeapModel DijkstraModel Examples FloatModel FloatSpec PropFloat StoreModel StoreProofs.
Import ListNotations.

(** C97 is refuted: with an array of C floats ("f", the default), a traversal ends without having reported a reachable vertex: 0.7 is stored as 0.699999988..., and
    then the entry of the heap is taken for outdated. *)
Definition s_next (v : nat) : list (nat * w_t PyFloat * nat) := match v with 0 => [(1, pf 3152519739159347 1022, 1)] | _ => [] end.
Theorem C97_cfloat_gear_misses_vertex_refuted :
  exists (next : nat -> list (nat * w_t PyFloat * nat)) (n : nat) os s,
    sto_run id_nat PyFloat (hDM (W := w_t PyFloat) None) bPM bPM next dij_plain store_single [0] None n = (os, Ended s) /\
    wreachable PyFloat (wgraph_of (WT := PyFloat) next) (is_start id_nat [0]) 1 /\
    ~ is_start id_nat [0] 1 /\ dij_ids id_nat os = [].
Proof.
  exists s_next, 20. eexists. eexists. split; [apply has_ended; vm_compute; reflexivity|].
  split; [|split; [intros [H|[]]; discriminate|vm_compute; reflexivity]].
  exists 0, [(pf 3152519739159347 1022, 1)]. split; [left; reflexivity|]. econstructor; [|constructor]. red. left. reflexivity.
Qed.
Print Assumptions C97_cfloat_gear_misses_vertex_refuted.

(** With keep_distances, a vertex is reported again and again: 0.1 is stored as 0.10000000149..., so each further path with length 0.1 (here: by an edge of weight zero from the vertex to itself)
    is taken for a better one. *)
Definition t_next (v : nat) : list (nat * w_t PyFloat * nat) :=
  match v with 0 => [(1, pf 3602879701896397 1019, 1)] | _ => [(1, pf 0 0, 11)] end.
Theorem C97_cfloat_gear_repeats_vertex_refuted :
  exists (next : nat -> list (nat * w_t PyFloat * nat)) (n : nat) os r,
    sto_run id_nat PyFloat (hDM (W := w_t PyFloat) None) bPM bPM next dij_default store_single [0] None n = (os, r) /\
    (forall v e, In e (next v) -> fst (fst e) = 1) /\ dij_ids id_nat os = [1; 1; 1; 1; 1].
Proof.
  exists t_next, 17. eexists. eexists. split; [apply surjective_pairing|]. split; [|vm_compute; reflexivity].
  intros [|v] e [<-|[]]; reflexivity.
Qed.
Print Assumptions C97_cfloat_gear_repeats_vertex_refuted.

(** C97, what holds. For all weights (of any kind), graphs, gears, options, start vertices, limits and numbers of passes, and for all ways [store] to
    store a distance (zero is stored exactly): a reported distance is the weight of a walk with [depth] edges from a start vertex to the reported vertex; and if a distance of a vertex plus the weight of
    an edge from the vertex is always stored exactly, then the traversal is the one with exact storing (so, C20 to C25 hold). The latter is the case for arrays of type "f" if
    these sums are C floats. *)
Theorem C97_stored_distances_partial :
  forall {V I L : Type} (I_dec : forall a b : I, {a = b} + {a <> b}) (vid : V -> I) (WT : Weights)
    (DM : DMap I (w_t WT) (w_inf WT)) (PM : PMap I V) (LM : PMap I L)
    (next : V -> list (V * w_t WT * L)) (cfg : dij_cfg) (E : I -> w_t WT -> I -> Prop) (starts : list V) (store : w_t WT -> w_t WT),
  presents_weighted WT vid next E -> store (w_zero WT) = w_zero WT ->
  let St := is_start vid starts in
  (forall lim n os r, sto_run vid WT DM PM LM next cfg store starts lim n = (os, r) ->
     forall rep, In rep os -> exists s p, St s /\ wwalk WT E s p (vid (dr_vertex rep)) /\ walk_weight WT p = dr_distance rep /\ length p = dr_depth rep) /\
  (dc_is_tree cfg = false -> nonnegative WT E ->
   (forall i d w j, is_distance WT E St i d -> E i w j -> store (w_add WT w d) = w_add WT w d) ->
   forall lim n, sto_run vid WT DM PM LM next cfg store starts lim n = dij_run vid WT DM PM LM next cfg starts None lim n).
Proof.
  intros V I L I_dec vid WT DM PM LM next cfg E starts store HE Hz.
  exact (conj (sto_real I_dec vid WT DM PM LM next cfg E HE starts store Hz)
              (fun Ht Hn Hx => sto_same I_dec vid WT DM PM LM next cfg E HE starts store Hz Ht Hn Hx)).
Qed.
Print Assumptions C97_stored_distances_partial.

Theorem C97_single_floats_partial : forall a, is_single a -> store_single a = a.
Proof. exact store_single_exact. Qed.
Print Assumptions C97_single_floats_partial.

(** 0.5, 0.25 and 3.0 are C floats, and so are the sums of distances and weights. *)
Definition u_next (v : nat) : list (nat * w_t PyFloat * nat) :=
  match v with 0 => [(1, pf 1 1073, 1); (2, pf 3 1074, 2)] | 1 => [(2, pf 1 1072, 12)] | _ => [] end.
Example C97_example :
  presents_weighted PyFloat id_nat u_next (wgraph_of (WT := PyFloat) u_next) /\ store_single (w_zero PyFloat) = w_zero PyFloat /\
  is_single (pf 1 1073) /\ is_single (w_add PyFloat (pf 1 1072) (pf 1 1073)) /\
  map (fun rep => (dr_vertex rep, f_value (dr_distance rep)))
    (fst (sto_run id_nat PyFloat (hDM (W := w_t PyFloat) None) bPM bPM u_next dij_default store_single [0] None 40))
  = [(1, Some (2 ^ 1073)%Z); (2, Some (3 * 2 ^ 1072)%Z)] /\
  f_value (store_single (pf 3152519739159347 1022)) = Some (11744051 * 2 ^ 1050)%Z.
Proof.
  split; [apply presents_wgraph_of|]. split; [apply store_single_exact, (is_single_intro _ 0 1000); [vm_compute; reflexivity|lia|lia]|].
  split; [apply (is_single_intro _ 1 1073); [vm_compute; reflexivity|lia|lia]|].
  split; [apply (is_single_intro _ 3 1072); [vm_compute; reflexivity|lia|lia]|].
  split; vm_compute; reflexivity.
Qed.
