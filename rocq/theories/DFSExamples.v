(** Configurations and graphs used in the examples about depth-first search. *)
From Coq Require Import List ZArith Arith Bool Lia.
From Verif Require Import Machine GearSpec GearModel GearProofs Spec Common TraversalSpec PathsModel PathsSpec DFSModel DFSSpec DFSTreeSpec Examples.
Import ListNotations.

Scheme Equality for dfs_event.

Definition hXM : DMap nat Z 0%Z := hDM 0%Z.
Definition asks (l : list dfs_event) (ev : dfs_event) : bool := existsb (dfs_event_beq ev) l.
Definition both_entering : list dfs_event := [ENTERING_START; ENTERING_SUCCESSOR].
Definition all_tree_events : list dfs_event := [ENTERING_START; ENTERING_SUCCESSOR; LEAVING_START; LEAVING_SUCCESSOR].
Definition all_kinds : list dfs_event := [ENTERING_START; ENTERING_SUCCESSOR; BACK_EDGE; FORWARD_EDGE; CROSS_EDGE].

(** Options as given by the user: mode, events, compute_trace; labeled edges, paths and depth are computed. *)
Definition dfs_ask (m : dfs_mode) (R : list dfs_event) (trace paths : bool) : dfs_cfg :=
  {| dc_is_tree := false; dc_build_paths := paths; dc_labeled := true; dc_mode := m; dc_report := asks R;
     dc_compute_depth := true; dc_compute_trace := trace; dc_compute_on_trace := false; dc_compute_index := false |}.

(** The options after the checks of start_from (used only for options that pass them). *)
Definition dfs_checked (o : dfs_cfg) : dfs_cfg := match dfs_options o false with inl cfg => cfg | inr _ => o end.

Definition never (_ : nat) : bool := false.

(** A depth-first search on natural numbers with the options [o]. *)
Definition dfs_try {L} (o : dfs_cfg) (next : nat -> list (nat * L)) (starts : list nat) (n : nat) :=
  dfs_traverse Nat.eq_dec (fun v : nat => v) hVS hPM hPM hXM next (dfs_checked o) never starts None None n.

(** Vertex, event, depth and trace at each report. *)
Definition seen {L} (p : list (@dfs_report nat nat L hVS hPM hPM hXM) * outcome (list (nat * Z)) exn) :=
  map (fun rep => (fr_vertex rep, fr_event rep, fr_depth rep, fr_trace rep)) (fst p).

(** An acyclic graph with parallel edges. *)
Definition dag_next (v : nat) : list (nat * nat) :=
  match v with 0 => [(1, 10); (2, 20)] | 1 => [(2, 30); (2, 31)] | _ => [] end.
Definition loop_next (v : nat) : list (nat * unit) := match v with 0 => [(0, tt)] | _ => [] end.
Definition pair_next (v : nat) : list (nat * unit) := match v with 0 => [(1, tt)] | 1 => [(0, tt)] | _ => [] end.
Definition ears_next (v : nat) : list (nat * nat) := match v with 0 => [(1, 10); (2, 20)] | _ => [] end.
Definition kinds_next (v : nat) : list (nat * unit) :=
  match v with 0 => [(3, tt); (2, tt); (1, tt)] | 1 => [(2, tt)] | 2 => [(0, tt)] | 3 => [(2, tt)] | _ => [] end.


(** Graphs that refute documented properties. *)
Lemma dfs_labels_wrong :
  exists (next : nat -> list (nat * nat)) rep,
  In rep (fst (dfs_try (dfs_ask DFS_TREE both_entering true true) next [0] 30)) /\
  fr_event rep = Some ENTERING_SUCCESSOR /\ fr_trace rep = [0; 1] /\ fr_trace_labels rep = [20] /\
  iter_labeled_edges_from_start Nat.eq_dec (fun v => v) hPM hPM (fr_pred rep) (fr_labels rep) 10 1 = POk [(0, 1, 20)] /\
  ~ In (1, 20) (next 0).
Proof.
  exists ears_next. eexists. split; [vm_compute; right; right; left; reflexivity|]. repeat (split; [vm_compute; reflexivity|]).
  cbn. intros [E|[E|[]]]; discriminate.
Qed.

Lemma dfs_forward_or_cross_missing :
  exists (next : nat -> list (nat * unit)),
  let o R := dfs_ask DFS_TREE R false true in
  let p := dfs_try (o all_kinds) next [0] 60 in
  let p' := dfs_try (o [ENTERING_START; ENTERING_SUCCESSOR; FORWARD_OR_CROSS_EDGE]) next [0] 60 in
  dfs_options (o [ENTERING_START; ENTERING_SUCCESSOR; FORWARD_OR_CROSS_EDGE]) false = inl (dfs_checked (o [ENTERING_START; ENTERING_SUCCESSOR; FORWARD_OR_CROSS_EDGE])) /\
  (exists rep, In rep (fst p) /\ fr_event rep = Some FORWARD_EDGE) /\ (exists rep, In rep (fst p) /\ fr_event rep = Some CROSS_EDGE) /\
  (exists c, snd p' = Ended c) /\ map fr_event (fst p') = [Some ENTERING_START; Some ENTERING_SUCCESSOR; Some ENTERING_SUCCESSOR; Some ENTERING_SUCCESSOR].
Proof.
  exists kinds_next. split; [reflexivity|]. split; [|split; [|split]].
  - eexists. split; [vm_compute; do 4 right; left; reflexivity|]. reflexivity.
  - eexists. split; [vm_compute; do 6 right; left; reflexivity|]. reflexivity.
  - eexists. vm_compute. reflexivity.
  - vm_compute. reflexivity.
Qed.

Lemma dfs_cross_is_back :
  exists (next : nat -> list (nat * unit)) rep,
  let o := dfs_ask DFS_TREE [ENTERING_START; ENTERING_SUCCESSOR; CROSS_EDGE] false true in
  dfs_options o false = inl (dfs_checked o) /\
  In rep (fst (dfs_try o next [0] 60)) /\ fr_event rep = Some CROSS_EDGE /\ fr_trace rep = [0; 1; 2; 0].
Proof. exists kinds_next. eexists. split; [reflexivity|]. split; [vm_compute; do 3 right; left; reflexivity|]. split; reflexivity. Qed.

Lemma dfs_walks_start :
  exists (next : nat -> list (nat * unit)) rep,
  let o := dfs_ask ALL_WALKS both_entering false false in
  dfs_options o false = inl (dfs_checked o) /\
  In rep (fst (dfs_try o next [0] 10)) /\ fr_event rep = Some ENTERING_START /\ fr_trace rep = [0; 0].
Proof. exists loop_next. eexists. split; [reflexivity|]. split; [vm_compute; right; left; reflexivity|]. split; reflexivity. Qed.

Lemma pred_cycle (PM : PMap nat nat) m a b : a <> b -> pm_get PM a m = Some b -> pm_get PM b m = Some a ->
  forall fuel, vertices_to_start_loop Nat.eq_dec (fun v => v) PM m fuel a = PFuel /\ vertices_to_start_loop Nat.eq_dec (fun v => v) PM m fuel b = PFuel.
Proof.
  intros Hab Ha Hb. induction fuel as [|k (IHa & IHb)]; [split; reflexivity|]. cbn [vertices_to_start_loop]. rewrite Ha, Hb, IHa, IHb.
  destruct (Nat.eq_dec a b), (Nat.eq_dec b a); try congruence. auto.
Qed.

Lemma dfs_all_paths_cycle :
  exists (next : nat -> list (nat * unit)) rep rep',
  let o := dfs_ask ALL_PATHS both_entering false true in
  dfs_options o false = inl (dfs_checked o) /\
  In rep (fst (dfs_try o next [0; 1] 30)) /\ fr_trace rep = [1] /\
  iter_vertices_from_start Nat.eq_dec (fun v => v) hPM (fr_pred rep) 10 1 = POk [0; 1] /\
  In rep' (fst (dfs_try o next [0; 1] 30)) /\ fr_trace rep' = [1; 0] /\
  forall fuel, iter_vertices_from_start Nat.eq_dec (fun v => v) hPM (fr_pred rep') fuel 0 = PFuel.
Proof.
  exists pair_next. do 2 eexists. split; [reflexivity|]. split; [vm_compute; do 2 right; left; reflexivity|]. split; [reflexivity|].
  split; [vm_compute; reflexivity|]. split; [vm_compute; do 3 right; left; reflexivity|]. split; [reflexivity|].
  intros fuel. unfold iter_vertices_from_start, iter_vertices_to_start.
  match goal with |- context [if ?c then _ else _] => change c with true end. cbv iota.
  match goal with |- context [vertices_to_start_loop _ _ _ ?m _ _] => destruct (pred_cycle hPM m 0 1) with (fuel := fuel) as (-> & _) end;
    [discriminate|reflexivity|reflexivity|reflexivity].
Qed.

Lemma ears_tree : tree_like (fun v : nat => v) ears_next [0].
Proof.
  assert (H : forall p, dnode ears_next [0] p -> p = [(0, 0)] \/ p = [(0, 1); (0, 0)] \/ p = [(1, 2); (0, 0)]).
  { induction 1 as [k s E|i n l j u p Hp IH E].
    - destruct k as [|[|k]]; cbn in E; [injection E as <-; auto|discriminate|discriminate].
    - destruct IH as [IH|[IH|IH]]; injection IH as -> -> ->; cbn in E.
      + destruct i as [|[|[|i]]]; cbn in E; try discriminate; injection E as <- _; auto.
      + destruct i; discriminate.
      + destruct i; discriminate. }
  intros j v p j' v' p' H1 H2 Hv. cbn in Hv. subst v'.
  destruct (H _ H1) as [E|[E|E]]; destruct (H _ H2) as [E'|[E'|E']]; rewrite E, E'; injection E as -> -> ->; injection E' as ?; congruence.
Qed.

(** Vertices that are numbers, kept in an array with a number as gap marker, as [GearForIntVerticesAndIDs] does (_gears.py:812-829). *)
Definition gap : Z := 4294967295%Z.
Definition num : Type := sval gap.
Definition num_id (v : num) : nat := Z.to_nat (proj1_sig v).
Definition num_of (k : nat) (H : (Z.of_nat k =? gap)%Z = false) : num := exist _ (Z.of_nat k) H.
Definition num_dec (a b : num) : {a = b} + {a <> b}.
Proof.
  destruct a as [a Ha], b as [b Hb]. destruct (Z.eq_dec a b) as [E|E].
  - left. subst b. f_equal. apply Eqdep_dec.UIP_dec, Bool.bool_dec.
  - right. congruence.
Defined.
Definition n0 : num := num_of 0 eq_refl.
Definition n1 : num := num_of 1 eq_refl.
Definition n2 : num := num_of 2 eq_refl.
Definition array_cfg : wcfg := {| w_extend_size := 1024; w_by_template := true; w_pre_allocate := 0 |}.
Lemma array_cfg_ok : wcfg_ok array_cfg. Proof. unfold wcfg_ok; simpl. apply Nat.lt_0_succ. Qed.
Definition aPM : PMap nat num := SeqPMapSentinel gap array_cfg array_cfg_ok.
Definition hPMnum : PMap nat num := HashPMap Nat.eq_dec.
(** Start vertices 0 and 1, edge from 1 to 2. *)
Definition num_next (v : num) : list (num * unit) := if num_dec v n1 then [(n2, tt)] else [].

Lemma dfs_array_gear (trace : bool) :
  exists (next : num -> list (num * unit)) (v w : num),
  let o := dfs_ask DFS_TREE both_entering trace true in
  let p1 := dfs_traverse num_dec num_id hVS hPMnum hPM hXM next (dfs_checked o) never [n0; v] None None 20 in
  let p2 := dfs_traverse num_dec num_id hVS aPM hPM hXM next (dfs_checked o) never [n0; v] None None 20 in
  dfs_options o false = inl (dfs_checked o) /\
  map fr_vertex (fst p1) = [n0; v; w] /\ map fr_vertex (fst p2) = [n0; v; w] /\
  map (fun rep => iter_vertices_from_start num_dec num_id hPMnum (fr_pred rep) 10 (fr_vertex rep)) (fst p1) = [POk [n0]; POk [v]; POk [v; w]] /\
  map (fun rep => iter_vertices_from_start num_dec num_id aPM (fr_pred rep) 10 (fr_vertex rep)) (fst p2) =
    [POk [n0]; PErr RuntimeErrorNoPath; PErr AssertionModel].
Proof. exists num_next, n1, n2. destruct trace; (split; [reflexivity|]); repeat split; vm_compute; reflexivity. Qed.

(** Mode ALL_WALKS: the id of the start vertex is met again, by another vertex. *)
Lemma dfs_walks_ids :
  exists (vid : nat -> nat) (next next_id : nat -> list (nat * unit)),
  let o := dfs_ask ALL_WALKS both_entering false false in
  (forall v, next_id (vid v) = map (fun e => (vid (fst e), snd e)) (next v)) /\
  dfs_options o false = inl (dfs_checked o) /\
  map fr_event (fst (dfs_traverse Nat.eq_dec vid hVS hPM hPM hXM next (dfs_checked o) never [0] None None 4)) =
    [Some ENTERING_START; Some ENTERING_SUCCESSOR; Some ENTERING_SUCCESSOR] /\
  map fr_event (fst (dfs_traverse Nat.eq_dec (fun i => i) hVS hPM hPM hXM next_id (dfs_checked o) never [0] None None 4)) =
    [Some ENTERING_START; Some ENTERING_SUCCESSOR; Some ENTERING_START].
Proof.
  exists (fun v => v mod 2), (fun v => [(v + 1, tt)]), (fun i => [((i + 1) mod 2, tt)]). cbv zeta. split; [|vm_compute; auto].
  intros v. cbn [map fst snd]. rewrite Nat.add_mod_idemp_l by discriminate. reflexivity.
Qed.
