(** Model of one traversal object that is started several times, while iterators of earlier starts are still in use (e.g., nested loops over the same traversal object).
    Documentation, traversals.rst:441: "At any time, you can restart the traversal at the same or some other start vertices."

    Each call of [start_from] creates a generator (traversal.py:148-149).  Its local variables, and the collections that were created for it, are its own.  The attributes [depth], [distance],
    [path_length], [edge], [event], [cycle_from_start] belong to the object, and all generators of the object write them, and some read them.

    Simplifications:
    - The body of a generator begins to be executed with the first [next]; it reads the options from the object then.  If [start_from] is called again before that, the earlier generator is
      not used any more here ([Dropped]).
    - The interleaving is that of passes of the loops.  What is executed after a [yield] until the next pass begins belongs to the pass with the [yield].  Thus, values of the attributes at the calls
      of the neighbor function are not observed here.
    - Sets and mappings given as options (already_visited, known_distances, ...) to different starts are different objects. *)
From Coq Require Import List Bool Arith ZArith.
From Verif Require Import Machine Common GearSpec Weight BFSModel NTDModel DFSModel TopoModel DijkstraModel AStarModel MSTModel.
Import ListNotations.

Section Nested.
Context {P S O A X : Type}.
(** [P]: arguments of [start_from]; [S]: local variables and attributes during a traversal; [O]: reports; [A]: attributes of the object.
    [step]: a pass of the loops; [get], [put]: the attributes in a state; [started]: effect of [start_from] on the attributes; [begins]: the state at the begin of the loop, if the
    generator begins while the attributes of the object have the given values. *)
Record strategy := {
  st_step : P -> S -> step_result S O X;
  st_get : S -> A;
  st_put : A -> S -> S;
  st_started : P -> A -> A;
  st_begins : P -> A -> S
}.
Variable st : strategy.

Inductive gen := Waiting | Active (s : S) | Finished (x : option X) | Dropped.
Record object := { ob_attributes : A; ob_generators : list (P * gen) }.

(** What a program does: it calls [start_from], or it lets the generator that was created by call number [k] execute a pass. *)
Inductive use := StartFrom (p : P) | Pass (k : nat).

Definition drop (g : P * gen) : P * gen := match g with (p, Waiting) => (p, Dropped) | _ => g end.

Fixpoint set_nth {B} (l : list B) (k : nat) (x : B) : list B :=
  match l, k with
  | [], _ => []
  | _ :: r, 0 => x :: r
  | a :: r, Datatypes.S k => a :: set_nth r k x
  end.

Definition pass (p : P) (s : S) : list O * A * gen :=
  match st_step st p s with
  | Go o s' => (o, st_get st s', Active s')
  | Halt o s' => (o, st_get st s', Finished None)
  | Raise o x s' => (o, st_get st s', Finished (Some x))
  end.

Definition execute (ob : object) (u : use) : list O * object :=
  match u with
  | StartFrom p => ([], {| ob_attributes := st_started st p (ob_attributes ob); ob_generators := map drop (ob_generators ob) ++ [(p, Waiting)] |})
  | Pass k =>
      let a := ob_attributes ob in
      let go p s := let '(o, a', g) := pass p s in (o, {| ob_attributes := a'; ob_generators := set_nth (ob_generators ob) k (p, g) |}) in
      match nth_error (ob_generators ob) k with
      | Some (p, Waiting) => go p (st_begins st p a)
      | Some (p, Active s) => go p (st_put st a s)
      | _ => ([], ob)
      end
  end.

(** The reports of generator [k] during the uses, and the object afterwards *)
Fixpoint reports (k : nat) (ob : object) (us : list use) : list O * object :=
  match us with
  | [] => ([], ob)
  | u :: r =>
      let '(o, ob1) := execute ob u in
      let '(os, ob2) := reports k ob1 r in
      (match u with Pass j => if Nat.eqb j k then o ++ os else os | StartFrom _ => os end, ob2)
  end.

(** The number of starts, and the number of passes of generator [k] *)
Definition starts_in (us : list use) : nat := length (filter (fun u => match u with StartFrom _ => true | _ => false end) us).
Definition passes_of (k : nat) (us : list use) : nat := length (filter (fun u => match u with Pass j => Nat.eqb j k | _ => false end) us).

(** Before the object is started again, generator [k] has been used. *)
Definition used_in_time (k : nat) (us : list use) : Prop := forall us1 p us2, us = us1 ++ StartFrom p :: us2 -> In (Pass k) us1.

(** A new object; [a]: the values the constructor gives to the attributes *)
Definition new_object (a : A) : object := {| ob_attributes := a; ob_generators := [] |}.

(** How generator [k] has ended, if it has: [Some None]: StopIteration, [Some (Some x)]: exception [x] *)
Definition ending (k : nat) (ob : object) : option (option X) :=
  match nth_error (ob_generators ob) k with Some (_, Finished x) => Some x | _ => None end.
End Nested.
Arguments strategy : clear implicits. Arguments gen : clear implicits. Arguments object : clear implicits. Arguments use : clear implicits.
Arguments StartFrom {P}. Arguments Pass {P}.

(** The same for a run of a single traversal *)
Definition run_ending {S X} (r : outcome S X) : option (option X) := match r with Running _ => None | Ended _ => Some None | Raised x _ => Some (Some x) end.

(** ** The strategies *)
Section Strategies.
Context {V I L : Type}.
Variable V_dec : forall a b : V, {a = b} + {a <> b}.
Variable vid : V -> I.
Variable VS : VSet I.
Variable PM : PMap I V.
Variable LM : PMap I L.
Variable XM : DMap I Z 0%Z.
Variable next : V -> list (V * L).

(** TraversalBreadthFirst: [depth] is set to 0 by start_from (breadth_first.py:206), and to 1 at the begin of the generator (276) *)
Definition bfs_put (d : Z) (s : @bfs_state V I L VS PM LM) : bfs_state VS PM LM :=
  {| b_pc := b_pc s; b_to_expand := b_to_expand s; b_next := b_next s; b_depth := d; b_visited := b_visited s; b_pred := b_pred s; b_labels := b_labels s;
     b_limit := b_limit s; b_calls := b_calls s |}.
Definition bfs_object : strategy (bfs_cfg * list V * option (vs_t VS) * option Z) (@bfs_state V I L VS PM LM) (@bfs_report V I L VS PM LM) Z exn :=
  {| st_step := fun '(cfg, _, _, _) => bfs_step vid VS PM LM next cfg;
     st_get := b_depth; st_put := bfs_put;
     st_started := fun _ _ => 0%Z;
     st_begins := fun '(cfg, starts, av, lim) _ => bfs_init vid VS PM LM cfg starts av lim |}.

(** TraversalNeighborsThenDepth: [depth] is set by start_from (neighbors_then_depth.py:214), and, without compute_depth, at the begin of the generator (273) *)
Definition ntd_put (d : Z) (s : @ntd_state V I L VS PM LM) : ntd_state VS PM LM :=
  {| n_pc := n_pc s; n_to_expand := n_to_expand s; n_markers := n_markers s; n_loop_depth := n_loop_depth s; n_depth := d; n_visited := n_visited s;
     n_pred := n_pred s; n_labels := n_labels s; n_limit := n_limit s; n_calls := n_calls s |}.
Definition ntd_object : strategy (ntd_cfg * list V * option (vs_t VS) * option Z) (@ntd_state V I L VS PM LM) (@ntd_report V I L VS PM LM) Z exn :=
  {| st_step := fun '(cfg, _, _, _) => ntd_step vid VS PM LM next cfg;
     st_get := n_depth; st_put := ntd_put;
     st_started := fun '(cfg, _, _, _) _ => if nc_compute_depth cfg then 0%Z else (-1)%Z;
     st_begins := fun '(cfg, starts, av, lim) d => ntd_put (if nc_compute_depth cfg then d else (-1)%Z) (ntd_init vid VS PM LM cfg starts av lim) |}.

(** TraversalDepthFirst, the implementation with trace: [depth] and [event] are set by start_from (depth_first.py:290, 382); at the begin of the generator, [depth] is
    decremented (483), if depth is computed *)
Definition dfs_put (a : Z * option dfs_event) (s : @dfs_state V I L VS PM LM XM) : dfs_state VS PM LM XM :=
  {| f_pc := f_pc s; f_starts := f_starts s; f_start := f_start s; f_to_visit := f_to_visit s; f_to_visit_labels := f_to_visit_labels s; f_markers := f_markers s;
     f_var_labels := f_var_labels s; f_trace := f_trace s; f_trace_labels := f_trace_labels s; f_on_trace := f_on_trace s; f_index := f_index s; f_time := f_time s;
     f_depth := fst a; f_event := snd a; f_visited := f_visited s; f_pred := f_pred s; f_labels := f_labels s; f_limit := f_limit s; f_count := f_count s; f_calls := f_calls s |}.
Definition dfs_object : strategy (dfs_cfg * (nat -> bool) * list V * option (vs_t VS) * option Z) (@dfs_state V I L VS PM LM XM) (@dfs_report V I L VS PM LM XM) (Z * option dfs_event) exn :=
  {| st_step := fun '(cfg, skip, _, _, _) => dfs_step V_dec vid VS PM LM XM next cfg skip;
     st_get := fun s => (f_depth s, f_event s); st_put := dfs_put;
     st_started := fun '(cfg, _, _, _, _) _ => (if DFSModel.dc_compute_depth cfg then 0%Z else (-1)%Z, None);
     st_begins := fun '(cfg, _, starts, av, lim) a =>
       dfs_put (if DFSModel.dc_compute_depth cfg then (fst a - 1)%Z else fst a, snd a) (dfs_init vid VS PM LM XM cfg starts av lim) |}.

(** The implementation without trace: at the begin of the generator, [depth] is set to -1 if it is not computed (1013-1015) *)
Definition dfw_put (a : Z * option dfs_event) (s : @dfw_state V I L VS PM LM) : dfw_state VS PM LM :=
  {| w_pc := w_pc s; w_starts := w_starts s; w_start := w_start s; w_to_visit := w_to_visit s; w_markers := w_markers s; w_loop_depth := w_loop_depth s;
     w_depth := fst a; w_event := snd a; w_visited := w_visited s; w_pred := w_pred s; w_labels := w_labels s; w_limit := w_limit s; w_count := w_count s; w_calls := w_calls s |}.
Definition dfw_object : strategy (dfs_cfg * (nat -> bool) * list V * option (vs_t VS) * option Z) (@dfw_state V I L VS PM LM) (@dfs_report V I L VS PM LM XM) (Z * option dfs_event) exn :=
  {| st_step := fun '(cfg, skip, _, _, _) => dfw_step V_dec vid VS PM LM XM next cfg skip;
     st_get := fun s => (w_depth s, w_event s); st_put := dfw_put;
     st_started := fun '(cfg, _, _, _, _) _ => (if DFSModel.dc_compute_depth cfg then 0%Z else (-1)%Z, None);
     st_begins := fun '(cfg, _, starts, av, lim) a =>
       dfw_put (if DFSModel.dc_compute_depth cfg then fst a else (-1)%Z, snd a) (dfw_init vid VS PM LM cfg starts av lim) |}.

(** The object has both implementations; start_from chooses one of them (391-398) *)
Definition step_map {S T O X} (f : S -> T) (r : step_result S O X) : step_result T O X :=
  match r with Go o s => Go o (f s) | Halt o s => Halt o (f s) | Raise o x s => Raise o x (f s) end.
Definition depth_first_object : strategy (dfs_cfg * (nat -> bool) * list V * option (vs_t VS) * option Z) (@dfs_state V I L VS PM LM XM + @dfw_state V I L VS PM LM)
    (@dfs_report V I L VS PM LM XM) (Z * option dfs_event) exn :=
  {| st_step := fun p s => match s with inl s => step_map inl (st_step dfs_object p s) | inr s => step_map inr (st_step dfw_object p s) end;
     st_get := fun s => match s with inl s => st_get dfs_object s | inr s => st_get dfw_object s end;
     st_put := fun a s => match s with inl s => inl (st_put dfs_object a s) | inr s => inr (st_put dfw_object a s) end;
     st_started := st_started dfs_object;
     st_begins := fun p a => let '(cfg, _, _, _, _) := p in if dfs_uses_trace cfg then inl (st_begins dfs_object p a) else inr (st_begins dfw_object p a) |}.

(** TraversalTopologicalSort: [depth] is set by start_from (topological_sort.py:191), [cycle_from_start] at the begin of the generator (261, 402) *)
Definition topo_put (a : Z * list V) (s : @topo_state V I L VS PM LM) : topo_state VS PM LM :=
  {| t_pc := t_pc s; t_stack := t_stack s; t_trace_set := t_trace_set s; t_markers := t_markers s; t_depth := fst a; t_visited := t_visited s; t_pred := t_pred s;
     t_labels := t_labels s; t_cycle := snd a; t_limit := t_limit s; t_calls := t_calls s |}.
Definition topo_object : strategy (topo_cfg * list V * option (vs_t VS) * option Z) (@topo_state V I L VS PM LM) (@topo_report V I L VS PM LM) (Z * list V) exn :=
  {| st_step := fun '(cfg, _, _, _) => topo_step vid VS PM LM next cfg;
     st_get := fun s => (t_depth s, t_cycle s); st_put := topo_put;
     st_started := fun _ a => (0%Z, snd a);
     st_begins := fun '(cfg, starts, av, lim) a => topo_put (fst a, []) (topo_init vid VS PM LM cfg starts av lim) |}.
End Strategies.

Section WeightedStrategies.
Context {V I L : Type}.
Variable vid : V -> I.
Variable WT : Weights.
Variable DM : DMap I (w_t WT) (w_inf WT).
Variable VS : VSet I.
Variable PM : PMap I V.
Variable LM : PMap I L.
Variable next : V -> list (V * w_t WT * L).

(** TraversalShortestPaths: [distance] and [depth] are set by start_from (shortest_paths.py:204-205) *)
Definition dij_put (a : w_t WT * nat) (s : @dij_state V I L WT DM PM LM) : dij_state WT DM PM LM :=
  {| d_pc := d_pc s; d_heap := d_heap s; d_no := d_no s; d_distances := d_distances s; d_pred := d_pred s; d_labels := d_labels s; d_distance := fst a; d_depth := snd a;
     d_limit := d_limit s; d_calls := d_calls s |}.
Definition dij_object : strategy (dij_cfg * list V * option (dm_t DM) * option Z) (@dij_state V I L WT DM PM LM) (@dij_report V I L WT DM PM LM) (w_t WT * nat) exn :=
  {| st_step := fun '(cfg, _, _, _) => dij_step vid WT DM PM LM next cfg;
     st_get := fun s => (d_distance s, d_depth s); st_put := dij_put;
     st_started := fun _ _ => (w_inf WT, 0);
     st_begins := fun '(cfg, starts, known, lim) a => dij_put a (dij_init vid WT DM PM LM cfg starts known lim) |}.

(** TraversalAStar: [path_length] and [depth] are set by start_from (a_star.py:240-241) *)
Definition ast_put (a : w_t WT * nat) (s : @ast_state V I L WT DM PM LM) : ast_state WT DM PM LM :=
  {| a_pc := a_pc s; a_heap := a_heap s; a_no := a_no s; a_distances := a_distances s; a_guesses := a_guesses s; a_pred := a_pred s; a_labels := a_labels s;
     a_path_length := fst a; a_depth := snd a; a_limit := a_limit s; a_calls := a_calls s |}.
Definition ast_object : strategy (ast_cfg * (V -> w_t WT) * list V * option (dm_t DM) * option (dm_t DM) * option Z) (@ast_state V I L WT DM PM LM) (@ast_report V I L WT DM PM LM) (w_t WT * nat) exn :=
  {| st_step := fun '(cfg, h, _, _, _, _) => ast_step vid WT DM PM LM next cfg h;
     st_get := fun s => (a_path_length s, a_depth s); st_put := ast_put;
     st_started := fun _ _ => (w_inf WT, 0);
     st_begins := fun '(cfg, h, starts, known, guesses, lim) a => ast_put a (ast_init vid WT DM PM LM cfg h starts known guesses lim) |}.

(** TraversalMinimumSpanningTree: [edge] is set by start_from (minimum_spanning_tree.py:162) *)
Definition mst_put (a : option (V * (V * w_t WT * L))) (s : @mst_state V I L WT VS PM LM) : mst_state WT VS PM LM :=
  {| m_pc := m_pc s; m_heap := m_heap s; m_no := m_no s; m_visited := m_visited s; m_pred := m_pred s; m_labels := m_labels s; m_edge := a; m_limit := m_limit s; m_calls := m_calls s |}.
Definition mst_object : strategy (mst_cfg * list V * option Z) (@mst_state V I L WT VS PM LM) (@mst_report V I L WT PM LM) (option (V * (V * w_t WT * L))) exn :=
  {| st_step := fun '(cfg, _, _) => mst_step vid WT VS PM LM next cfg;
     st_get := m_edge; st_put := mst_put;
     st_started := fun _ _ => None;
     st_begins := fun '(cfg, starts, lim) a => mst_put a (mst_init vid WT VS PM LM cfg starts lim) |}.
End WeightedStrategies.

From Verif Require Import InfModel.
Section InfStrategy.
Context {V : Type}.
Variable V_dec : forall a b : V, {a = b} + {a <> b}.
Variable edge : V -> nat -> option (V * option Z).
Variable DM : DMap V (option Z) None.
Variable PM : PMap V V.
Variable DMi : DMap (V * nat) (option Z) None.
Variable PMi : PMap (V * nat) (V * nat).
Variable LMi : PMap (V * nat) unit.

(** TraversalShortestPathsInfBranchingSorted: [distance] is set by start_from (extra_infinite_branching.py:187).  Options: build_paths, store_distances, start vertices, limit. *)
Definition inf_put (a : option Z) (s : @inf_state V DM PM DMi PMi LMi) : inf_state DM PM DMi PMi LMi :=
  {| n_in := n_in s; n_iters := n_iters s; n_distance := a; n_pred := n_pred s; n_distances := n_distances s; n_calls := n_calls s; n_reads := n_reads s |}.
Definition inf_object : strategy (bool * bool * list V * option Z) (@inf_state V DM PM DMi PMi LMi) (@inf_report V DM PM) (option Z) exn :=
  {| st_step := fun '(build_paths, store_distances, _, _) => inf_step V_dec edge DM PM DMi PMi LMi build_paths store_distances;
     st_get := n_distance; st_put := inf_put;
     st_started := fun _ _ => None;
     st_begins := fun '(build_paths, store_distances, starts, lim) a => inf_put a (inf_init DM PM DMi PMi LMi build_paths store_distances starts lim) |}.
End InfStrategy.

(** ** What does not depend on the attributes of the object: what a report shows to a program that keeps [traversal.paths] from its own start *)
Definition bfs_own {V I L} {VS : VSet I} {PM : PMap I V} {LM : PMap I L} (r : @bfs_report V I L VS PM LM) := (br_vertex r, br_pred r, br_labels r).
Definition ntd_own {V I L} {VS : VSet I} {PM : PMap I V} {LM : PMap I L} (r : @ntd_report V I L VS PM LM) := (NTDModel.nr_vertex r, NTDModel.nr_pred r, NTDModel.nr_labels r).
Definition dfs_own {V I L} {VS : VSet I} {PM : PMap I V} {LM : PMap I L} {XM : DMap I Z 0%Z} (r : @dfs_report V I L VS PM LM XM) := (fr_vertex r, fr_pred r, fr_labels r).
Definition topo_own {V I L} {VS : VSet I} {PM : PMap I V} {LM : PMap I L} (r : @topo_report V I L VS PM LM) := (tr_vertex r, tr_pred r, tr_labels r).
(** In depth first search without trace, the depth is set for each report. *)
Definition depth_first_own {V I L} {VS : VSet I} {PM : PMap I V} {LM : PMap I L} {XM : DMap I Z 0%Z} (p : dfs_cfg * (nat -> bool) * list V * option (vs_t VS) * option Z)
    (r : @dfs_report V I L VS PM LM XM) :=
  let '(cfg, _, _, _, _) := p in (dfs_own r, if DFSModel.dc_compute_depth cfg && negb (dfs_uses_trace cfg) then Some (fr_depth r) else None).

(** ** What is claimed about an object.  [alone p n]: [n] passes of a traversal with the arguments [p] by a new object that does nothing else *)

(** A start of the object, after any use of it, is continued for as long as the program likes, while the program starts the object again, as often as it likes, and uses the generators of all
    the starts in any order: the generator of the first-mentioned start reports what it would report without all that, seen through [view]; it ends when it would end, and as it would end.  [options]: the arguments of the first-mentioned start for which this is
    claimed; the other starts have any arguments. *)
Definition undisturbed_for {P S O A X B T} (options : P -> Prop) (st : strategy P S O A X) (view : P -> O -> B) (alone : P -> nat -> list O * outcome T X) : Prop :=
  forall (a : A) (before : list (use P)) (p : P) (us : list (use P)), options p -> used_in_time (starts_in before) us ->
  let k := starts_in before in
  let '(os, ob) := reports st k (new_object a) (before ++ StartFrom p :: us) in
  let '(os', r) := alone p (passes_of k us) in
  map (view p) os = map (view p) os' /\ ending k ob = run_ending r.

Definition undisturbed {P S O A X B T} (st : strategy P S O A X) (view : P -> O -> B) (alone : P -> nat -> list O * outcome T X) : Prop := undisturbed_for (fun _ => True) st view alone.

(** After any use of the object, it is started again, and then only this new start is used: the reports are, with all attributes, those of a new object. *)
Definition restartable {P S O A X T} (st : strategy P S O A X) (alone : P -> nat -> list O * outcome T X) : Prop :=
  forall (a : A) (before : list (use P)) (p : P) (n : nat),
  let k := starts_in before in
  let '(os, ob) := reports st k (new_object a) (before ++ StartFrom p :: repeat (Pass k) n) in
  let '(os', r) := alone p n in
  os = os' /\ ending k ob = run_ending r.
