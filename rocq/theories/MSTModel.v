(** Model of [TraversalMinimumSpanningTreeFlex]
    (src/nographs/_strategies/traversals/with_weights/minimum_spanning_tree.py). *)
From Coq Require Import List ZArith Bool Arith.
From Verif Require Import Machine GearSpec Common Weight HeapModel.
Import ListNotations.

(** Options, minimum_spanning_tree.py:83-118. The traversal has no option is_tree (line 100). *)
Record mst_cfg := { mc_build_paths : bool; mc_labeled : bool }.

Section MST.
Context {V I L : Type}.
Variable vid : V -> I.
Variable WT : Weights.
Notation W := (w_t WT).
Variable VS : VSet I.
Variable PM : PMap I V.
Variable LM : PMap I L.
(** The neighbor function: out-edges as (end vertex, weight, labels). *)
Variable next : V -> list (V * W * L).
Variable cfg : mst_cfg.

(** Position in the code: before the start vertices are expanded (line 208), at the begin of the while loop (246), or
    in the for loop over the edges of [v] (318-351) with the edges not yet processed. *)
Inductive mst_pc :=
| MStart (starts : list V)
| MLoop
| MEdges (v : V) (rest : list (V * W * L)).

(** Entries of the heap: weight, unique number, (from vertex, edge), line 219-223. [m_calls]: calls of the neighbor
    function, most recent first. *)
Definition mst_entry : Type := @entry (V * (V * W * L)) WT.
Record mst_state := {
  m_pc : mst_pc;
  m_heap : list mst_entry;
  m_no : Z;
  m_visited : vs_t VS;
  m_pred : pm_t PM;
  m_labels : pm_t LM;
  m_edge : option (V * (V * W * L));
  m_limit : option Z;
  m_calls : list V
}.

(** What the user sees when an edge (and its end vertex) is reported: [mr_edge] is attribute edge. *)
Record mst_report := {
  mr_vertex : V;
  mr_edge : option (V * (V * W * L));
  mr_pred : pm_t PM;
  mr_labels : pm_t LM
}.
Definition mst_observe (v : V) (s : mst_state) : mst_report :=
  {| mr_vertex := v; mr_edge := m_edge s; mr_pred := m_pred s; mr_labels := m_labels s |}.

(** minimum_spanning_tree.py:145-165 and 199-201 *)
Definition mst_init (starts : list V) (calculation_limit : option Z) : mst_state :=
  {| m_pc := MStart starts;
     m_heap := []; m_no := 0;
     m_visited := vs_of_list VS (vs_empty VS) (map vid starts);
     m_pred := create_predecessors vid PM (mc_build_paths cfg) starts;
     m_labels := pm_empty LM;
     m_edge := None;
     m_limit := calculation_limit;
     m_calls := [] |}.

Definition m_set_pc (s : mst_state) (pc : mst_pc) : mst_state :=
  {| m_pc := pc; m_heap := m_heap s; m_no := m_no s; m_visited := m_visited s; m_pred := m_pred s;
     m_labels := m_labels s; m_edge := m_edge s; m_limit := m_limit s; m_calls := m_calls s |}.

(** minimum_spanning_tree.py:208-213: limit check for all start vertices at once; [None]: RuntimeError *)
Definition mst_limit_start (limit : option Z) (n : nat) : option (option Z) :=
  match limit with
  | None => Some None
  | Some c => if (0 <=? c)%Z
              then if (c - Z.of_nat n <? 0)%Z then None else Some (Some (c - Z.of_nat n)%Z)
              else Some (Some c)
  end.

(** minimum_spanning_tree.py:218-227: the entries for the edges of one vertex, with numbers from [no] upwards *)
Fixpoint mst_entries (no : Z) (v : V) (es : list (V * W * L)) : list mst_entry :=
  match es with
  | [] => []
  | e :: r => ((snd (fst e), no), (v, e)) :: mst_entries (no + 1) v r
  end.
Fixpoint mst_start_entries (no : Z) (starts : list V) : list mst_entry :=
  match starts with
  | [] => []
  | v :: r => mst_entries no v (next v) ++ mst_start_entries (no + Z.of_nat (length (next v))) r
  end.

(** minimum_spanning_tree.py:218-232 *)
Definition mst_begin (s : mst_state) (starts : list V) (limit : option Z) : mst_state :=
  let es := mst_start_entries 0 starts in
  {| m_pc := MLoop;
     m_heap := heapify WT es;
     m_no := Z.of_nat (length es);
     m_visited := m_visited s; m_pred := m_pred s; m_labels := m_labels s; m_edge := m_edge s;
     m_limit := limit_init limit;
     m_calls := rev starts ++ m_calls s |}.

(** minimum_spanning_tree.py:248: the heap without its minimum *)
Definition m_set_heap (s : mst_state) (h : list mst_entry) : mst_state :=
  {| m_pc := m_pc s; m_heap := h; m_no := m_no s; m_visited := m_visited s; m_pred := m_pred s;
     m_labels := m_labels s; m_edge := m_edge s; m_limit := m_limit s; m_calls := m_calls s |}.

(** minimum_spanning_tree.py:263-312: the edge [e] from [v] is chosen *)
Definition mst_choose (s : mst_state) (v : V) (e : V * W * L) : mst_state :=
  let n := fst (fst e) in
  {| m_pc := m_pc s; m_heap := m_heap s; m_no := m_no s;
     m_visited := vs_add VS (vid n) (m_visited s);
     m_pred := if mc_build_paths cfg then pm_set PM (vid n) v (m_pred s) else m_pred s;
     m_labels := if mc_build_paths cfg && mc_labeled cfg then pm_set LM (vid n) (snd e) (m_labels s)
                 else m_labels s;
     m_edge := Some (v, e);
     m_limit := m_limit s; m_calls := m_calls s |}.

(** minimum_spanning_tree.py:315-318 *)
Definition mst_expand (s : mst_state) (n : V) (limit : option Z) : mst_state :=
  {| m_pc := MEdges n (next n); m_heap := m_heap s; m_no := m_no s; m_visited := m_visited s; m_pred := m_pred s;
     m_labels := m_labels s; m_edge := m_edge s; m_limit := limit; m_calls := n :: m_calls s |}.

(** minimum_spanning_tree.py:348-351 *)
Definition mst_push (s : mst_state) (v : V) (e : V * W * L) (rest : list (V * W * L)) : mst_state :=
  {| m_pc := MEdges v rest;
     m_heap := heappush WT ((snd (fst e), m_no s), (v, e)) (m_heap s);
     m_no := m_no s + 1;
     m_visited := m_visited s; m_pred := m_pred s; m_labels := m_labels s; m_edge := m_edge s;
     m_limit := m_limit s; m_calls := m_calls s |}.

(** One pass, minimum_spanning_tree.py:208-351. *)
Definition mst_step (s : mst_state) : step_result mst_state mst_report exn :=
  match m_pc s with
  | MStart starts =>
      match mst_limit_start (m_limit s) (length starts) with                     (* lines 208-213 *)
      | None => Raise [] RuntimeErrorLimit s
      | Some lim => Go [] (mst_begin s starts lim)
      end
  | MLoop =>
      match m_heap s with
      | [] => Halt [] s
      | (_, (v, e)) :: h =>
          let n := fst (fst e) in
          let s1 := m_set_heap s h in
          if vs_mem VS (vid n) (m_visited s) then Go [] s1                       (* lines 263-286 *)
          else
            let s2 := mst_choose s1 v e in
            match limit_check (m_limit s2) with                                  (* lines 313-316 *)
            | None => Raise [mst_observe n s2] RuntimeErrorLimit s2
            | Some lim => Go [mst_observe n s2] (mst_expand s2 n lim)
            end
      end
  | MEdges v [] => Go [] (m_set_pc s MLoop)
  | MEdges v (e :: rest) =>
      if vs_mem VS (vid (fst (fst e))) (m_visited s)                             (* lines 328-346 *)
      then Go [] (m_set_pc s (MEdges v rest))
      else Go [] (mst_push s v e rest)
  end.
End MST.

Arguments m_pc {V I L WT VS PM LM}. Arguments m_heap {V I L WT VS PM LM}. Arguments m_no {V I L WT VS PM LM}.
Arguments m_visited {V I L WT VS PM LM}. Arguments m_pred {V I L WT VS PM LM}. Arguments m_labels {V I L WT VS PM LM}.
Arguments m_edge {V I L WT VS PM LM}. Arguments m_limit {V I L WT VS PM LM}. Arguments m_calls {V I L WT VS PM LM}.
Arguments mr_vertex {V I L WT PM LM}. Arguments mr_edge {V I L WT PM LM}.
Arguments mr_pred {V I L WT PM LM}. Arguments mr_labels {V I L WT PM LM}.

(** [n] passes of a started traversal. *)
Definition mst_run {V I L} (vid : V -> I) (WT : Weights) (VS : VSet I) (PM : PMap I V) (LM : PMap I L)
    (next : V -> list (V * w_t WT * L)) (cfg : mst_cfg) (starts : list V) (calculation_limit : option Z) (n : nat)
  : list (@mst_report V I L WT PM LM) * outcome (@mst_state V I L WT VS PM LM) exn :=
  run (mst_step vid WT VS PM LM next cfg) n (mst_init vid WT VS PM LM cfg starts calculation_limit).

Definition mst_ids {V I L} (vid : V -> I) {WT : Weights} {PM : PMap I V} {LM : PMap I L}
    (os : list (@mst_report V I L WT PM LM)) : list I := map (fun rep => vid (mr_vertex rep)) os.
