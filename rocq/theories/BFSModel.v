(** Model of [TraversalBreadthFirstFlex]
    (src/nographs/_strategies/traversals/without_weights/breadth_first.py). *)
From Coq Require Import List ZArith Bool.
From Verif Require Import Machine GearSpec Common.
Import ListNotations.

Section BFS.
Context {V I L : Type}.
Variable vid : V -> I.                 (* vertex_to_id *)
Variable VS : VSet I.                  (* gear.vertex_id_set *)
Variable PM : PMap I V.                (* gear.vertex_id_to_vertex_mapping *)
Variable LM : PMap I L.                (* gear.vertex_id_to_edge_labels_mapping *)
(** The neighbor function: out-edges of a vertex as (end vertex, labels). For unlabeled
    edges, [L] can be [unit]. Simplification: it does not read the traversal state (for that, see AwareModel). *)
Variable next : V -> list (V * L).

(** Options of the constructor and of [start_from], breadth_first.py:88-130, 163-210. *)
Record bfs_cfg := {
  bc_is_tree : bool;
  bc_build_paths : bool;
  bc_labeled : bool;
  bc_report_depth_increase : bool
}.
Variable cfg : bfs_cfg.

(** Position in the nested loops, breadth_first.py:300-385. *)
Inductive bfs_pc :=
| BWhile                                (* line 300: while to_expand *)
| BFor                                  (* line 301: for vertex in to_expand *)
| BEdges (v : V) (rest : list (V * L)). (* line 307: remaining edges of vertex *)

(** Local variables and attributes. [b_calls] records the calls of the neighbor
    function (most recent first): this is how the user observes expansions.
    [b_to_expand] holds the vertices the for loop has still to process. *)
Record bfs_state := {
  b_pc : bfs_pc;
  b_to_expand : list V;
  b_next : list V;
  b_depth : Z;
  b_visited : vs_t VS;
  b_pred : pm_t PM;
  b_labels : pm_t LM;
  b_limit : option Z;
  b_calls : list V
}.

(** What the user sees when a vertex is reported: vertex and attributes. *)
Record bfs_report := {
  br_vertex : V;
  br_depth : Z;
  br_visited : vs_t VS;
  br_pred : pm_t PM;
  br_labels : pm_t LM
}.

Definition bfs_observe (v : V) (s : bfs_state) : bfs_report :=
  {| br_vertex := v; br_depth := b_depth s; br_visited := b_visited s;
     br_pred := b_pred s; br_labels := b_labels s |}.

(** breadth_first.py:198-210 and 262-276: state at the begin of the loop. *)
Definition bfs_init (starts : list V) (already_visited : option (vs_t VS))
    (calculation_limit : option Z) : bfs_state :=
  {| b_pc := BWhile;
     b_to_expand := starts;
     b_next := [];
     b_depth := 1;
     b_visited := define_visited VS already_visited (map vid starts) (bc_is_tree cfg);
     b_pred := create_predecessors vid PM (bc_build_paths cfg) starts;
     b_labels := pm_empty LM;
     b_limit := limit_init calculation_limit;
     b_calls := [] |}.

Definition b_set_pc (s : bfs_state) (pc : bfs_pc) : bfs_state :=
  {| b_pc := pc; b_to_expand := b_to_expand s; b_next := b_next s; b_depth := b_depth s;
     b_visited := b_visited s; b_pred := b_pred s; b_labels := b_labels s;
     b_limit := b_limit s; b_calls := b_calls s |}.

(** breadth_first.py:310-361: mark the neighbor as visited, store predecessor and labels. *)
Definition bfs_mark (s : bfs_state) (v : V) (n : V) (l : L) (rest : list (V * L)) : bfs_state :=
  {| b_pc := BEdges v rest; b_to_expand := b_to_expand s; b_next := b_next s;
     b_depth := b_depth s;
     b_visited := if bc_is_tree cfg then b_visited s else vs_add VS (vid n) (b_visited s);
     b_pred := if bc_build_paths cfg then pm_set PM (vid n) v (b_pred s) else b_pred s;
     b_labels := if bc_build_paths cfg && bc_labeled cfg
                 then pm_set LM (vid n) l (b_labels s) else b_labels s;
     b_limit := b_limit s; b_calls := b_calls s |}.

(** One pass, breadth_first.py:300-390. *)
Definition bfs_step (s : bfs_state) : step_result bfs_state bfs_report exn :=
  match b_pc s with
  | BWhile =>
      match b_to_expand s with
      | [] => (* line 390: self.depth -= 2 *)
          Halt [] {| b_pc := BWhile; b_to_expand := []; b_next := b_next s;
                     b_depth := b_depth s - 2; b_visited := b_visited s; b_pred := b_pred s;
                     b_labels := b_labels s; b_limit := b_limit s; b_calls := b_calls s |}
      | _ :: _ => Go [] (b_set_pc s BFor)
      end
  | BFor =>
      match b_to_expand s with
      | v :: r =>
          match limit_check (b_limit s) with          (* lines 302-305 *)
          | None => Raise [] RuntimeErrorLimit s
          | Some lim =>
              Go [] {| b_pc := BEdges v (next v); b_to_expand := r; b_next := b_next s;
                       b_depth := b_depth s; b_visited := b_visited s; b_pred := b_pred s;
                       b_labels := b_labels s; b_limit := lim; b_calls := v :: b_calls s |}
          end
      | [] => (* lines 368-385: end of a depth level *)
          Go (if bc_report_depth_increase cfg
              then match rev (b_next s) with [] => [] | v :: _ => [bfs_observe v s] end
              else [])
             {| b_pc := BWhile; b_to_expand := b_next s; b_next := [];
                b_depth := b_depth s + 1; b_visited := b_visited s; b_pred := b_pred s;
                b_labels := b_labels s; b_limit := b_limit s; b_calls := b_calls s |}
      end
  | BEdges v [] => Go [] (b_set_pc s BFor)
  | BEdges v ((n, l) :: rest) =>
      if negb (bc_is_tree cfg) && vs_mem VS (vid n) (b_visited s)  (* lines 317-345 *)
      then Go [] (b_set_pc s (BEdges v rest))
      else
        let s1 := bfs_mark s v n l rest in
        Go [bfs_observe n s1]                                        (* line 364 *)
           {| b_pc := BEdges v rest; b_to_expand := b_to_expand s1;
              b_next := b_next s1 ++ [n];                            (* line 366 *)
              b_depth := b_depth s1; b_visited := b_visited s1; b_pred := b_pred s1;
              b_labels := b_labels s1; b_limit := b_limit s1; b_calls := b_calls s1 |}
  end.

End BFS.

Arguments b_pc {V I L VS PM LM}. Arguments b_to_expand {V I L VS PM LM}.
Arguments b_next {V I L VS PM LM}. Arguments b_depth {V I L VS PM LM}.
Arguments b_visited {V I L VS PM LM}. Arguments b_pred {V I L VS PM LM}.
Arguments b_labels {V I L VS PM LM}. Arguments b_limit {V I L VS PM LM}.
Arguments b_calls {V I L VS PM LM}.
Arguments br_vertex {V I L VS PM LM}. Arguments br_depth {V I L VS PM LM}.
Arguments br_visited {V I L VS PM LM}. Arguments br_pred {V I L VS PM LM}.
Arguments br_labels {V I L VS PM LM}.

(** [n] passes of a traversal started with the given options ([traversal.start_from(...)] and
    iterating it). *)
Definition bfs_run {V I L} (vid : V -> I) (VS : VSet I) (PM : PMap I V) (LM : PMap I L)
    (next : V -> list (V * L)) (cfg : bfs_cfg) (starts : list V)
    (already_visited : option (vs_t VS)) (calculation_limit : option Z) (n : nat)
  : list (@bfs_report V I L VS PM LM) * outcome (@bfs_state V I L VS PM LM) exn :=
  run (bfs_step vid VS PM LM next cfg) n
      (bfs_init vid VS PM LM cfg starts already_visited calculation_limit).

(** The ids of the reported vertices, in the order of the reports. *)
Definition bfs_ids {V I L} (vid : V -> I) {VS : VSet I} {PM : PMap I V} {LM : PMap I L}
    (os : list (@bfs_report V I L VS PM LM)) : list I := map (fun rep => vid (br_vertex rep)) os.
