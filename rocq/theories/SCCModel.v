(** Model of the program for strongly connected components in the documentation of the library, docs/source/reduction_of_other_problems.rst:680-718, on top of the model of TraversalDepthFirst. *)
From Coq Require Import List Bool Arith ZArith.
From Verif Require Import Machine GearSpec Common DFSModel.
Import ListNotations.
Open Scope Z_scope.

(** reduction_of_other_problems.rst:682-684: the options of start_from, the others have their default values *)
Definition scc_options : dfs_cfg :=
  {| dc_is_tree := false; dc_build_paths := false; dc_labeled := false; dc_mode := DFS_TREE;
     dc_report := fun ev => match ev with ENTERING_START | LEAVING_START | ENTERING_SUCCESSOR | LEAVING_SUCCESSOR | SOME_NON_TREE_EDGE => true | _ => false end;
     dc_compute_depth := false; dc_compute_trace := true; dc_compute_on_trace := false; dc_compute_index := true |}.

Section SCC.
Context {V L : Type}.
Variable V_dec : forall a b : V, {a = b} + {a <> b}.
Variable VS : VSet V.
Variable PM : PMap V V.
Variable LM : PMap V L.
Variable XM : DMap V Z 0.
Variable next : V -> list (V * L).
Notation report := (@dfs_report V V L VS PM LM XM).
Notation state := (@dfs_state V V L VS PM LM XM).

(** A Python dictionary, the last inserted key first *)
Definition dict : Type := list (V * Z).
Fixpoint dict_get (v : V) (d : dict) : option Z :=
  match d with [] => None | (w, x) :: r => if V_dec w v then Some x else dict_get v r end.
(** Assignment to an existing key keeps its position. *)
Fixpoint dict_update (v : V) (x : Z) (d : dict) : dict :=
  match d with [] => [] | (w, y) :: r => if V_dec w v then (w, x) :: r else (w, y) :: dict_update v x r end.
Definition dict_set (v : V) (x : Z) (d : dict) : dict :=
  match dict_get v d with Some _ => dict_update v x d | None => (v, x) :: d end.

(** trace[-2] *)
Definition before_last (trace : list V) : option V := match rev trace with _ :: u :: _ => Some u | _ => None end.

(** index[v] and [v in index]; numbers begin with 1, a missing key has the number 0. *)
Definition index_get (v : V) (index : dm_t XM) : option Z := let x := dm_get XM v index in if x =? 0 then None else Some x.
(** del index[w] *)
Definition index_del (index : dm_t XM) (w : V) : dm_t XM := dm_set XM w 0 index.

(** Lines 713-717: the loop that takes vertices from the dictionary up to [v]; [None]: KeyError (empty dictionary, or no index). *)
Fixpoint scc_take (v : V) (low_link : dict) (index : dm_t XM) : option (list V * dict * dm_t XM) :=
  match low_link with
  | [] => None
  | (w, _) :: rest =>
      match index_get w index with
      | None => None
      | Some _ =>
          if V_dec v w then Some ([w], rest, index_del index w)
          else match scc_take v rest (index_del index w) with
               | None => None
               | Some (component, low_link', index') => Some (w :: component, low_link', index')
               end
      end
  end.

(** Lines 708-718: leaving [v]. The result: components that are reported (none or one), low_link, index; [None]: KeyError or IndexError. *)
Definition scc_leave (v : V) (low_link : dict) (index : dm_t XM) : option (list (list V) * dict * dm_t XM) :=
  match dict_get v low_link, index_get v index with
  | Some l, Some i =>
      if l =? i then match scc_take v low_link index with None => None | Some (component, low_link', index') => Some ([component], low_link', index') end
      else Some ([], low_link, index)
  | _, _ => None
  end.

(** Lines 691-718: the body of the loop, for the report [rep]; the program reads and changes the dictionary low_link and the attribute index of the traversal. *)
Definition scc_handle (rep : report) (low_link : dict) (index : dm_t XM) : option (list (list V) * dict * dm_t XM) :=
  let v := fr_vertex rep in
  match fr_event rep with
  | Some ENTERING_START | Some ENTERING_SUCCESSOR =>                                              (* lines 692-696 *)
      match index_get v index with None => None | Some i => Some ([], dict_set v i low_link, index) end
  | Some SOME_NON_TREE_EDGE =>
      match dict_get v low_link with
      | None => Some ([], low_link, index)
      | Some _ =>                                                                                 (* lines 697-702 *)
          match index_get v index, before_last (fr_trace rep) with
          | Some i, Some u =>
              match dict_get u low_link with
              | None => None
              | Some l => Some ([], if i <? l then dict_set u i low_link else low_link, index)
              end
          | _, _ => None
          end
      end
  | Some LEAVING_SUCCESSOR =>                                                                     (* lines 703-707 *)
      match dict_get v low_link, before_last (fr_trace rep) with
      | Some l, Some u =>
          match dict_get u low_link with
          | None => None
          | Some lu => scc_leave v (if l <? lu then dict_set u l low_link else low_link) index
          end
      | _, _ => None
      end
  | Some LEAVING_START => scc_leave v low_link index                                              (* lines 708-718 *)
  | _ => Some ([], low_link, index)
  end.

(** Lines 690-718: the loop, for the reports of a pass of the traversal (at most one) *)
Fixpoint scc_handle_all (reps : list report) (low_link : dict) (index : dm_t XM) : option (list (list V) * dict * dm_t XM) :=
  match reps with
  | [] => Some ([], low_link, index)
  | rep :: rest =>
      match scc_handle rep low_link index with
      | None => None
      | Some (cs, low_link', index') =>
          match scc_handle_all rest low_link' index' with None => None | Some (cs', low_link'', index'') => Some (cs ++ cs', low_link'', index'') end
      end
  end.

(** The attribute index of the traversal, changed by the program (line 716) *)
Definition set_index (s : state) (index : dm_t XM) : state :=
  {| f_pc := f_pc s; f_starts := f_starts s; f_start := f_start s; f_to_visit := f_to_visit s; f_to_visit_labels := f_to_visit_labels s; f_markers := f_markers s;
     f_var_labels := f_var_labels s; f_trace := f_trace s; f_trace_labels := f_trace_labels s; f_on_trace := f_on_trace s; f_index := index; f_time := f_time s; f_depth := f_depth s;
     f_event := f_event s; f_visited := f_visited s; f_pred := f_pred s; f_labels := f_labels s; f_limit := f_limit s; f_count := f_count s; f_calls := f_calls s |}.

(** Lines 681-688: the traversal and the dictionary of the program *)
Record scc_state := { scc_dfs : state; scc_low_link : dict }.

(** One pass of the traversal, and what the program does with the vertex that is reported in it. KeyErrorNotFound stands for a KeyError or IndexError in the program itself.
    The traversal does not change its index between the report and the end of the pass. *)
Definition scc_step (s : scc_state) : step_result scc_state (list V) exn :=
  let go reps d k :=
    match scc_handle_all reps (scc_low_link s) (f_index d) with
    | None => Raise [] KeyErrorNotFound {| scc_dfs := d; scc_low_link := scc_low_link s |}
    | Some (cs, low_link, index) => k cs {| scc_dfs := set_index d index; scc_low_link := low_link |}
    end in
  match dfs_step V_dec (fun v => v) VS PM LM XM next scc_options (fun _ => false) (scc_dfs s) with
  | Go reps d => go reps d (fun cs s' => Go cs s')
  | Halt reps d => go reps d (fun cs s' => Halt cs s')
  | Raise reps x d => go reps d (fun cs s' => Raise cs x s')
  end.

(** [n] passes of the program tarjan_strongly_connected_components(next_vertices, start_vertices); the vertices are their own ids, and [lim] is a calculation_limit (the program has none) *)
Definition scc_run (starts : list V) (lim : option Z) (n : nat) : list (list V) * outcome scc_state exn :=
  run scc_step n {| scc_dfs := dfs_init (fun v => v) VS PM LM XM scc_options starts None lim; scc_low_link := [] |}.
End SCC.
Arguments scc_dfs {V L VS PM LM XM}. Arguments scc_low_link {V L VS PM LM XM}.
