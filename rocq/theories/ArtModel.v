(** Model of the programs for articulation points and biconnected components in the documentation of the library, docs/source/reduction_of_other_problems.rst:844-918, on top of the model of TraversalDepthFirst. *)
From Coq Require Import List Bool Arith ZArith.
From Verif Require Import Machine GearSpec Common DFSModel SCCModel.
Import ListNotations.
Open Scope Z_scope.

(** reduction_of_other_problems.rst:855-857: the options of start_from, the others have their default values *)
Definition art_options : dfs_cfg :=
  {| dc_is_tree := false; dc_build_paths := false; dc_labeled := false; dc_mode := DFS_TREE;
     dc_report := fun ev => match ev with ENTERING_START | LEAVING_START | ENTERING_SUCCESSOR | LEAVING_SUCCESSOR | SOME_NON_TREE_EDGE => true | _ => false end;
     dc_compute_depth := false; dc_compute_trace := true; dc_compute_on_trace := false; dc_compute_index := false |}.

Section Art.
Context {V L : Type}.
Variable V_dec : forall a b : V, {a = b} + {a <> b}.
Variable VS : VSet V.
Variable PM : PMap V V.
Variable LM : PMap V L.
Variable XM : DMap V Z 0.
Variable next : V -> list (V * L).
Notation report := (@dfs_report V V L VS PM LM XM).

(** Lines 859-861: the dictionaries depths and low_point (the last inserted key first), and dfs_children_of_start *)
Record art_state := { ar_depths : list (V * Z); ar_low : list (V * Z); ar_children : nat }.
Definition art_init : art_state := {| ar_depths := []; ar_low := []; ar_children := 0 |}.

(** trace[-3], if there is one *)
Definition third_last (trace : list V) : option V := match rev trace with _ :: _ :: w :: _ => Some w | _ => None end.

(** Lines 864-893: the body of the loop, for an event at vertex [v]. The result: the vertices that are reported (none or one), and the state; [None]: KeyError or IndexError. *)
Definition art_handle (event : option dfs_event) (v : V) (trace : list V) (st : art_state) : option (list V * art_state) :=
  match event with
  | Some ENTERING_START | Some ENTERING_SUCCESSOR =>                                                    (* lines 865-871 *)
      let depth := Z.of_nat (length trace) - 1 in
      Some ([], {| ar_depths := dict_set V_dec v depth (ar_depths st); ar_low := dict_set V_dec v depth (ar_low st);
                   ar_children := if depth =? 1 then S (ar_children st) else ar_children st |})
  | Some LEAVING_SUCCESSOR =>                                                                           (* lines 872-880 *)
      match dict_get V_dec v (ar_low st), before_last trace with
      | Some l, Some u =>
          match dict_get V_dec u (ar_low st) with
          | None => None
          | Some lu =>
              let depth := Z.of_nat (length trace) - 2 in
              Some (if (0 <? depth) && (depth <=? l) then [u] else [],
                    {| ar_depths := ar_depths st; ar_low := if l <? lu then dict_set V_dec u l (ar_low st) else ar_low st; ar_children := ar_children st |})
          end
      | _, _ => None
      end
  | Some SOME_NON_TREE_EDGE =>                                                                          (* lines 881-889 *)
      if match third_last trace with Some w => if V_dec v w then false else true | None => true end then
        match dict_get V_dec v (ar_depths st), before_last trace with
        | Some d, Some u =>
            match dict_get V_dec u (ar_low st) with
            | None => None
            | Some lu => Some ([], {| ar_depths := ar_depths st; ar_low := if d <? lu then dict_set V_dec u d (ar_low st) else ar_low st; ar_children := ar_children st |})
            end
        | _, _ => None
        end
      else Some ([], st)
  | Some LEAVING_START => Some (if (1 <? ar_children st)%nat then [v] else [], st)                      (* lines 890-893 *)
  | _ => Some ([], st)
  end.

(** Lines 863-893: the loop. The program reads the attributes event and trace of the traversal, and changes nothing in it. *)
Fixpoint art_all (reps : list report) (st : art_state) : option (list V * art_state) :=
  match reps with
  | [] => Some ([], st)
  | rep :: rest =>
      match art_handle (fr_event rep) (fr_vertex rep) (fr_trace rep) st with
      | None => None
      | Some (vs, st') => match art_all rest st' with None => None | Some (vs', st'') => Some (vs ++ vs', st'') end
      end
  end.

(** [n] passes of the program hopcroft_tarjan_articulation_points(next_vertices, any_vertex): the reported vertices ([None]: KeyError or IndexError in the program), and what the traversal does. The vertices are
    their own ids, and [lim] is a calculation_limit (the program has none). *)
Definition art_run (start : V) (lim : option Z) (n : nat) : option (list V) * outcome (@dfs_state V V L VS PM LM XM) exn :=
  let (os, r) := dfs_run V_dec (fun v => v) VS PM LM XM next art_options (fun _ => false) [start] None lim n in
  (option_map fst (art_all os art_init), r).

(** Lines 902-918: hopcroft_tarjan_biconnected_components(articulation_point, lowpoint_dict); [None]: KeyError *)
Fixpoint bic_take (point : V) (low_point : list (V * Z)) : option (list V * list (V * Z)) :=
  match low_point with
  | [] => None
  | (w, l) :: rest =>
      if V_dec w point then Some ([w], (w, l) :: rest)
      else match bic_take point rest with None => None | Some (component, low_point') => Some (w :: component, low_point') end
  end.
Fixpoint bic_points (points : list V) (st : art_state) : option (list (list V) * art_state) :=
  match points with
  | [] => Some ([], st)
  | v :: rest =>
      match bic_take v (ar_low st) with
      | None => None
      | Some (component, low) =>
          match bic_points rest {| ar_depths := ar_depths st; ar_low := low; ar_children := ar_children st |} with
          | None => None
          | Some (cs, st') => Some (component :: cs, st')
          end
      end
  end.
(** The documented loop (lines 943-947): for each reported articulation point, the component is taken from the dictionary that the program above works with. *)
Fixpoint bic_all (reps : list report) (st : art_state) : option (list (list V) * art_state) :=
  match reps with
  | [] => Some ([], st)
  | rep :: rest =>
      match art_handle (fr_event rep) (fr_vertex rep) (fr_trace rep) st with
      | None => None
      | Some (vs, st') =>
          match bic_points vs st' with
          | None => None
          | Some (cs, st'') => match bic_all rest st'' with None => None | Some (cs', st3) => Some (cs ++ cs', st3) end
          end
      end
  end.
Definition bic_run (start : V) (lim : option Z) (n : nat) : option (list (list V)) * outcome (@dfs_state V V L VS PM LM XM) exn :=
  let (os, r) := dfs_run V_dec (fun v => v) VS PM LM XM next art_options (fun _ => false) [start] None lim n in
  (option_map fst (bic_all os art_init), r).
End Art.
Arguments ar_depths {V}. Arguments ar_low {V}. Arguments ar_children {V}. Arguments art_init {V}.
