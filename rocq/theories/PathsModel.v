(** Model of [_paths.py]: paths stored by predecessors. *)
From Coq Require Import List Arith.
From Verif Require Import GearSpec Common.
Import ListNotations.

(** Result of following predecessors. [PFuel]: not finished within the bound. *)
Inductive pres (A : Type) :=
| POk (a : A)
| PErr (x : exn)
| PFuel.
Arguments POk {A}. Arguments PErr {A}. Arguments PFuel {A}.

Section Paths.
Context {V I L : Type}.
Variable V_dec : forall a b : V, {a = b} + {a <> b}.
Variable vid : V -> I.
Variable PM : PMap I V.
Variable LM : PMap I L.
Variable pred : pm_t PM.
Variable labels : pm_t LM.

(** _paths.py:81-94 ([__contains__]). *)
Definition paths_contains (v : V) : bool :=
  match pm_get PM (vid v) pred with Some _ => true | None => false end.

(** _paths.py:111-127 ([predecessor]); inner option: [None] for the empty path. *)
Definition paths_predecessor (v : V) : pres (option V) :=
  match pm_get PM (vid v) pred with
  | None => PErr RuntimeErrorNoPath
  | Some u => if V_dec v u then POk None else POk (Some u)
  end.

(** _paths.py:139-148, the loop of [iter_vertices_to_start]; [fuel] bounds the
    number of loop passes. *)
Fixpoint vertices_to_start_loop (fuel : nat) (v : V) : pres (list V) :=
  match fuel with
  | 0 => PFuel
  | S fuel' =>
      match pm_get PM (vid v) pred with
      | None => PErr AssertionModel
      | Some u =>
          if V_dec v u then POk [v]
          else match vertices_to_start_loop fuel' u with
               | POk l => POk (v :: l)
               | PErr x => PErr x
               | PFuel => PFuel
               end
      end
  end.

(** _paths.py:129-148 ([iter_vertices_to_start]) with _paths.py:96-109 ([_check_vertex]). *)
Definition iter_vertices_to_start (fuel : nat) (v : V) : pres (list V) :=
  if paths_contains v then vertices_to_start_loop fuel v else PErr RuntimeErrorNoPath.

Definition pres_map {A B} (f : A -> B) (r : pres A) : pres B :=
  match r with POk a => POk (f a) | PErr x => PErr x | PFuel => PFuel end.

(** _paths.py:150-157 ([iter_vertices_from_start]); _paths.py:362-369 ([__getitem__], unlabeled). *)
Definition iter_vertices_from_start (fuel : nat) (v : V) : pres (list V) :=
  pres_map (@rev V) (iter_vertices_to_start fuel v).

(** _paths.py:174-187, the loop of [_iter_raw_edges_to_start]: (from, to, id of to).
    In the loop, a missing predecessor ends the iteration (line 181). *)
Fixpoint raw_edges_loop (fuel : nat) (v : V) : pres (list (V * V * I)) :=
  match fuel with
  | 0 => PFuel
  | S fuel' =>
      match pm_get PM (vid v) pred with
      | None => POk []
      | Some u =>
          if V_dec u v then POk []
          else pres_map (cons (u, v, vid v)) (raw_edges_loop fuel' u)
      end
  end.

(** _paths.py:159-187 ([_iter_raw_edges_to_start]). *)
Definition iter_raw_edges_to_start (fuel : nat) (v : V) : pres (list (V * V * I)) :=
  if paths_contains v then raw_edges_loop fuel v else PErr RuntimeErrorNoPath.

(** _paths.py:189-198 ([iter_edges_to_start]). *)
Definition iter_edges_to_start (fuel : nat) (v : V) : pres (list (V * V)) :=
  pres_map (map fst) (iter_raw_edges_to_start fuel v).

(** _paths.py:200-209 ([iter_edges_from_start]). *)
Definition iter_edges_from_start (fuel : nat) (v : V) : pres (list (V * V)) :=
  pres_map (@rev (V * V)) (iter_edges_to_start fuel v).

(** _paths.py:448-467 ([_iter_path_edges]): attach the labels stored for the end vertex. *)
Fixpoint iter_path_edges (l : list (V * V * I)) : pres (list (V * V * L)) :=
  match l with
  | [] => POk []
  | (u, v, i) :: r =>
      match pm_get LM i labels with
      | None => PErr AssertionModel
      | Some d => pres_map (cons (u, v, d)) (iter_path_edges r)
      end
  end.

(** _paths.py:469-472 ([iter_labeled_edges_to_start]). *)
Definition iter_labeled_edges_to_start (fuel : nat) (v : V) : pres (list (V * V * L)) :=
  match iter_raw_edges_to_start fuel v with
  | POk l => iter_path_edges l
  | PErr x => PErr x
  | PFuel => PFuel
  end.

(** _paths.py:474-479 ([iter_labeled_edges_from_start]); _paths.py:481-490 ([__getitem__], labeled). *)
Definition iter_labeled_edges_from_start (fuel : nat) (v : V) : pres (list (V * V * L)) :=
  match iter_raw_edges_to_start fuel v with
  | POk l => iter_path_edges (rev l)
  | PErr x => PErr x
  | PFuel => PFuel
  end.
End Paths.

(** _paths.py:414-446 ([append_edge] of labeled paths; the traversals inline this code). *)
Definition append_edge {V I L} (PM : PMap I V) (LM : PMap I L) (pred : pm_t PM) (labels : pm_t LM)
    (from_vertex : V) (to_vertex_id : I) (data_of_edge : L) : pm_t PM * pm_t LM :=
  (pm_set PM to_vertex_id from_vertex pred, pm_set LM to_vertex_id data_of_edge labels).
