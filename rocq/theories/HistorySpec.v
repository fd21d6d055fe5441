(** Specification vocabulary: what the entries of a history of operations on one traversal mean. *)
From Coq Require Import List Bool Arith.
From Verif Require Import Common HistoryModel.
Import ListNotations.

Section Spec.
Context {O I : Type}.
Variable I_dec : forall a b : I, {a = b} + {a <> b}.
Variable id : O -> I.

Definition creates (op : operation O I) : bool := match op with GoForVerticesIn _ _ | GoForRange _ _ => true | _ => false end.

(** The operation that has returned the iterator number [k]. *)
Definition creator (before : list (operation O I)) (k : nat) : option (operation O I) := nth_error (filter creates before) k.

(** Is the report [x] one the operation looks for? *)
Definition sought (before : list (operation O I)) (op : operation O I) (x : O) : Prop :=
  match op with
  | Next => True
  | GoTo target _ => id x = target
  | NextOf k =>
      match creator before k with
      | Some (GoForVerticesIn wanted _) => In (id x) wanted
      | Some (GoForRange ge_start lt_stop) => ge_start x = true /\ lt_stop x = true
      | _ => False
      end
  | _ => False
  end.

(** May the operation deliver the report [x]?  (A range iterator compares with its start only until the first report it delivers.) *)
Definition acceptable (before : list (operation O I)) (op : operation O I) (x : O) : Prop :=
  match op with
  | NextOf k =>
      match creator before k with
      | Some (GoForRange ge_start lt_stop) => lt_stop x = true
      | _ => sought before op x
      end
  | _ => sought before op x
  end.

(** What an operation delivers is the last report it has taken, and it has not skipped one that it looks for. *)
Definition entry_ok (before : list (operation O I)) (e : entry O I) : Prop :=
  match e_answer e with
  | Some (Delivers o) =>
      exists skipped, e_taken e = skipped ++ [o] /\ acceptable before (e_operation e) o /\ forall x, In x skipped -> ~ sought before (e_operation e) x
  | _ => forall x, In x (e_taken e) -> ~ sought before (e_operation e) x
  end.

Definition delivers (e : entry O I) : bool := match e_answer e with Some (Delivers _) => true | _ => false end.

Definition is_next_of (k : nat) (e : entry O I) : bool := match e_operation e with NextOf j => Nat.eqb j k | _ => false end.

(** The exception of the traversal itself reaches the caller. *)
Definition raises_own (e : entry O I) : bool := match e_answer e with Some (Raises KeyErrorNotFound) => false | Some (Raises _) => true | _ => false end.
End Spec.

(** All that is delivered by the operations of a history *)
Definition delivered {O I} (h : list (entry O I)) : list O := flat_map (fun e => match e_answer e with Some (Delivers o) => [o] | _ => [] end) h.

(** The operations that may raise KeyError when a vertex is not found: go_to, and the iterators of go_for_vertices_in, if fail_silently is not set. *)
Definition may_raise {O I} (before : list (operation O I)) (op : operation O I) : Prop :=
  match op with
  | GoTo _ fail_silently => fail_silently = false
  | NextOf k => exists wanted, creator before k = Some (GoForVerticesIn wanted false)
  | _ => False
  end.
