(** Model of class [Array] (src/nographs/_extra_matrix_gadgets.py).
    Arrays are built from nested Python sequences, and writing to an array changes such an object.  So the model has objects and references. *)
From Coq Require Import List ZArith Bool.
From Verif Require Import PositionModel.
Import ListNotations.
Local Open Scope Z_scope.

(** Exceptions *)
Inductive aexn := AIndexError | ATypeError.

Section Array.
Context {C : Type}.     (* values that are no sequences *)

(** A Python value: one that is no sequence, or a reference to a sequence. *)
Inductive val := VCell (c : C) | VSeq (r : nat).

(** The sequences: can it be changed (list) or not (tuple, string, ...); the elements. *)
Definition store := list (bool * list val).

Definition sequence (st : store) (v : val) : (bool * list val) + aexn :=
  match v with
  | VCell _ => inr ATypeError
  | VSeq r => match nth_error st r with Some o => inl o | None => inr ATypeError end
  end.

(** [l[i]]: negative indices count from the end. *)
Definition py_position {A} (l : list A) (i : Z) : option nat :=
  let n := Z.of_nat (length l) in
  let j := if i <? 0 then n + i else i in
  if (j <? 0) || (n <=? j) then None else Some (Z.to_nat j).
Definition py_index {A} (l : list A) (i : Z) : A + aexn :=
  match py_position l i with
  | None => inr AIndexError
  | Some j => match nth_error l j with Some x => inl x | None => inr AIndexError end
  end.

(** _extra_matrix_gadgets.py:204-213 ([__getitem__]) *)
Fixpoint array_get (st : store) (v : val) (p : position) : val + aexn :=
  match p with
  | [] => inl v
  | i :: r => match sequence st v with
              | inr e => inr e
              | inl (_, l) => match py_index l i with inr e => inr e | inl x => array_get st x r end
              end
  end.

Fixpoint list_set {A} (l : list A) (j : nat) (x : A) : list A :=
  match l, j with
  | [], _ => []
  | _ :: r, O => x :: r
  | y :: r, S j => y :: list_set r j x
  end.

(** _extra_matrix_gadgets.py:215-229 ([__setitem__]) *)
Fixpoint array_set (st : store) (v : val) (p : position) (x : val) : store + aexn :=
  match p with
  | [] => inr AIndexError                                      (* position[-1] *)
  | [i] => match v with
           | VCell _ => inr ATypeError
           | VSeq row => match nth_error st row with
                         | None => inr ATypeError
                         | Some (mutable, l) =>
                             if negb mutable then inr ATypeError
                             else match py_position l i with
                                  | None => inr AIndexError
                                  | Some j => inl (list_set st row (mutable, list_set l j x))
                                  end
                         end
           end
  | i :: r => match sequence st v with
              | inr e => inr e
              | inl (_, l) => match py_index l i with inr e => inr e | inl y => array_set st y r x end
              end
  end.

(** _extra_matrix_gadgets.py:175-184 ([size]): also after the last dimension, the first element is accessed *)
Fixpoint array_size (st : store) (v : val) (dimensions : nat) : list Z + aexn :=
  match dimensions with
  | O => inl []
  | S d => match sequence st v with
           | inr e => inr e
           | inl (_, l) => match py_index l 0 with
                           | inr e => inr e
                           | inl area => match array_size st area d with inr e => inr e | inl s => inl (Z.of_nat (length l) :: s) end
                           end
           end
  end.

(** _extra_matrix_gadgets.py:186-191 *)
Definition array_limits (st : store) (v : val) (dimensions : nat) : limits_t + aexn :=
  match array_size st v dimensions with inr e => inr e | inl s => inl (map (fun n => (0, n)) s) end.

(** A loop that calls a function that can create objects, and collects the results in a list *)
Fixpoint collect {A B S : Type} (f : S -> A -> (S * B) + aexn) (s : S) (l : list A) : (S * list B) + aexn :=
  match l with
  | [] => inl (s, [])
  | x :: r => match f s x with
              | inr e => inr e
              | inl (s', y) => match collect f s' r with inr e => inr e | inl (s'', ys) => inl (s'', y :: ys) end
              end
  end.

Definition allocate (st : store) (l : list val) : store * val := (st ++ [(true, l)], VSeq (length st)).

(** _extra_matrix_gadgets.py:193-202 ([mutable_copy], its function [_writable]) *)
Fixpoint writable (dimensions : nat) (st : store) (area : val) : (store * val) + aexn :=
  match sequence st area with
  | inr e => inr e
  | inl (_, l) =>
      match dimensions with
      | S (S _ as d) => match collect (writable d) st l with inr e => inr e | inl (st', l') => inl (allocate st' l') end
      | _ => inl (allocate st l)
      end
  end.

(** [enumerate] *)
Fixpoint enumerate {A} (from : Z) (l : list A) : list (Z * A) := match l with [] => [] | x :: r => (from, x) :: enumerate (from + 1) r end.

(** Concatenation of the results of a generator that is called in a loop *)
Fixpoint concat_results {A B} (f : A -> list B + aexn) (l : list A) : list B + aexn :=
  match l with
  | [] => inl []
  | x :: r => match f x, concat_results f r with inl a, inl b => inl (a ++ b) | inr e, _ => inr e | _, inr e => inr e end
  end.

(** _extra_matrix_gadgets.py:231-258 ([items]).  Simplification: if the iteration raises an exception, the model does not have the items before it.
    [S O] is the innermost dimension; dimension 0 is not supported by the code. *)
Fixpoint array_items (st : store) (area : val) (dimensions : nat) : list (position * val) + aexn :=
  match dimensions with
  | O => inr ATypeError
  | S d =>
      match sequence st area with
      | inr e => inr e
      | inl (_, l) =>
          match d with
          | O => inl (map (fun ix => ([fst ix], snd ix)) (enumerate 0 l))
          | S _ => concat_results (fun ix => match array_items st (snd ix) d with
                                             | inr e => inr e
                                             | inl sub => inl (map (fun pc => (fst ix :: fst pc, snd pc)) sub)
                                             end) (enumerate 0 l)
          end
      end
  end.

(** _extra_matrix_gadgets.py:260-284 ([findall]).  [found]: membership in the set of the searched contents. *)
Fixpoint array_findall (st : store) (found : val -> bool) (area : val) (dimensions : nat) : list position + aexn :=
  match dimensions with
  | O => inr ATypeError
  | S d =>
      match sequence st area with
      | inr e => inr e
      | inl (_, l) =>
          match d with
          | O => inl (map (fun ix => [fst ix]) (filter (fun ix => found (snd ix)) (enumerate 0 l)))
          | S _ => concat_results (fun ix => match array_findall st found (snd ix) d with
                                             | inr e => inr e
                                             | inl sub => inl (map (cons (fst ix)) sub)
                                             end) (enumerate 0 l)
          end
      end
  end.

(** How the iteration of neighbors ends. *)
Inductive array_end := ArrayDone | ArrayExn (e : aexn) | ArrayPos (e : pos_end).

(** The loop of lines 309-311 and 340-343: [choose] decides by the content of the array at the neighbor *)
Fixpoint choose_neighbors {B} (st : store) (v : val) (choose : position -> val -> option B) (qs : list position) (e : pos_end) : list B * array_end :=
  match qs with
  | [] => ([], match e with PosDone => ArrayDone | _ => ArrayPos e end)
  | q :: r => match array_get st v q with
              | inr x => ([], ArrayExn x)
              | inl c => let '(l, y) := choose_neighbors st v choose r e in
                         (match choose q c with Some b => b :: l | None => l end, y)
              end
  end.

(** _extra_matrix_gadgets.py:286-313: a call of the neighbor function.  Limits and moves have been computed when the function was created; the content of the array is
    that at the time of the call. *)
Definition next_vertices (st : store) (v : val) (limits : limits_t) (ms : list position) (wrap : bool) (forbidden : val -> bool) (p : position) : list position * array_end :=
  let '(qs, e) := neighbors p ms (Some limits) wrap in
  choose_neighbors st v (fun q c => if forbidden c then None else Some q) qs e.

(** _extra_matrix_gadgets.py:315-345 *)
Definition next_edges {W} (st : store) (v : val) (limits : limits_t) (ms : list position) (wrap : bool) (content_to_weight : val -> option W) (p : position) : list (position * W) * array_end :=
  let '(qs, e) := neighbors p ms (Some limits) wrap in
  choose_neighbors st v (fun q c => match content_to_weight c with Some w => Some (q, w) | None => None end) qs e.

(** _extra_matrix_gadgets.py:303-306, 336-337: what is computed when a neighbor function is created *)
Definition neighbor_data (st : store) (v : val) (dimensions : nat) (diagonals : bool) : (limits_t * list position) + aexn :=
  match array_limits st v dimensions, moves dimensions diagonals false None with
  | inl limits, inl ms => inl (limits, ms)
  | inr e, _ => inr e
  | _, inr _ => inr ATypeError     (* impossible *)
  end.
End Array.
Arguments val : clear implicits.
Arguments store : clear implicits.
