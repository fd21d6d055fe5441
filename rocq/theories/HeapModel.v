(** Model of Python's [heapq] as used by the traversals: entries are tuples that begin with a key and a
    number that is different for all entries, so that the comparison of tuples is decided by
    these two components. [heappush] is insertion into a sorted list and [heappop] takes
    the first element. Simplification: the binary tree layout of heapq is not modelled; since
    the pairs (key, number) are pairwise different, the minimum is unique, so every correct heap
    pops the same entry. *)
From Coq Require Import List ZArith Bool.
From Verif Require Import Weight.
Import ListNotations.

Section Heap.
Context {P : Type}.
Variable WT : Weights.
Definition entry : Type := w_t WT * Z * P.
Definition e_key (e : entry) : w_t WT := fst (fst e).
Definition e_no (e : entry) : Z := snd (fst e).
Definition e_val (e : entry) : P := snd e.

(** tuple comparison [(key1, no1) <= (key2, no2)] *)
Definition entry_leb (a b : entry) : bool :=
  w_ltb WT (e_key a) (e_key b) ||
  (w_leb WT (e_key a) (e_key b) && w_leb WT (e_key b) (e_key a) && (e_no a <=? e_no b)%Z).

Fixpoint heappush (e : entry) (h : list entry) : list entry :=
  match h with
  | [] => [e]
  | x :: r => if entry_leb e x then e :: h else x :: heappush e r
  end.

(** [heapify] of a list *)
Definition heapify (l : list entry) : list entry := fold_left (fun h e => heappush e h) l [].
End Heap.
Arguments e_key {P WT}. Arguments e_no {P WT}. Arguments e_val {P WT}.
