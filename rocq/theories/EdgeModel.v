(** Model of src/nographs/_extra_edge_gadgets.py. *)
From Coq Require Import List ZArith Bool.
Import ListNotations.

(** A dict, as the list of its items in the order of insertion.  [X]: what is stored in the lists. *)
Section Dict.
Context {K X : Type}.
Variable K_dec : forall a b : K, {a = b} + {a <> b}.     (* == *)

(** [d[k]], KeyError is [None] *)
Fixpoint dict_get (d : list (K * list X)) (k : K) : option (list X) :=
  match d with
  | [] => None
  | (k', l) :: r => if K_dec k k' then Some l else dict_get r k
  end.

(** _extra_edge_gadgets.py:199-225: [edge_dict[k].append(x)] for a defaultdict of lists *)
Fixpoint dict_append (d : list (K * list X)) (k : K) (x : X) : list (K * list X) :=
  match d with
  | [] => [(k, [x])]
  | (k', l) :: r => if K_dec k k' then (k', l ++ [x]) :: r else (k', l) :: dict_append r k x
  end.

(** _extra_edge_gadgets.py:137-145 ([get]) for a mapping.  [default]: the mapping is a defaultdict of lists, thus a look-up of an unknown key does not raise a
    KeyError but stores an empty list.  Returned are the answer and the changed mapping. *)
Definition get_mapping (default : bool) (d : list (K * list X)) (k : K) : list X * list (K * list X) :=
  match dict_get d k with
  | Some l => (l, d)
  | None => ([], if default then d ++ [(k, [])] else d)
  end.

(** The answers to a sequence of calls of the neighbor function. *)
Fixpoint mapping_answers (default : bool) (d : list (K * list X)) (calls : list K) : list (list X) :=
  match calls with
  | [] => []
  | k :: r => let '(l, d') := get_mapping default d k in l :: mapping_answers default d' r
  end.
End Dict.

(** _extra_edge_gadgets.py:137-145 ([get]) for a sequence: an integer index counts from the end if it is negative, IndexError leads to no edges. *)
Definition get_sequence {X} (s : list (list X)) (i : Z) : list X :=
  let j := if (i <? 0)%Z then (Z.of_nat (length s) + i)%Z else i in
  if (j <? 0)%Z then [] else match nth_error s (Z.to_nat j) with Some l => l | None => [] end.

(** ** adapt_edge_iterable *)

(** An edge (from, to, data...); [D]: type of the weights and labels. *)
Section Iterable.
Context {K D : Type}.
Variable K_dec : forall a b : K, {a = b} + {a <> b}.
Notation edge := (K * K * list D)%type.

(** _extra_edge_gadgets.py:202-208, 217-221: attributes=True.  Out-edges are tuples (to, data...). *)
Definition edge_dict_attributes (add_inverted : bool) (edges : list edge) : list (K * list (K * list D)) :=
  fold_left (fun d e => let '(from, to, data) := e in
    if add_inverted then dict_append K_dec (dict_append K_dec d from (to, data)) to (from, data) else dict_append K_dec d from (to, data)) edges [].

(** _extra_edge_gadgets.py:209-215, 222-225: attributes=False *)
Definition edge_dict_plain (add_inverted : bool) (edges : list edge) : list (K * list K) :=
  fold_left (fun d e => let '(from, to, _) := e in
    if add_inverted then dict_append K_dec (dict_append K_dec d from to) to from else dict_append K_dec d from to) edges [].

(** _extra_edge_gadgets.py:166-225: answers of the returned neighbor function to a sequence of calls *)
Definition iterable_attributes (add_inverted : bool) (edges : list edge) (calls : list K) : list (list (K * list D)) :=
  mapping_answers K_dec true (edge_dict_attributes add_inverted edges) calls.
Definition iterable_plain (add_inverted : bool) (edges : list edge) (calls : list K) : list (list K) :=
  mapping_answers K_dec true (edge_dict_plain add_inverted edges) calls.

(** ** adapt_edge_index *)

(** _extra_edge_gadgets.py:99-107, 137-145: a mapping to lists of edges (to, data...).  Simplification: the values of the mapping can be iterated repeatedly. *)
Definition index_mapping_attributes (default add_inverted : bool) (index : list (K * list (K * list D))) (calls : list K) : list (list (K * list D)) :=
  if add_inverted
  then iterable_attributes true (flat_map (fun p => map (fun e => (fst p, fst e, snd e)) (snd p)) index) calls
  else mapping_answers K_dec default index calls.

(** _extra_edge_gadgets.py:108-113, 137-145: a mapping to lists of vertices *)
Definition index_mapping_plain (default add_inverted : bool) (index : list (K * list K)) (calls : list K) : list (list K) :=
  if add_inverted
  then iterable_plain true (flat_map (fun p => map (fun v => (fst p, v, [])) (snd p)) index) calls
  else mapping_answers K_dec default index calls.
End Iterable.

(** [zip(index, itertools.count())], _extra_edge_gadgets.py:119, 130 *)
Fixpoint numbered {X} (from : Z) (l : list X) : list (Z * X) := match l with [] => [] | x :: r => (from, x) :: numbered (from + 1)%Z r end.

(** _extra_edge_gadgets.py:114-124, 137-145: a sequence of lists of edges (to, data...) *)
Definition index_sequence_attributes {D} (add_inverted : bool) (index : list (list (Z * list D))) (calls : list Z) : list (list (Z * list D)) :=
  if add_inverted
  then iterable_attributes Z.eq_dec true (flat_map (fun p => map (fun e => (fst p, fst e, snd e)) (snd p)) (numbered 0 index)) calls
  else map (get_sequence index) calls.

(** _extra_edge_gadgets.py:125-134, 137-145: a sequence of lists of vertices *)
Definition index_sequence_plain (add_inverted : bool) (index : list (list Z)) (calls : list Z) : list (list Z) :=
  if add_inverted
  then iterable_plain (D := unit) Z.eq_dec true (flat_map (fun p => map (fun v => (fst p, v, [])) (snd p)) (numbered 0 index)) calls
  else map (get_sequence index) calls.
