(** What the specialised code for sequences has to do. *)
From Coq Require Import List ZArith NArith Bool Arith.
Import ListNotations.

(** A set of ids is represented by a sequence [s] of bytes; [isin k s]: is [k] in the set? [ok]: valid representations. *)
Record correct_set_code (ok : list N -> Prop) (isin : nat -> list N -> bool) (new : list N) (read : nat -> list N -> option bool) (test : nat -> list N -> bool)
    (visit : nat -> list N -> option (list N)) (mark : nat -> list N -> list N) (clear leave : nat -> list N -> option (list N)) : Prop := {
  (* a new set is empty *)
  sc_new : ok new /\ forall k, isin k new = false;
  (* reading an entry: error, or the correct answer *)
  sc_read : forall k s, ok s -> read k s = None \/ read k s = Some (isin k s);
  (* the elements can be read *)
  sc_read_in : forall k s, ok s -> isin k s = true -> read k s = Some true;
  sc_test : forall k s, ok s -> test k s = isin k s;
  (* [visit]: "already in the set", or add the id *)
  sc_visit_in : forall k s, ok s -> isin k s = true -> visit k s = None;
  sc_visit_new : forall k s, ok s -> isin k s = false -> exists s', visit k s = Some s' /\ ok s' /\ forall j, isin j s' = true <-> j = k \/ isin j s = true;
  (* add the id; its entry can be read from then on *)
  sc_mark : forall k s, ok s -> ok (mark k s) /\ forall j, isin j (mark k s) = true <-> j = k \/ isin j s = true;
  (* remove an element *)
  sc_clear : forall k s, ok s -> isin k s = true -> exists s', clear k s = Some s' /\ ok s' /\ forall j, isin j s' = true <-> j <> k /\ isin j s = true;
  (* [leave]: "not in the set", or remove the element *)
  sc_leave_out : forall k s, ok s -> isin k s = false -> leave k s = None;
  sc_leave_in : forall k s, ok s -> isin k s = true -> exists s', leave k s = Some s' /\ ok s' /\ forall j, isin j s' = true <-> j <> k /\ isin j s = true
}.

(** A mapping with default value is represented by a sequence; [val k s]: the value of key [k]. *)
Record correct_map_code {A} (dflt : A) (val : nat -> list A -> A) (new : list A) (read : nat -> list A -> option A) (write : nat -> A -> list A -> option (list A))
    (store : nat -> A -> list A -> list A) (improve : (A -> A -> bool) -> nat -> A -> list A -> option (list A)) : Prop := {
  mc_new : forall k, val k new = dflt;
  (* reading an entry: the correct value, or error if the key has no value *)
  mc_read : forall k s, read k s = Some (val k s) \/ read k s = None /\ val k s = dflt;
  (* once assigned, the entry of a key can be read and be assigned without error *)
  mc_read_set : forall k v s, read k (store k v s) = Some v;
  mc_write_set : forall k v w s, exists s', write k w (store k v s) = Some s' /\ forall j, val j s' = if j =? k then w else val j s;
  mc_store : forall k v s j, val j (store k v s) = if j =? k then v else val j s;
  (* [improve]: ignore the new value if the old one is not worse; values that are not better than "infinity" have been excluded before *)
  mc_improve : forall le k v s, le dflt v = false ->
    (le (val k s) v = true -> improve le k v s = None) /\
    (le (val k s) v = false -> exists s', improve le k v s = Some s' /\ forall j, val j s' = if j =? k then v else val j s)
}.
