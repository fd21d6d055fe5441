(** Model of a traversal object that is used by a program in several ways, one after the other and interleaved: [next], [go_to], and any number of iterators that [go_for_vertices_in],
    [go_for_depth_range] and [go_for_distance_range] have returned.  All of them take vertices from the one generator of the traversal.

    Simplifications: the traversal is not started again during the history; the attributes a range iterator reads (depth, distance) are given by the report it has just fetched. *)
From Coq Require Import List Bool Arith.
From Verif Require Import Machine Common GoModel.
Import ListNotations.

Section History.
Context {O I : Type}.
Variable I_dec : forall a b : I, {a = b} + {a <> b}.
Variable id : O -> I.                  (* id of the reported vertex *)

(** A Python generator object: the reports still to come within a number of passes, and what follows then. *)
Record generator := { g_rest : list O; g_end : source_end }.

(** [next(generator)], when no report is left within the passes: a generator that raises an exception is finished afterwards.
    [Waits]: the call does not return within the passes. *)
Inductive answer := Delivers (o : O) | Stops | Raises (x : exn) | Waits.

Definition fetch_end (e : source_end) : answer * generator :=
  match e with
  | SMore => (Waits, {| g_rest := []; g_end := SMore |})
  | SEnd => (Stops, {| g_rest := []; g_end := SEnd |})
  | SExn x => (Raises x, {| g_rest := []; g_end := SEnd |})
  end.

(** [for v in self._generator: if not wanted(v): continue; ...]: fetch until a report is wanted; also the skipped reports *)
Fixpoint fetch_until (wanted : O -> bool) (l : list O) (e : source_end) : list O * answer * generator :=
  match l with
  | v :: r => if wanted v then ([], Delivers v, {| g_rest := r; g_end := e |})
              else let '(sk, a, g) := fetch_until wanted r e in (v :: sk, a, g)
  | [] => let '(a, g) := fetch_end e in ([], a, g)
  end.

(** The iterators.  [IVertices]: traversal.py:212-240: [None]: not begun; [Some c]: [v_count], suspended at the yield or waiting for a report; [suspended] tells which.
    [IRange]: breadth_first.py:414-425, traversal_with_weights.py:169-180: [first]: in the first for loop.  [IDone]: the iterator is exhausted. *)
Inductive iterator :=
| IVertices (wanted : list I) (fail_silently : bool) (count : option (nat * bool))
| IRange (ge_start lt_stop : O -> bool) (first : bool)
| IDone.

(** traversal.py:216-240, from the begin of the loop *)
Definition vertices_loop (wanted : list I) (fail_silently : bool) (count : nat) (g : generator) : list O * answer * generator * iterator :=
  let '(sk, a, g') := fetch_until (fun v => if in_dec I_dec (id v) wanted then true else false) (g_rest g) (g_end g) in
  match a with
  | Delivers v => (sk ++ [v], a, g', IVertices wanted fail_silently (Some (count, true)))
  | Stops => (sk, if fail_silently then Stops else Raises KeyErrorNotFound, g', IDone)
  | Raises x => (sk, a, g', IDone)
  | Waits => (sk, a, g', IVertices wanted fail_silently (Some (count, false)))
  end.

(** breadth_first.py:420-423: the second loop *)
Definition range_loop (ge_start lt_stop : O -> bool) (g : generator) : list O * answer * generator * iterator :=
  let '(sk, a, g') := fetch_until (fun _ => true) (g_rest g) (g_end g) in
  match a with
  | Delivers v => if negb (lt_stop v) then (sk ++ [v], Stops, g', IDone) else (sk ++ [v], a, g', IRange ge_start lt_stop false)
  | Waits => (sk, a, g', IRange ge_start lt_stop false)
  | _ => (sk, a, g', IDone)
  end.

(** [next] of an iterator: what it takes from the generator, what it answers, and both objects afterwards *)
Definition advance (it : iterator) (g : generator) : list O * answer * generator * iterator :=
  match it with
  | IDone => ([], Stops, g, IDone)
  | IVertices wanted fs None =>
      let vertex_set := nodup I_dec wanted in
      match length vertex_set with
      | 0 => ([], Stops, g, IDone)
      | c => vertices_loop vertex_set fs c g
      end
  | IVertices wanted fs (Some (c, false)) => vertices_loop wanted fs c g
  | IVertices wanted fs (Some (c, true)) =>
      match c - 1 with
      | 0 => ([], Stops, g, IDone)
      | c' => vertices_loop wanted fs c' g
      end
  | IRange ge_start lt_stop false => range_loop ge_start lt_stop g
  | IRange ge_start lt_stop true =>
      let '(sk, a, g') := fetch_until ge_start (g_rest g) (g_end g) in
      match a with
      | Delivers v =>
          if lt_stop v then (sk ++ [v], a, g', IRange ge_start lt_stop false)
          else let '(sk2, a2, g2, it2) := range_loop ge_start lt_stop g' in (sk ++ v :: sk2, a2, g2, it2)
      | Waits => (sk, a, g', IRange ge_start lt_stop true)
      | Stops =>                                                                     (* the first loop ends, the second one finds the generator exhausted *)
          let '(sk2, a2, g2, it2) := range_loop ge_start lt_stop g' in (sk ++ sk2, a2, g2, it2)
      | Raises x => (sk, a, g', IDone)
      end
  end.

(** What a program can do with a started traversal.  The two kinds of range iterators differ in the attribute only. *)
Inductive operation :=
| Next                                                        (* next(traversal), or the next element in a for loop: traversal.py:151-177 *)
| GoTo (target : I) (fail_silently : bool)                    (* traversal.py:252-297 *)
| GoForVerticesIn (wanted : list I) (fail_silently : bool)    (* returns a new iterator *)
| GoForRange (ge_start lt_stop : O -> bool)                   (* returns a new iterator *)
| NextOf (k : nat).                                           (* next of the iterator that was returned as number k *)

(** The state of the objects, and the entry for the history: what was done, what was taken from the generator, what was the answer ([None]: an iterator was returned, or
    there is no such iterator) *)
Record objects := { o_generator : generator; o_iterators : list iterator }.
Record entry := { e_operation : operation; e_taken : list O; e_answer : option answer }.

Fixpoint replace {A} (l : list A) (k : nat) (x : A) : list A :=
  match l, k with
  | [], _ => []
  | _ :: r, 0 => x :: r
  | a :: r, S k => a :: replace r k x
  end.

Definition execute (s : objects) (op : operation) : entry * objects :=
  let g := o_generator s in
  match op with
  | Next =>
      let '(sk, a, g') := fetch_until (fun _ => true) (g_rest g) (g_end g) in
      ({| e_operation := op; e_taken := sk ++ match a with Delivers v => [v] | _ => [] end; e_answer := Some a |}, {| o_generator := g'; o_iterators := o_iterators s |})
  | GoTo target fs =>
      let '(sk, a, g') := fetch_until (fun v => if I_dec (id v) target then true else false) (g_rest g) (g_end g) in
      ({| e_operation := op; e_taken := sk ++ match a with Delivers v => [v] | _ => [] end;
          e_answer := Some (match a with Stops => if fs then Stops else Raises KeyErrorNotFound | _ => a end) |},
       {| o_generator := g'; o_iterators := o_iterators s |})
  | GoForVerticesIn wanted fs =>
      ({| e_operation := op; e_taken := []; e_answer := None |}, {| o_generator := g; o_iterators := o_iterators s ++ [IVertices wanted fs None] |})
  | GoForRange ge lt =>
      ({| e_operation := op; e_taken := []; e_answer := None |}, {| o_generator := g; o_iterators := o_iterators s ++ [IRange ge lt true] |})
  | NextOf k =>
      match nth_error (o_iterators s) k with
      | None => ({| e_operation := op; e_taken := []; e_answer := None |}, s)
      | Some it =>
          let '(taken, a, g', it') := advance it g in
          ({| e_operation := op; e_taken := taken; e_answer := Some a |}, {| o_generator := g'; o_iterators := replace (o_iterators s) k it' |})
      end
  end.

Fixpoint execute_all (s : objects) (ops : list operation) : list entry * objects :=
  match ops with
  | [] => ([], s)
  | op :: r => let '(e, s1) := execute s op in let '(h, s2) := execute_all s1 r in (e :: h, s2)
  end.

(** A started traversal whose generator delivers [os] within a number of passes, and then does [e]. *)
Definition started (os : list O) (e : source_end) : objects := {| o_generator := {| g_rest := os; g_end := e |}; o_iterators := [] |}.

Definition history (os : list O) (e : source_end) (ops : list operation) : list entry := fst (execute_all (started os e) ops).
End History.
Arguments generator : clear implicits. Arguments answer : clear implicits. Arguments iterator : clear implicits. Arguments operation : clear implicits.
Arguments objects : clear implicits. Arguments entry : clear implicits.
Arguments Stops {O}. Arguments Raises {O}. Arguments Waits {O}. Arguments Next {O I}. Arguments GoTo {O I}. Arguments GoForVerticesIn {O I}. Arguments GoForRange {O I}. Arguments NextOf {O I}.
Arguments IDone {O I}.
