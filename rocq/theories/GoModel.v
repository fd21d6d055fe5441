(** Model of the methods that consume reports of a traversal: [go_to],
    [go_for_vertices_in] (traversal.py:179-297), [go_for_depth_range]
    (breadth_first.py:392-425) and [go_for_distance_range]
    (with_weights/traversal_with_weights.py:148-180).

    The traversal's generator is given by the list of reports of a number of passes and
    by what happened then ([source_end]). Simplification: lazy consumption is modelled by
    returning the reports that have not been consumed. *)
From Coq Require Import List Bool Arith.
From Verif Require Import Machine Common.
Import ListNotations.

(** What follows the known reports: more passes, the end, or an exception. *)
Inductive source_end := SMore | SEnd | SExn (x : exn).
Definition source_end_of {S} (r : outcome S exn) : source_end :=
  match r with Running _ => SMore | Ended _ => SEnd | Raised x _ => SExn x end.

(** Result of a consumer: [Stopped]: it stopped by itself and left reports over;
    [Pending]: it waits for more reports; [Exhausted]: the source has ended and the consumer
    ended; [Failed]: exception. *)
Inductive consumer_end {O} := Stopped (rest : list O) | Pending | Exhausted | Failed (x : exn).
Arguments consumer_end : clear implicits.

(** At the end of the source: [if_ended] tells what the consumer does. *)
Definition at_source_end {O} (e : source_end) (if_ended : consumer_end O) : consumer_end O :=
  match e with SMore => Pending | SEnd => if_ended | SExn x => Failed x end.

Section Go.
Context {O I : Type}.
Variable I_dec : forall a b : I, {a = b} + {a <> b}.
Variable id : O -> I.                  (* id of the reported vertex *)

(** traversal.py:276-297 ([go_to]). Result: returned report, and how it ended. *)
Fixpoint go_to (target : I) (fail_silently : bool) (l : list O) (e : source_end)
  : option O * consumer_end O :=
  match l with
  | v :: r => if I_dec (id v) target then (Some v, Stopped r)
              else go_to target fail_silently r e
  | [] => (None, at_source_end e (if fail_silently then Exhausted else Failed KeyErrorNotFound))
  end.

(** traversal.py:212-240 ([go_for_vertices_in]): loop with counter. *)
Fixpoint go_for_loop (wanted : list I) (count : nat) (fail_silently : bool)
    (l : list O) (e : source_end) : list O * consumer_end O :=
  match l with
  | v :: r =>
      if in_dec I_dec (id v) wanted then
        match count - 1 with
        | 0 => ([v], Stopped r)
        | c => let p := go_for_loop wanted c fail_silently r e in (v :: fst p, snd p)
        end
      else go_for_loop wanted count fail_silently r e
  | [] => ([], at_source_end e (if fail_silently then Exhausted else Failed KeyErrorNotFound))
  end.

Definition go_for_vertices_in (wanted : list I) (fail_silently : bool)
    (l : list O) (e : source_end) : list O * consumer_end O :=
  let vertex_set := nodup I_dec wanted in
  match length vertex_set with
  | 0 => ([], Stopped l)
  | c => go_for_loop vertex_set c fail_silently l e
  end.

(** breadth_first.py:411-425, traversal_with_weights.py:169-178.  [ge_start o]:
    the attribute (depth or distance) at report [o] is [>= start];
    [lt_stop o]: it is [< stop]. *)
Variable ge_start lt_stop : O -> bool.

Fixpoint range_second (l : list O) (e : source_end) : list O * consumer_end O :=
  match l with
  | v :: r => if negb (lt_stop v) then ([], Stopped r)
              else let p := range_second r e in (v :: fst p, snd p)
  | [] => ([], at_source_end e Exhausted)
  end.

Fixpoint go_for_range (l : list O) (e : source_end) : list O * consumer_end O :=
  match l with
  | v :: r =>
      if ge_start v then
        let p := range_second r e in
        ((if lt_stop v then [v] else []) ++ fst p, snd p)
      else go_for_range r e
  | [] => ([], at_source_end e Exhausted)
  end.
End Go.
