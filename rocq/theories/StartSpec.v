(** Specification vocabulary: the start vertices a caller has given. *)
From Coq Require Import List.
From Verif Require Import Common StartModel.
Import ListNotations.

(** What an iteration over the given object delivers when it is passed to the library. *)
Definition elements {V} (x : iterable V) : list V := match x with Collection l => l | Iterator l => l end.

(** The given start vertices; exactly one of the options start_vertex and start_vertices has to be used. *)
Definition given {V} (start_vertex : option V) (start_vertices : option (iterable V)) : list V + exn :=
  match start_vertex, start_vertices with
  | Some v, None => inl [v]
  | None, Some x => inl (elements x)
  | _, _ => inr RuntimeErrorConfig
  end.

(** The same for bidirectional searches. *)
Definition given_pair {V} (one : option (V * V)) (many : option (iterable V * iterable V)) : (list V * list V) + exn :=
  match one, many with
  | Some (s, g), None => inl ([s], [g])
  | None, Some (x, y) => inl (elements x, elements y)
  | _, _ => inr RuntimeErrorConfig
  end.

(** Go on with a value, keep an error. *)
Definition with_given {A B} (x : A + exn) (f : A -> B) : B + exn := match x with inl a => inl (f a) | inr e => inr e end.
