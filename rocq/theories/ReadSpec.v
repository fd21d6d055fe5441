(** Specification for "lazy" traversals: which vertices is the neighbor function called for, and when? *)
From Coq Require Import List Permutation ZArith.
From Verif Require Import Machine Common GearSpec DFSModel.
Import ListNotations.

(** [asked]: the vertices the neighbor function has been called for, in the order of the calls. [known]: the start vertices and then the vertices reported so far. *)
Definition asked_in_order {V} (asked known : list V) : Prop := exists waiting, known = asked ++ waiting.
Definition asked_at_most_once {V} (asked known : list V) : Prop := exists waiting, Permutation known (asked ++ waiting).

(** [all] are the elements of [part], and possibly one further element at the end, but this only if the traversal has been stopped by calculation_limit *)
Definition all_but_last_at_limit {A S} (part all : list A) (r : outcome S exn) : Prop :=
  exists extra, all = part ++ extra /\ length extra <= 1 /\ (extra <> [] -> exists s, r = Raised RuntimeErrorLimit s).

(** Vertices (with attribute depth) that a depth first search has entered, and for which the consumer has not called skip_expanding_entered_vertex;
    [m]: number of the first report of the list *)
Definition is_entering (e : option dfs_event) : bool :=
  match e with Some ENTERING_START | Some ENTERING_SUCCESSOR => true | _ => false end.
Fixpoint entered {V I L} {VS : VSet I} {PM : PMap I V} {LM : PMap I L} {XM : DMap I Z 0%Z} (skip : nat -> bool) (m : nat)
    (os : list (@dfs_report V I L VS PM LM XM)) : list (V * Z) :=
  match os with
  | [] => []
  | r :: rest => (if is_entering (fr_event r) then if skip m then [] else [(fr_vertex r, fr_depth r)] else []) ++ entered skip (S m) rest
  end.
