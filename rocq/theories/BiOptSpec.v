(** Specification for C120: what the results of two bidirectional searches with different options have in common. *)
From Coq Require Import List ZArith.
From Verif Require Import Machine Common GearSpec Weight PathModel BFSModel BiBFSModel BiSPModel.
Import ListNotations.

(** Two paths have the same vertices, iterated from the start or from the end. *)
Definition same_vertices {V L1 L2} (p1 : path_obj V L1) (p2 : path_obj V L2) : Prop :=
  forall fuel, po_vertex_forwards p1 fuel = po_vertex_forwards p2 fuel /\ po_vertex_backwards p1 fuel = po_vertex_backwards p2 fuel.

(** The calls of the two neighbor functions (forwards, backwards). *)
Definition bb_all_calls {V I L} {VS : VSet I} {PM : PMap I V} {LM : PMap I L} (s : @bb_state V I L VS PM LM) :=
  let c := b_calls (bs_state (bb_current s)) in let o := b_calls (bs_state (bb_other s)) in if bb_forwards s then (c, o) else (o, c).
Definition b2_all_calls {V I L} {WT : Weights} {DM : DMap I (w_t WT) (w_inf WT)} {PM : PMap I V} {LM : PMap I L} (s : @b2_state V I L WT DM PM LM) :=
  let c := b2_calls (b2_current s) in let o := b2_calls (b2_other s) in if b2_forwards s then (c, o) else (o, c).

(** [loud]: what a search does without option fail_silently, [silent]: with this option.  If [loud] raises a KeyError, [silent] returns the given
    result, and otherwise both do the same. *)
Definition silenced {S O} (failed : O) (loud silent : list O * outcome S exn) : Prop :=
  match snd loud with
  | Raised KeyErrorNotFound s => silent = (fst loud ++ [failed], Ended s)
  | _ => silent = loud
  end.
