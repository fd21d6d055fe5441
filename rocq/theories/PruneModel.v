(** A consumer of TraversalDepthFirst that looks at each report and decides then if it calls generator.throw(StopIteration()) (depth_first.py:905-915, 1141-1163: the entered vertex is not expanded).
    The report comes first, so it does not depend on the decision. *)
From Coq Require Import List Bool Arith ZArith.
From Verif Require Import Machine GearSpec Common DFSModel.
Import ListNotations.

Section Prune.
Context {V I L : Type}.
Variable V_dec : forall a b : V, {a = b} + {a <> b}.
Variable vid : V -> I.
Variable VS : VSet I.
Variable PM : PMap I V.
Variable LM : PMap I L.
Variable XM : DMap I Z 0%Z.
Variable next : V -> list (V * L).
Variable cfg : dfs_cfg.
Notation report := (@dfs_report V I L VS PM LM XM).
Notation state := (@dfs_state V I L VS PM LM XM).
(** The decision *)
Variable prunes : report -> bool.

Definition step_reports {S O X} (r : step_result S O X) : list O := match r with Go o _ => o | Halt o _ => o | Raise o _ _ => o end.
(** One pass of the traversal with trace (depth_first.py:569-936), with the decision of the consumer *)
Definition prune_step (s : state) : step_result state report exn :=
  let pass decision := dfs_step V_dec vid VS PM LM XM next cfg (fun _ => decision) s in
  pass (existsb prunes (step_reports (pass false))).
End Prune.
