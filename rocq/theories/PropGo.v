(** Properties of go_to and go_for_vertices_in: C39, C40, C52.
    [l] are the reports of a traversal from the current position on (any list), [e] tells what
    follows them, [id] gives the id of the reported vertex. *)
From Coq Require Import List ZArith Bool Arith.
From Verif Require Import Machine Common GoModel GoProofs.
Import ListNotations.

(** C39. If the vertex will be reported, the first report of it is returned and exactly the reports up to
    and including it are consumed; else KeyError (or None), after consuming everything. *)
Theorem C39_go_to :
  forall {O I : Type} (I_dec : forall a b : I, {a = b} + {a <> b}) (id : O -> I)
    (target : I) (fail_silently : bool) (l : list O) (e : source_end),
  (forall pre v rest, l = pre ++ v :: rest -> id v = target -> ~ In target (map id pre) ->
     go_to I_dec id target fail_silently l e = (Some v, Stopped rest)) /\
  (~ In target (map id l) ->
     go_to I_dec id target fail_silently l e =
     (None, match e with SMore => Pending | SExn x => Failed x
            | SEnd => if fail_silently then Exhausted else Failed KeyErrorNotFound end)).
Proof.
  intros O I I_dec id target fs l e.
  exact (conj (go_to_found I_dec id target fs l e) (go_to_missing I_dec id target fs l e)).
Qed.
Print Assumptions C39_go_to.

Example C39_example :
  go_to Nat.eq_dec (fun v => v mod 10) 3 false [11; 23; 5; 33; 7] SEnd = (Some 23, Stopped [5; 33; 7]) /\
  go_to Nat.eq_dec (fun v => v) 4 false [1; 2; 3] SEnd = (None, Failed KeyErrorNotFound) /\
  go_to Nat.eq_dec (fun v => v) 4 true [1; 2; 3] SEnd = (None, Exhausted).
Proof. vm_compute. auto. Qed.

(** C40, for sources that report no id twice: the reported vertices are exactly the requested ones,
    in order; it stops directly after the last of them if all are found; else KeyError at the
    end of the source (or silent end). For no requested vertices, nothing is consumed. *)
Theorem C40_go_for_vertices_in :
  forall {O I : Type} (I_dec : forall a b : I, {a = b} + {a <> b}) (id : O -> I)
    (wanted : list I) (fail_silently : bool) (l : list O) (e : source_end),
  NoDup (map id l) ->
  let requested := filter (fun v => if in_dec I_dec (id v) wanted then true else false) l in
  (wanted = [] -> go_for_vertices_in I_dec id wanted fail_silently l e = ([], Stopped l)) /\
  ((forall i, In i wanted -> In i (map id l)) -> wanted <> [] ->
   exists pre v rest, l = pre ++ v :: rest /\ In (id v) wanted /\
     (forall i, In i wanted -> In i (map id (pre ++ [v]))) /\
     go_for_vertices_in I_dec id wanted fail_silently l e = (requested, Stopped rest)) /\
  ((exists i, In i wanted /\ ~ In i (map id l)) ->
   go_for_vertices_in I_dec id wanted fail_silently l e =
   (requested, match e with SMore => Pending | SExn x => Failed x
               | SEnd => if fail_silently then Exhausted else Failed KeyErrorNotFound end)).
Proof.
  intros O I I_dec id wanted fs l e Hnd requested.
  exact (conj (fun H => eq_ind_r (fun w => go_for_vertices_in I_dec id w fs l e = ([], Stopped l))
                          (go_for_none I_dec id fs l e) H)
              (go_for_spec I_dec id wanted fs l e Hnd)).
Qed.
Print Assumptions C40_go_for_vertices_in.

Example C40_example :
  NoDup [4; 1; 3; 7; 9] /\
  go_for_vertices_in Nat.eq_dec (fun v => v) [3; 4; 3] false [4; 1; 3; 7; 9] SEnd = ([4; 3], Stopped [7; 9]) /\
  go_for_vertices_in Nat.eq_dec (fun v => v) [3; 5] false [4; 1; 3; 7; 9] SEnd
    = ([3], Failed KeyErrorNotFound).
Proof. split; [|vm_compute; auto]. repeat constructor; simpl; intuition discriminate. Qed.

(** C52 (refuted): if the source reports a vertex more than once (as TraversalDepthFirst does with
    several kinds of events, or with mode ALL_PATHS), go_for_vertices_in may stop before
    all requested vertices have been found. *)
Theorem C52_go_for_vertices_in_repeated_refuted :
  exists (wanted l rest : list nat),
    (forall i, In i wanted -> In i l) /\
    go_for_vertices_in Nat.eq_dec (fun v => v) wanted false l SEnd = ([1; 1], Stopped rest) /\
    In 2 wanted /\ In 2 rest.
Proof.
  exists [1; 2], [1; 3; 1; 2], [2]. split; [|split; [reflexivity|simpl; auto]].
  simpl. intuition.
Qed.
Print Assumptions C52_go_for_vertices_in_repeated_refuted.
