(** Properties of the paths container: C37. *)
From Coq Require Import List ZArith Bool Arith.
From Verif Require Import GearSpec Spec Common PathsModel PathsSpec PathsMore Examples.
Import ListNotations.

(** C37. If the predecessors store the path [l] to [v], and the labels of its edges are stored:
    all access methods deliver [l] ([delivers], PathsSpec.v), [predecessor] is the vertex before
    the last one (None for the empty path).  Without path for [v], all methods raise
    RuntimeError.  [append_edge] extends a path by a vertex. *)
Theorem C37_paths_views_agree :
  forall {V I L : Type} (V_dec : forall a b : V, {a = b} + {a <> b}) (vid : V -> I)
    (PM : PMap I V) (LM : PMap I L) (pred : pm_t PM) (labels : pm_t LM),
  (forall labeled l v, stored_path vid PM pred l v ->
     (labeled = true -> stored_labels vid LM labels l) ->
     delivers V_dec vid PM LM pred labels labeled
       (fun _ w d => pm_get LM (vid w) labels = Some d) v l /\
     paths_predecessor V_dec vid PM pred v =
       POk (match rev l with _ :: u :: _ => Some u | _ => None end)) /\
  (forall v fuel, pm_get PM (vid v) pred = None ->
     paths_contains vid PM pred v = false /\
     iter_vertices_from_start V_dec vid PM pred fuel v = PErr RuntimeErrorNoPath /\
     iter_vertices_to_start V_dec vid PM pred fuel v = PErr RuntimeErrorNoPath /\
     iter_edges_from_start V_dec vid PM pred fuel v = PErr RuntimeErrorNoPath /\
     iter_edges_to_start V_dec vid PM pred fuel v = PErr RuntimeErrorNoPath /\
     iter_labeled_edges_from_start V_dec vid PM LM pred labels fuel v = PErr RuntimeErrorNoPath /\
     iter_labeled_edges_to_start V_dec vid PM LM pred labels fuel v = PErr RuntimeErrorNoPath /\
     paths_predecessor V_dec vid PM pred v = PErr RuntimeErrorNoPath) /\
  (forall l v to d, stored_path vid PM pred l v -> stored_labels vid LM labels l ->
     ~ In (vid to) (map vid l) ->
     let p := append_edge PM LM pred labels v (vid to) d in
     stored_path vid PM (fst p) (l ++ [to]) to /\ stored_labels vid LM (snd p) (l ++ [to]) /\
     pm_get LM (vid to) (snd p) = Some d /\ stored_path vid PM (fst p) l v).
Proof.
  intros V I L V_dec vid PM LM pred labels.
  exact (conj (stored_delivers V_dec vid PM LM pred labels)
        (conj (paths_missing V_dec vid PM LM pred labels)
              (append_edge_extends vid PM LM pred labels))).
Qed.
Print Assumptions C37_paths_views_agree.

(** Path 7 -> 3 -> 5 with labels 73 and 35. *)
Example C37_example :
  let pred := pm_of_list bPM (pm_empty bPM) [(7, 7); (3, 7); (5, 3)] in
  let labels := pm_of_list bPM (pm_empty bPM) [(3, 73); (5, 35)] in
  stored_path (fun v => v) bPM pred [7; 3; 5] 5 /\ stored_labels (fun v => v) bPM labels [7; 3; 5] /\
  iter_labeled_edges_to_start Nat.eq_dec (fun v => v) bPM bPM pred labels 3 5 = POk [(3, 5, 35); (7, 3, 73)] /\
  pm_get bPM 4 pred = None.
Proof.
  cbv zeta. split; [|split; [|split]]; try (vm_compute; reflexivity).
  - exists 7, [3; 5]. split; [reflexivity|]. split; [reflexivity|]. split; [vm_compute; reflexivity|].
    intros u w [H|[H|[]]]; injection H as <- <-; (split; [vm_compute; reflexivity|discriminate]).
  - intros u w [H|[H|[]]]; injection H as <- <-; vm_compute; discriminate.
Qed.
