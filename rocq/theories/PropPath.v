(** Properties of path objects: C38. *)
From Coq Require Import List ZArith Bool Arith.
From Verif Require Import GearSpec Spec Common PathsModel PathsSpec PathsMore PathModel PathSpec PathProofs Examples.
Import ListNotations.

(** C38. If a forward search has stored the path [a ++ [v]] to the connecting vertex [v], and a backward search the path [b ++ [v]] (from a goal to [v]): all methods
    of the path object made from the two agree ([shows], PathSpec.v) on the path [a], [v], [b] backwards, and each labeled edge carries the label stored by the search
    that found it.  The path made from one vertex has this vertex, the dummy path has no vertices. *)
Theorem C38_path_views_agree :
  forall {V I L : Type} (V_dec : forall a b : V, {a = b} + {a <> b}) (vid : V -> I) (PM : PMap I V) (LM : PMap I L) (labeled : bool),
  (forall pred_f labels_f pred_b labels_b v a b,
     stored_path vid PM pred_f (a ++ [v]) v -> stored_path vid PM pred_b (b ++ [v]) v ->
     (labeled = true -> stored_labels vid LM labels_f (a ++ [v]) /\ stored_labels vid LM labels_b (b ++ [v])) ->
     exists es,
       shows (from_bidirectional_search V_dec vid PM LM labeled pred_f labels_f pred_b labels_b v) (S (length a + length b)) (a ++ v :: rev b) es /\
       (labeled = true -> exists es1 es2, es = es1 ++ es2 /\ map fst es1 = pairs (a ++ [v]) /\ map fst es2 = pairs (v :: rev b) /\
          (forall u w d, In (u, w, d) es1 -> pm_get LM (vid w) labels_f = Some d) /\
          (forall u w d, In (u, w, d) es2 -> pm_get LM (vid u) labels_b = Some d))) /\
  (forall v : V, shows (from_vertex (L := L) labeled v) 0 [v] []) /\
  shows (of_nothing (V := V) (L := L) labeled) 0 [] [].
Proof.
  intros V I L V_dec vid PM LM labeled.
  exact (conj (joined_stored V_dec vid PM LM labeled) (conj (from_vertex_shows labeled) (of_nothing_shows labeled))).
Qed.
Print Assumptions C38_path_views_agree.

(** The forward half 0, 1, 2 and the backward half 4, 3, 2. *)
Example C38_example :
  let pf := pm_of_list hPM (pm_empty hPM) [(0, 0); (1, 0); (2, 1)] in
  let pb := pm_of_list hPM (pm_empty hPM) [(4, 4); (3, 4); (2, 3)] in
  let lf := pm_of_list hPM (pm_empty hPM) [(1, 10); (2, 21)] in
  let lb := pm_of_list hPM (pm_empty hPM) [(3, 34); (2, 23)] in
  stored_path (fun v => v) hPM pf [0; 1; 2] 2 /\ stored_path (fun v => v) hPM pb [4; 3; 2] 2 /\
  stored_labels (fun v => v) hPM lf [0; 1; 2] /\ stored_labels (fun v => v) hPM lb [4; 3; 2] /\
  let p := from_bidirectional_search Nat.eq_dec (fun v => v) hPM hPM true pf lf pb lb 2 in
  path_vertices_from_start p 10 = POk [0; 1; 2; 3; 4] /\ path_vertices_to_start p 10 = POk [4; 3; 2; 1; 0] /\
  path_labeled_edges_from_start p 10 = POk [(0, 1, 10); (1, 2, 21); (2, 3, 23); (3, 4, 34)].
Proof.
  intros pf pb lf lb. split; [|split; [|split; [|split]]].
  - exists 0, [1; 2]. split; [reflexivity|]. split; [reflexivity|]. split; [reflexivity|]. intros u w [H|[H|[]]]; injection H as <- <-; split; (reflexivity || discriminate).
  - exists 4, [3; 2]. split; [reflexivity|]. split; [reflexivity|]. split; [reflexivity|]. intros u w [H|[H|[]]]; injection H as <- <-; split; (reflexivity || discriminate).
  - intros u w [H|[H|[]]]; injection H as <- <-; discriminate.
  - intros u w [H|[H|[]]]; injection H as <- <-; discriminate.
  - split; [vm_compute; reflexivity|]. split; vm_compute; reflexivity.
Qed.
