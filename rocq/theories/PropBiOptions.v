(** C120: options of the bidirectional searches do not change what is found.
    Two searches from the same start and goal vertices, with the same limit and the same number of passes, that differ only in option build_path and in labeled or
    unlabeled edges being used for paths, return the same length, call the two neighbor functions for the same vertices in the same order, and end, or raise, in the
    same way.  If the option build_path is the same, the returned paths have the same vertices.  Option fail_silently turns the KeyError of a search that
    finds nothing into the documented result (length -1 resp. infinity, empty path), and changes nothing else. *)
From Coq Require Import List Arith ZArith Lia.
From Verif Require Import Machine GearSpec Common Weight PathsModel PathModel BFSModel OptSim BiBFSModel BiSPModel BiOptSpec BiOpt Examples BiSPExamples.
Import ListNotations.

Theorem C120_breadth_first_search_options :
  forall {V I L : Type} (V_dec : forall a b : V, {a = b} + {a <> b}) (I_dec : forall a b : I, {a = b} + {a <> b})
    (vid : V -> I) (VS : VSet I) (PM : PMap I V) (LM : PMap I L) (next_f next_b : V -> list (V * L)) starts goals lim n
    labeled1 labeled2 build_path1 build_path2 fail_silently os1 r1 os2 r2,
  bb_run V_dec I_dec vid VS PM LM next_f next_b labeled1 build_path1 fail_silently starts goals lim n = (os1, r1) ->
  bb_run V_dec I_dec vid VS PM LM next_f next_b labeled2 build_path2 fail_silently starts goals lim n = (os2, r2) ->
  Forall2 (fun o1 o2 => br_length o1 = br_length o2 /\ (build_path1 = build_path2 -> same_vertices (br_path o1) (br_path o2))) os1 os2 /\
  outcome_map bb_all_calls r1 = outcome_map bb_all_calls r2.
Proof. exact @bb_run_options. Qed.
Print Assumptions C120_breadth_first_search_options.

Theorem C120_breadth_first_search_fail_silently :
  forall {V I L : Type} (V_dec : forall a b : V, {a = b} + {a <> b}) (I_dec : forall a b : I, {a = b} + {a <> b})
    (vid : V -> I) (VS : VSet I) (PM : PMap I V) (LM : PMap I L) (next_f next_b : V -> list (V * L)) starts goals lim n labeled build_path,
  silenced {| br_length := -1; br_path := of_nothing labeled |}
    (bb_run V_dec I_dec vid VS PM LM next_f next_b labeled build_path false starts goals lim n)
    (bb_run V_dec I_dec vid VS PM LM next_f next_b labeled build_path true starts goals lim n).
Proof. exact (fun V I L V_dec I_dec vid VS PM LM nf nb starts goals lim n lab bp => bb_run_silenced V_dec I_dec vid VS PM LM nf nb starts goals lim n bp lab). Qed.
Print Assumptions C120_breadth_first_search_fail_silently.

Theorem C120_shortest_path_search_options :
  forall {V I L : Type} (V_dec : forall a b : V, {a = b} + {a <> b}) (I_dec : forall a b : I, {a = b} + {a <> b})
    (vid : V -> I) (WT : Weights) (DM : DMap I (w_t WT) (w_inf WT)) (PM : PMap I V) (LM : PMap I L) (next_f next_b : V -> list (V * w_t WT * L)) starts goals lim n
    labeled1 labeled2 build_path1 build_path2 fail_silently os1 r1 os2 r2,
  b2_run V_dec I_dec vid WT DM PM LM next_f next_b labeled1 build_path1 fail_silently starts goals lim n = (os1, r1) ->
  b2_run V_dec I_dec vid WT DM PM LM next_f next_b labeled2 build_path2 fail_silently starts goals lim n = (os2, r2) ->
  Forall2 (fun o1 o2 => b2_length o1 = b2_length o2 /\ (build_path1 = build_path2 -> same_vertices (b2_path o1) (b2_path o2))) os1 os2 /\
  outcome_map (option_map b2_all_calls) r1 = outcome_map (option_map b2_all_calls) r2.
Proof. exact @b2_run_options. Qed.
Print Assumptions C120_shortest_path_search_options.

Theorem C120_shortest_path_search_fail_silently :
  forall {V I L : Type} (V_dec : forall a b : V, {a = b} + {a <> b}) (I_dec : forall a b : I, {a = b} + {a <> b})
    (vid : V -> I) (WT : Weights) (DM : DMap I (w_t WT) (w_inf WT)) (PM : PMap I V) (LM : PMap I L) (next_f next_b : V -> list (V * w_t WT * L)) starts goals lim n
    labeled build_path,
  silenced {| b2_length := w_inf WT; b2_path := of_nothing labeled |}
    (b2_run V_dec I_dec vid WT DM PM LM next_f next_b labeled build_path false starts goals lim n)
    (b2_run V_dec I_dec vid WT DM PM LM next_f next_b labeled build_path true starts goals lim n).
Proof. exact (fun V I L V_dec I_dec vid WT DM PM LM nf nb starts goals lim n lab bp => b2_run_silenced V_dec I_dec vid WT DM PM LM nf nb starts goals lim n bp lab). Qed.
Print Assumptions C120_shortest_path_search_fail_silently.

(** A search that finds a path, with and without option build_path, and one that finds nothing, with and without option fail_silently. *)
Definition b2_with edges lab bp fs (starts goals : list nat) n :=
  b2_run Nat.eq_dec Nat.eq_dec (fun v => v) ZI hDMZ hPM hPM (el_forth edges) (el_back edges) lab bp fs starts goals None n.
Definition b2_shown (p : list (@b2_result nat nat ZI) * outcome (option (@b2_state nat nat nat ZI hDMZ hPM hPM)) exn) :=
  (map (fun o => (b2_length o, po_vertex_forwards (b2_path o) 20)) (fst p), match snd p with Running _ => 0 | Ended _ => 1 | Raised KeyErrorNotFound _ => 2 | Raised _ _ => 3 end).
Example C120_found_with_path : b2_shown (b2_with missed_edges false true false [0] [1] 60) = ([(Some 150%Z, POk [0; 4; 6; 7; 1])], 1).
Proof. vm_compute. reflexivity. Qed.
Example C120_found_labeled : b2_shown (b2_with missed_edges true true false [0] [1] 60) = ([(Some 150%Z, POk [0; 4; 6; 7; 1])], 1).
Proof. vm_compute. reflexivity. Qed.
Example C120_found_without_path : b2_shown (b2_with missed_edges true false true [0] [1] 60) = ([(Some 150%Z, POk [])], 1).
Proof. vm_compute. reflexivity. Qed.
Example C120_nothing_loud : b2_shown (b2_with missed_edges true true false [1] [0] 60) = ([], 2).
Proof. vm_compute. reflexivity. Qed.
Example C120_nothing_silent : b2_shown (b2_with missed_edges true true true [1] [0] 60) = ([(None, POk [])], 1).
Proof. vm_compute. reflexivity. Qed.

Definition bb_with lab bp fs (starts goals : list nat) n :=
  bb_run Nat.eq_dec Nat.eq_dec (fun v => v) hVS hPM hPM (fun v => map (fun e => (fst (fst e), snd e)) (el_forth missed_edges v))
    (fun v => map (fun e => (fst (fst e), snd e)) (el_back missed_edges v)) lab bp fs starts goals None n.
Definition bb_shown (p : list (@bb_result nat nat) * outcome (@bb_state nat nat nat hVS hPM hPM) exn) :=
  (map (fun o => (br_length o, po_vertex_forwards (br_path o) 20)) (fst p), match snd p with Running _ => 0 | Ended _ => 1 | Raised KeyErrorNotFound _ => 2 | Raised _ _ => 3 end).
Example C120_bfs_found : bb_shown (bb_with true true false [0] [1] 60) = ([(3%Z, POk [0; 4; 6; 1])], 1) /\ bb_shown (bb_with false false true [0] [1] 60) = ([(3%Z, POk [])], 1).
Proof. vm_compute. split; reflexivity. Qed.
Example C120_bfs_nothing : bb_shown (bb_with true true false [1] [0] 60) = ([], 2) /\ bb_shown (bb_with true true true [1] [0] 60) = ([((-1)%Z, POk [])], 1).
Proof. vm_compute. split; reflexivity. Qed.
