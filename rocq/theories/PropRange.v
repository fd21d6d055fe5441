(** Properties of stored distances: C85.

    Gears with arrays of machine integers use the largest number of the array type as infinity.  [in_range]: not below zero and not above infinity.  The first theorem says that such
    numbers can be stored in the array (storing another one would raise OverflowError), also if the platform uses more bytes than the minimum.  The others say that a traversal only
    stores such distances: at each time, the stored distances of all ids are in range.  Hypotheses: weights are not negative; distances given by the caller are in range. *)
From Coq Require Import List ZArith Bool Arith Lia.
From Verif Require Import Machine GearSpec GearModel GearProofs Common Weight HeapModel DijkstraModel AStarModel BiSPModel RangeSpec RangeModel RangeProofs Examples.
Import ListNotations.

Theorem C85_range_fits_array : forall (c : int_type) (size x : Z), (minimum_size c <= size)%Z -> in_range (CIntWeights c) x -> fits c size x.
Proof. exact max_value_fits. Qed.
Print Assumptions C85_range_fits_array.

Example C85_fits_example : fits tc_B 1 255 /\ ~ fits tc_B 1 256 /\ in_range (CIntWeights tc_B) 255%Z /\ ~ in_range (CIntWeights tc_B) 256%Z.
Proof. vm_compute. repeat split; intros H; try discriminate H; try (destruct H as [H1 H2]; discriminate). Qed.

Theorem C85_dijkstra_range :
  forall {V I L : Type} (I_dec : forall a b : I, {a = b} + {a <> b}) (vid : V -> I) (WT : Weights) (DM : DMap I (w_t WT) (w_inf WT)) (PM : PMap I V) (LM : PMap I L)
    (next : V -> list (V * w_t WT * L)) (cfg : dij_cfg) (starts : list V) (known : option (dm_t DM)) lim n os r,
  (forall v n w l, In (n, w, l) (next v) -> w_leb WT (w_zero WT) w = true) ->
  (forall m, known = Some m -> forall i, in_range WT (dm_get DM i m)) ->
  dij_run vid WT DM PM LM next cfg starts known lim n = (os, r) ->
  (forall rep, In rep os -> forall i, in_range WT (dm_get DM i (dr_distances rep))) /\
  (forall i, in_range WT (dm_get DM i (d_distances (outcome_state r)))).
Proof. exact (fun V I L I_dec vid WT DM PM LM next cfg starts known lim n os r H => dij_range I_dec vid WT DM PM LM next cfg H starts known lim n os r). Qed.
Print Assumptions C85_dijkstra_range.

Theorem C85_a_star_range :
  forall {V I L : Type} (I_dec : forall a b : I, {a = b} + {a <> b}) (vid : V -> I) (WT : Weights) (DM : DMap I (w_t WT) (w_inf WT)) (PM : PMap I V) (LM : PMap I L)
    (next : V -> list (V * w_t WT * L)) (cfg : ast_cfg) (heuristic : V -> w_t WT) (starts : list V) (known guesses : option (dm_t DM)) lim n os r,
  (forall v n w l, In (n, w, l) (next v) -> w_leb WT (w_zero WT) w = true) ->
  (forall v, in_range WT (heuristic v)) ->
  (forall m, known = Some m -> forall i, in_range WT (dm_get DM i m)) ->
  (forall m, guesses = Some m -> forall i, in_range WT (dm_get DM i m)) ->
  (* the guesses for the start vertices *)
  (forall v, In v starts -> in_range WT (w_add WT (dm_get DM (vid v) (define_distances WT DM known (map (fun u => (vid u, w_zero WT)) starts) false)) (heuristic v))) ->
  run (ast_step vid WT DM PM LM next cfg heuristic) n (ast_init vid WT DM PM LM cfg heuristic starts known guesses lim) = (os, r) ->
  forall i, in_range WT (dm_get DM i (a_distances (outcome_state r))) /\ in_range WT (dm_get DM i (a_guesses (outcome_state r))).
Proof.
  exact (fun V I L I_dec vid WT DM PM LM next cfg heuristic starts known guesses lim n os r Hnn Hh Hk Hg Hs Hr i =>
    match ast_range I_dec vid WT DM PM LM next cfg heuristic Hnn Hh starts known guesses lim n os r Hk Hg Hs Hr with conj A B => conj (A i) (B i) end).
Qed.
Print Assumptions C85_a_star_range.

Theorem C85_bsearch_shortest_path_range :
  forall {V I L : Type} (I_dec : forall a b : I, {a = b} + {a <> b}) (vid : V -> I) (WT : Weights) (DM : DMap I (w_t WT) (w_inf WT)) (PM : PMap I V) (LM : PMap I L)
    (V_dec : forall a b : V, {a = b} + {a <> b}) (next_f next_b : V -> list (V * w_t WT * L)) (labeled build_path fail_silently : bool) (starts goals : list V) lim n os r s,
  (forall v n w l, In (n, w, l) (next_f v) -> w_leb WT (w_zero WT) w = true) ->
  (forall v n w l, In (n, w, l) (next_b v) -> w_leb WT (w_zero WT) w = true) ->
  b2_run V_dec I_dec vid WT DM PM LM next_f next_b labeled build_path fail_silently starts goals lim n = (os, r) ->
  outcome_state r = Some s ->
  forall i, in_range WT (dm_get DM i (b2_dist (b2_current s))) /\ in_range WT (dm_get DM i (b2_dist (b2_other s))).
Proof.
  exact (fun V I L I_dec vid WT DM PM LM V_dec next_f next_b labeled build_path fail_silently starts goals lim n os r s Hf Hb Hr Hs i =>
    match b2_range I_dec vid WT DM PM LM V_dec next_f next_b labeled build_path fail_silently Hf Hb starts goals lim n os r s Hr Hs with conj A B => conj (A i) (B i) end).
Qed.
Print Assumptions C85_bsearch_shortest_path_range.

(** Bytes as distances: edges of weight 100 from each vertex to the next one.  The distances 0, 100 and 200 are stored, then OverflowError is raised. *)
Definition hundred_next (v : nat) : list (nat * Z * unit) := [(S v, 100%Z, tt)].
Example C85_example :
  let WT := CIntWeights tc_B in
  let DM : DMap nat Z 255%Z := hDM 255%Z in
  (forall v n w l, In (n, w, l) (hundred_next v) -> w_leb WT (w_zero WT) w = true) /\
  match dij_run (fun v : nat => v) WT DM hPM hPM hundred_next dij_default [0] None None 20 with
  | (os, Raised e s) => map dr_distance os = [100%Z; 200%Z] /\ e = OverflowErrorDistance /\ map (fun i => dm_get DM i (d_distances s)) [0; 1; 2; 3] = [0; 100; 200; 255]%Z
  | _ => False
  end.
Proof. split; [intros v n w l [[= <- <- <-]|[]]; reflexivity|]. vm_compute. auto. Qed.

Definition hundred_back (v : nat) : list (nat * Z * unit) := match v with 0 => [] | S u => [(u, 100%Z, tt)] end.
Example C85_a_star_example :
  let WT := CIntWeights tc_B in
  let DM : DMap nat Z 255%Z := hDM 255%Z in
  (forall v : nat, in_range WT 5%Z) /\
  in_range WT (w_add WT (dm_get DM 0 (define_distances WT DM None [(0, 0%Z)] false)) 5%Z) /\
  match run (ast_step (fun v : nat => v) WT DM hPM hPM hundred_next {| ac_is_tree := false; ac_build_paths := true; ac_labeled := true |} (fun _ => 5%Z)) 20
          (ast_init (fun v : nat => v) WT DM hPM (hPM (A := unit)) {| ac_is_tree := false; ac_build_paths := true; ac_labeled := true |} (fun _ => 5%Z) [0] None None None) with
  | (os, Raised e s) => e = OverflowErrorDistance /\ map (fun i => dm_get DM i (a_guesses s)) [0; 1; 2; 3] = [5; 105; 205; 255]%Z
  | _ => False
  end.
Proof. split; [intros v; split; reflexivity|]. split; [split; reflexivity|]. vm_compute. auto. Qed.

Example C85_bsearch_example :
  let WT := CIntWeights tc_B in
  let DM : DMap nat Z 255%Z := hDM 255%Z in
  (forall v n w l, In (n, w, l) (hundred_back v) -> w_leb WT (w_zero WT) w = true) /\
  match b2_run Nat.eq_dec Nat.eq_dec (fun v : nat => v) WT DM hPM hPM hundred_next hundred_back true true false [0] [2] None 20 with
  | ([res], Ended (Some s)) => b2_length res = 200%Z /\ map (fun i => dm_get DM i (b2_dist (b2_current s))) [0; 1; 2; 3] = [255; 100; 0; 255]%Z
  | _ => False
  end.
Proof. split; [intros [|u] n w l H; [destruct H|destruct H as [[= <- <- <-]|[]]; reflexivity]|]. vm_compute. auto. Qed.
