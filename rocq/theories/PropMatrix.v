(** Properties of positions and arrays: C46, C47, C48, C72 - C74. *)
From Coq Require Import List ZArith Bool Lia Sorting.Sorted.
From Verif Require Import Common PositionModel PositionSpec PositionProofs ArrayModel ArraySpec ArrayProofs.
Import ListNotations.

(** C46, wrap_to_cuboid.  For limits with non-empty ranges, the result is the one position inside the cuboid whose coordinates differ from the given ones by multiples
    of the sizes of the ranges; positions inside are unchanged. *)
Theorem C46_wrap_to_cuboid :
  forall (p : list Z) (limits : list (Z * Z)), length p = length limits -> proper_limits limits ->
  exists q, wrap_to_cuboid p limits = Some q /\ inside q limits /\ congruent limits p q /\
            (forall r, inside r limits -> congruent limits p r -> r = q) /\ (inside p limits -> q = p).
Proof.
  intros p limits Hl Hp. destruct (wrap_ok p limits Hl Hp) as (q & E & I & C & S).
  exact (ex_intro _ q (conj E (conj I (conj C (conj (fun r Hr Hc => congruent_unique limits p r q Hc C Hr I) S))))).
Qed.
Print Assumptions C46_wrap_to_cuboid.

Example C46_wrap_example : wrap_to_cuboid [-7; 3; 12]%Z [(0, 5); (2, 4); (-2, 3)]%Z = Some [3; 3; 2]%Z.
Proof. reflexivity. Qed.

(** C46, is_in_cuboid. *)
Theorem C46_is_in_cuboid :
  forall (p : list Z) (limits : list (Z * Z)), length p = length limits -> (is_in_cuboid p limits = true <-> inside p limits).
Proof. exact in_cuboid_inside. Qed.
Print Assumptions C46_is_in_cuboid.

Example C46_is_in_cuboid_example : is_in_cuboid [4; 2]%Z [(0, 5); (2, 4)]%Z = true /\ is_in_cuboid [5; 2]%Z [(0, 5); (2, 4)]%Z = false.
Proof. split; reflexivity. Qed.

(** C46, on a torus: moving and then wrapping gives the same result as wrapping, moving and wrapping again. *)
Theorem C46_wrap_and_move :
  forall (p m : list Z) (limits : list (Z * Z)) (q r : list Z), length p = length limits -> length m = length limits -> proper_limits limits ->
  wrap_to_cuboid p limits = Some q -> wrap_to_cuboid (pos_add p m) limits = Some r -> wrap_to_cuboid (pos_add q m) limits = Some r.
Proof. exact wrap_add. Qed.
Print Assumptions C46_wrap_and_move.

Example C46_wrap_and_move_example :
  wrap_to_cuboid [-7; 3]%Z [(0, 5); (2, 4)]%Z = Some [3; 3]%Z /\ wrap_to_cuboid (pos_add [-7; 3] [2; 1])%Z [(0, 5); (2, 4)]%Z = Some [0; 2]%Z /\
  wrap_to_cuboid (pos_add [3; 3] [2; 1])%Z [(0, 5); (2, 4)]%Z = Some [0; 2]%Z.
Proof. repeat split; reflexivity. Qed.

(** C47, Position.moves: the vectors of coordinates -1, 0 and 1 with an allowed number of coordinates other than 0, in ascending order and without repetition; a
    RuntimeError for the incompatible options. *)
Theorem C47_moves :
  forall (dimensions : nat) (diagonals zero_move : bool) (non_zero_counts : option (nat -> bool)),
  match moves dimensions diagonals zero_move non_zero_counts with
  | inr e => e = RuntimeErrorConfig /\ non_zero_counts <> None /\ (zero_move = true \/ diagonals = true)
  | inl l => (non_zero_counts = None \/ (zero_move = false /\ diagonals = false)) /\ StronglySorted lex_lt l /\ NoDup l /\
             forall m, In m l <-> unit_vector dimensions m /\ allowed_count diagonals zero_move non_zero_counts (count_non_zero m)
  end.
Proof. exact moves_exact. Qed.
Print Assumptions C47_moves.

Example C47_moves_example :
  moves 2 false false None = inl [[-1; 0]; [0; -1]; [0; 1]; [1; 0]]%Z /\ moves 2 false false (Some (Nat.eqb 2)) = inl [[-1; -1]; [-1; 1]; [1; -1]; [1; 1]]%Z /\
  moves 2 true false (Some (Nat.eqb 2)) = inr RuntimeErrorConfig.
Proof. repeat split; reflexivity. Qed.

(** C47, neighbors: without limits, the moved positions; with limits, those inside the cuboid, or, with wrapping, the positions inside the cuboid that are equal to a
    moved position up to multiples of the sizes of the ranges.  The iteration raises no exception. *)
Theorem C47_neighbors :
  forall (dimensions : nat) (diagonals zero_move : bool) (non_zero_counts : option (nat -> bool)) (ms : list (list Z)) (p : list Z),
  moves dimensions diagonals zero_move non_zero_counts = inl ms -> length p = dimensions ->
  (exists l, neighbors p ms None false = (l, PosDone) /\ forall q, In q l <-> exists m, In m ms /\ q = translated p m) /\
  (forall limits, length limits = dimensions ->
     exists l, neighbors p ms (Some limits) false = (l, PosDone) /\ StronglySorted lex_lt l /\
               forall q, In q l <-> inside q limits /\ exists m, In m ms /\ q = translated p m) /\
  (forall limits, length limits = dimensions -> proper_limits limits ->
     exists l, neighbors p ms (Some limits) true = (l, PosDone) /\ forall q, In q l <-> inside q limits /\ exists m, In m ms /\ congruent limits (translated p m) q).
Proof. exact neighbors_exact. Qed.
Print Assumptions C47_neighbors.

Example C47_neighbors_example :
  neighbors [0; 2]%Z [[-1; 0]; [0; -1]; [0; 1]; [1; 0]]%Z None false = ([[-1; 2]; [0; 1]; [0; 3]; [1; 2]]%Z, PosDone) /\
  neighbors [0; 2]%Z [[-1; 0]; [0; -1]; [0; 1]; [1; 0]]%Z (Some [(0, 3); (0, 3)]%Z) false = ([[0; 1]; [1; 2]]%Z, PosDone) /\
  neighbors [0; 2]%Z [[-1; 0]; [0; -1]; [0; 1]; [1; 0]]%Z (Some [(0, 3); (0, 3)]%Z) true = ([[2; 2]; [0; 1]; [0; 0]; [1; 2]]%Z, PosDone).
Proof. repeat split; reflexivity. Qed.

(** C47, being neighbors is symmetric: graphs of positions are undirected. *)
Theorem C47_neighbors_symmetric :
  forall (dimensions : nat) (diagonals zero_move : bool) (non_zero_counts : option (nat -> bool)) (ms : list (list Z)) (p q : list Z),
  moves dimensions diagonals zero_move non_zero_counts = inl ms -> length p = dimensions -> length q = dimensions ->
  (In q (fst (neighbors p ms None false)) -> In p (fst (neighbors q ms None false))) /\
  (forall limits wrap, length limits = dimensions -> proper_limits limits -> inside p limits ->
     In q (fst (neighbors p ms (Some limits) wrap)) -> In p (fst (neighbors q ms (Some limits) wrap))).
Proof. exact neighbors_symmetric. Qed.
Print Assumptions C47_neighbors_symmetric.

Example C47_neighbors_symmetric_example :
  In [2; 2]%Z (fst (neighbors [0; 2]%Z [[-1; 0]; [0; -1]; [0; 1]; [1; 0]]%Z (Some [(0, 3); (0, 3)]%Z) true)) /\
  In [0; 2]%Z (fst (neighbors [2; 2]%Z [[-1; 0]; [0; -1]; [0; 1]; [1; 0]]%Z (Some [(0, 3); (0, 3)]%Z) true)).
Proof. split; simpl; auto 10. Qed.

(** An array of 2 x 3 cells for the examples: a tuple of two lists. *)
Definition st0 : store nat := [(false, [VSeq 1; VSeq 2]); (true, [VCell 10; VCell 11; VCell 12]); (true, [VCell 20; VCell 21; VCell 11])].

Example st0_ok : nested st0 2 (VSeq 0) /\ unshared st0 2 (VSeq 0) /\ changeable st0 2 (VSeq 0) /\ rectangular st0 [2; 3] (VSeq 0).
Proof.
  split; [|split; [|split]].
  - exists 0, false, [VSeq 1; VSeq 2]. split; [reflexivity|]. split; [reflexivity|]. repeat (constructor; [simpl; do 3 eexists; split; [reflexivity|]; split; [reflexivity|]; repeat constructor|]). constructor.
  - unfold unshared. simpl. repeat constructor; simpl; intuition discriminate.
  - simpl. do 2 eexists. split; [reflexivity|]. repeat constructor; simpl; eauto.
  - exists 0, false, [VSeq 1; VSeq 2]. split; [reflexivity|]. split; [reflexivity|]. split; [reflexivity|].
    repeat (constructor; [simpl; do 3 eexists; split; [reflexivity|]; split; [reflexivity|]; split; [reflexivity|]; repeat constructor|]). constructor.
Qed.

(** C48, reading and writing.  In an array without shared sequences whose last dimension is mutable: a write succeeds exactly at the positions that can be read, and
    raises IndexError otherwise; after a write, a read at the position gives the written content, and reads at all other positions are unchanged, and the array
    still has the required structure. *)
Theorem C48_set_get :
  forall {C : Type} (st : store C) (d : nat) (v : val C) (p : list Z) (x : val C),
  nested st d v -> unshared st d v -> changeable st d v -> length p = d -> from_begin p ->
  ((exists y, array_get st v p = inl y) -> exists st', array_set st v p x = inl st') /\
  (forall e, array_get st v p = inr e -> e = AIndexError /\ array_set st v p x = inr AIndexError) /\
  (forall st', array_set st v p x = inl st' ->
     array_get st' v p = inl x /\ (forall q, from_begin q -> length q = d -> q <> p -> array_get st' v q = array_get st v q) /\
     nested st' d v /\ unshared st' d v /\ changeable st' d v).
Proof. intros C. exact set_get_ok. Qed.
Print Assumptions C48_set_get.

Example C48_set_get_example : exists st', array_set st0 (VSeq 0) [1; 2]%Z (VCell 77) = inl st' /\ array_get st' (VSeq 0) [1; 2]%Z = inl (VCell 77) /\ array_get st' (VSeq 0) [1; 1]%Z = inl (VCell 21).
Proof. eexists. split; [reflexivity|]. split; reflexivity. Qed.

(** C48, negative coordinates count from the end, in each dimension. *)
Theorem C48_negative_coordinates :
  forall {C : Type} (st : store C) (v : val C) (p q : list Z) (i : Z) (r : nat) (m : bool) (l : list (val C)),
  array_get st v p = inl (VSeq r) -> nth_error st r = Some (m, l) -> (- Z.of_nat (length l) <= i < 0)%Z ->
  array_get st v (p ++ i :: q) = array_get st v (p ++ (Z.of_nat (length l) + i)%Z :: q).
Proof. intros C. exact get_from_end. Qed.
Print Assumptions C48_negative_coordinates.

Example C48_negative_example : array_get st0 (VSeq 0) [1; -1]%Z = inl (VCell 11) /\ array_get st0 (VSeq 0) [-2; 0]%Z = inl (VCell 10).
Proof. split; reflexivity. Qed.

(** C48, mutable_copy.  The copy has the same content at each position, it is mutable, the original is not changed, and after any history of writes to the original and
    the copy, each of them has at each position what was last written there to this array, or else the original content. *)
Theorem C48_mutable_copy :
  forall {C : Type} (st : store C) (d : nat) (v : val C), nested st d v -> 0 < d ->
  exists st' v', writable d st v = inl (st', v') /\
    (forall p, length p = d -> array_get st' v' p = array_get st v p /\ array_get st' v p = array_get st v p) /\
    nested st' d v' /\ unshared st' d v' /\ changeable st' d v' /\
    (unshared st d v -> forall (ws : list (bool * list Z * val C)) (st'' : store C),
       (forall b p x, In (b, p, x) ws -> from_begin p /\ length p = d) -> write_all st' v v' ws = Some st'' ->
       forall b q, from_begin q -> length q = d ->
       array_get st'' (if b : bool then v' else v) q = match latest ws b q with Some x => inl x | None => array_get st v q end).
Proof. intros C. exact mutable_copy_ok. Qed.
Print Assumptions C48_mutable_copy.

Example C48_mutable_copy_example :
  match writable 2 st0 (VSeq 0) with
  | inl (st', v') =>
      match write_all st' (VSeq 0) v' [(true, [0; 1]%Z, VCell 1); (false, [0; 1]%Z, VCell 2); (true, [1; 0]%Z, VCell 3)] with
      | Some st'' => array_get st'' (VSeq 0) [0; 1]%Z = inl (VCell 2) /\ array_get st'' v' [0; 1]%Z = inl (VCell 1) /\ array_get st'' (VSeq 0) [1; 0]%Z = inl (VCell 20)
      | None => False
      end
  | inr _ => False
  end.
Proof. vm_compute. auto. Qed.

(** C48, items: each position with its content, in lexicographic order. *)
Theorem C48_items :
  forall {C : Type} (st : store C) (d : nat) (v : val C), nested st d v -> 0 < d ->
  exists l, array_items st v d = inl l /\ StronglySorted lex_lt (map fst l) /\
            forall p x, In (p, x) l <-> from_begin p /\ length p = d /\ array_get st v p = inl x.
Proof. intros C. exact items_exact. Qed.
Print Assumptions C48_items.

Example C48_items_example : array_items st0 (VSeq 0) 2 =
  inl [([0; 0]%Z, VCell 10); ([0; 1]%Z, VCell 11); ([0; 2]%Z, VCell 12); ([1; 0]%Z, VCell 20); ([1; 1]%Z, VCell 21); ([1; 2]%Z, VCell 11)].
Proof. reflexivity. Qed.

(** C48, findall: exactly the positions with searched content, in lexicographic order. *)
Theorem C48_findall :
  forall {C : Type} (st : store C) (found : val C -> bool) (d : nat) (v : val C), nested st d v -> 0 < d ->
  exists l, array_findall st found v d = inl l /\ StronglySorted lex_lt l /\
            forall p, In p l <-> from_begin p /\ length p = d /\ exists x, array_get st v p = inl x /\ found x = true.
Proof. intros C. exact findall_exact. Qed.
Print Assumptions C48_findall.

Example C48_findall_example : array_findall st0 (fun v => match v with VCell 11 => true | _ => false end) (VSeq 0) 2 = inl [[0; 1]; [1; 2]]%Z.
Proof. reflexivity. Qed.

(** C48, size and limits: for arrays that have the same number of cells in each row of a dimension and at least one cell; a position counted from the beginning can be
    read exactly if it is inside the limits. *)
Theorem C48_size :
  forall {C : Type} (st : store C) (sizes : list nat) (v : val C), rectangular st sizes v -> (forall n, In n sizes -> n <> 0) ->
  array_size st v (length sizes) = inl (map Z.of_nat sizes) /\
  exists limits, array_limits st v (length sizes) = inl limits /\
    forall p, inside p limits <-> from_begin p /\ length p = length sizes /\ exists x, array_get st v p = inl x.
Proof. intros C. exact size_exact. Qed.
Print Assumptions C48_size.

Example C48_size_example : array_size st0 (VSeq 0) 2 = inl [2; 3]%Z /\ array_limits st0 (VSeq 0) 2 = inl [(0, 2); (0, 3)]%Z.
Proof. split; reflexivity. Qed.

(** C73, "size returns the number of cells per dimension for all arrays" does not hold: whenever a dimension has no cells, size raises IndexError, because it accesses the
    first element also in the last dimension. *)
Theorem C73_size_of_empty_array_refuted :
  (exists (st : store nat) (v : val nat), rectangular st [0] v /\ array_size st v 1 = inr AIndexError) /\
  (forall {C : Type} (st : store C) (sizes : list nat) (v : val C), rectangular st sizes v -> In 0 sizes -> array_size st v (length sizes) = inr AIndexError).
Proof.
  split; [|intros C; exact size_empty]. exists [(true, [])], (VSeq 0). split; [|reflexivity]. exists 0, true, []. repeat split; constructor.
Qed.
Print Assumptions C73_size_of_empty_array_refuted.

(** C72, next_vertices_from_forbidden.  For the array [v] of the given sizes (in store [st0] when the function is created; in [st] when it is called, so the content may have
    been changed in between): the creation does not raise; a call for a position with the right number of coordinates raises no exception, and yields exactly the neighbor
    positions inside the array whose content is not forbidden. *)
Theorem C72_next_vertices_from_forbidden :
  forall {C : Type} (st0 : store C) (sizes : list nat) (v : val C) (diagonals wrap : bool) (forbidden : val C -> bool),
  rectangular st0 sizes v -> (forall n, In n sizes -> n <> 0) ->
  exists limits ms, neighbor_data st0 v (length sizes) diagonals = inl (limits, ms) /\
    forall (st : store C) (p : list Z), rectangular st sizes v -> length p = length sizes ->
    exists l, next_vertices st v limits ms wrap forbidden p = (l, ArrayDone) /\
      forall q, In q l <-> array_neighbor sizes diagonals wrap p q /\ exists c, array_get st v q = inl c /\ forbidden c = false.
Proof. intros C. exact next_vertices_exact. Qed.
Print Assumptions C72_next_vertices_from_forbidden.

Example C72_next_vertices_example :
  match neighbor_data st0 (VSeq 0) 2 false with
  | inl (limits, ms) =>
      let forbidden := fun v => match v with VCell 11 => true | _ => false end in
      next_vertices st0 (VSeq 0) limits ms false forbidden [0; 0]%Z = ([[1; 0]]%Z, ArrayDone) /\
      next_vertices st0 (VSeq 0) limits ms true forbidden [0; 0]%Z = ([[1; 0]; [0; 2]; [1; 0]]%Z, ArrayDone)
  | inr _ => False
  end.
Proof. vm_compute. auto. Qed.

(** C72, next_edges_from_cell_weights. *)
Theorem C72_next_edges_from_cell_weights :
  forall {C W : Type} (st0 : store C) (sizes : list nat) (v : val C) (diagonals wrap : bool) (content_to_weight : val C -> option W),
  rectangular st0 sizes v -> (forall n, In n sizes -> n <> 0) ->
  exists limits ms, neighbor_data st0 v (length sizes) diagonals = inl (limits, ms) /\
    forall (st : store C) (p : list Z), rectangular st sizes v -> length p = length sizes ->
    exists l, next_edges st v limits ms wrap content_to_weight p = (l, ArrayDone) /\
      forall q w, In (q, w) l <-> array_neighbor sizes diagonals wrap p q /\ exists c, array_get st v q = inl c /\ content_to_weight c = Some w.
Proof. intros C W. exact next_edges_exact. Qed.
Print Assumptions C72_next_edges_from_cell_weights.

Example C72_next_edges_example :
  match neighbor_data st0 (VSeq 0) 2 true with
  | inl (limits, ms) => next_edges st0 (VSeq 0) limits ms false (fun v => match v with VCell 11 => None | VCell n => Some (n * 2) | _ => None end) [0; 1]%Z =
                        ([([0; 0]%Z, 20); ([0; 2]%Z, 24); ([1; 0]%Z, 40); ([1; 1]%Z, 42)], ArrayDone)
  | inr _ => False
  end.
Proof. vm_compute. auto. Qed.

(** C72, between positions with allowed content, the neighbor relation is symmetric. *)
Theorem C72_array_neighbors_symmetric :
  forall (sizes : list nat) (diagonals wrap : bool) (p q : list Z), length p = length sizes -> inside p (whole_array sizes) ->
  array_neighbor sizes diagonals wrap p q -> array_neighbor sizes diagonals wrap q p.
Proof. exact array_neighbor_symmetric. Qed.
Print Assumptions C72_array_neighbors_symmetric.

Example C72_symmetric_example : array_neighbor [2; 3] false false [0; 1]%Z [1; 1]%Z.
Proof.
  split; [repeat constructor; simpl; lia|]. exists [1; 0]%Z. split; [|reflexivity]. split; [|left; reflexivity]. split; [reflexivity|]. simpl. intuition.
Qed.

(** C74, manhattan_distance is a metric on positions of the same dimension. *)
Theorem C74_manhattan_metric :
  forall (p q r : list Z), length p = length q -> length q = length r ->
  (0 <= manhattan_distance p q /\ (manhattan_distance p q = 0 <-> p = q) /\ manhattan_distance p q = manhattan_distance q p /\
   manhattan_distance p r <= manhattan_distance p q + manhattan_distance q r)%Z.
Proof. exact manhattan_metric. Qed.
Print Assumptions C74_manhattan_metric.

(** C74, manhattan_distance is the smallest number of moves without diagonals from one position to the other. *)
Theorem C74_manhattan_moves :
  forall (p q : list Z), length p = length q ->
  in_moves p (Z.to_nat (manhattan_distance p q)) q /\ forall n, in_moves p n q -> (manhattan_distance p q <= Z.of_nat n)%Z.
Proof. exact manhattan_moves. Qed.
Print Assumptions C74_manhattan_moves.

Example C74_manhattan_example : manhattan_distance [1; 5; -3]%Z [2; 2; 0]%Z = 7%Z.
Proof. reflexivity. Qed.

(** C74, sums, differences and multiples of positions have the expected coordinates, and are inverse to each other. *)
Theorem C74_arithmetic :
  forall (p o : list Z) (k : Z), length p = length o ->
  pos_add p o = translated p o /\ pos_sub (pos_add p o) o = p /\ pos_add (pos_sub p o) o = p /\
  (forall i, nth_error (pos_mul p k) i = match nth_error p i with Some c => Some (c * k)%Z | None => None end).
Proof. exact arithmetic_ok. Qed.
Print Assumptions C74_arithmetic.
