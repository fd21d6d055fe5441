(** Graphs with floats for A* (C98, C99). *)
From Coq Require Import List ZArith Bool Arith Lia.
From Verif Require Import Machine GearSpec Spec TraversalSpec Common Weight WeightSpec
  HeapModel DijkstraModel AStarModel Examples AStarExamples FloatModel FloatSpec FloatProofs AStarRounded AStarFloat.
Import ListNotations.
Local Open Scope Z_scope.

(** The float m * 2^k (k: in units of the smallest float, 2^-1074) *)
Definition num (m k : Z) : w_t PyFloat := float_of 53 py_largest (m * 2 ^ k).
Definition val (a : w_t PyFloat) : option Z := option_map (fin_value 53 py_largest) a.
Notation fc := (float_consistent 53 py_largest).
Notation fa := (float_admissible 53 py_largest py_prec py_largest_nonneg).

(** Heuristics and weights of a finite list of edges, tested by evaluation *)
Definition le_opt (a w b : option Z) : bool := match a, w, b with Some x, Some y, Some z => x <=? y + z | _, _, _ => false end.
Definition edges_ok (next : nat -> list (nat * w_t PyFloat * unit)) (h : nat -> w_t PyFloat) (v : nat) : bool :=
  forallb (fun e => le_opt (val (h v)) (val (snd (fst e))) (val (h (fst (fst e))))) (next v).

Lemma consistent_test next h : (forall v, val (h v) <> None) -> (forall v, edges_ok next h v = true) -> fc (wgraph_of (WT := PyFloat) next) h.
Proof.
  intros Hf He. split.
  - intros i. specialize (Hf i). destruct (h i) as [a|]; [now exists a|]. now destruct Hf.
  - intros i w j a b HE Ha Hb. unfold wgraph_of in HE. apply in_map_iff in HE. destruct HE as ([[n w'] l] & Heq & Hin). cbn [fst snd] in Heq. injection Heq as -> ->.
    specialize (He i). unfold edges_ok in He. rewrite forallb_forall in He. specialize (He _ Hin). cbn [fst snd] in He. rewrite Ha, Hb in He. cbn [val option_map le_opt] in He.
    apply Z.leb_le in He. exact He.
Qed.

(** 0.1, 0.2 and 0.3: see C96. The exact distances to vertex 3 as estimations *)
Definition fa_next (v : nat) : list (nat * w_t PyFloat * unit) :=
  match v with
  | 0 => [(1, num 3602879701896397 1019, tt); (2, num 5404319552844595 1020, tt)]
  | 1 => [(2, num 3602879701896397 1020, tt)]
  | 2 => [(3, num 5404319552844595 1020, tt)]
  | _ => []
  end%nat.
Definition fa_h (v : nat) : w_t PyFloat := match v with 0 => num 5404319552844595 1021 | 1 => num 1 1073 | 2 => num 5404319552844595 1020 | _ => num 0 0 end%nat.

(** Edges of weights 1 (0 - 2), 0.25 (0 - 1, 1 - 2) and 2^60 (2 - 3); the estimation is the distance to 3, rounded *)
Definition ft_next (v : nat) : list (nat * w_t PyFloat * unit) :=
  match v with 0 => [(2, num 1 1074, tt); (1, num 1 1072, tt)] | 1 => [(2, num 1 1072, tt)] | 2 => [(3, num 1 1134, tt)] | _ => [] end%nat.
Definition fl_next (v : nat) : list (nat * w_t PyFloat * unit) :=
  match v with 0 => [(1, num 1 1072, tt); (2, num 1 1074, tt)] | 1 => [(2, num 1 1072, tt)] | 2 => [(3, num 1 1134, tt)] | _ => [] end%nat.
Definition ft_h (v : nat) : w_t PyFloat := match v with 0 | 1 | 2 => num 1 1134 | _ => num 0 0 end%nat.

Ltac by_cases := intros v; do 3 (destruct v as [|v]; [vm_compute; first [reflexivity|discriminate]|]); vm_compute; first [reflexivity|discriminate].

Lemma fa_consistent : fc (wgraph_of (WT := PyFloat) fa_next) fa_h.
Proof. apply consistent_test; by_cases. Qed.
Lemma ft_consistent : fc (wgraph_of (WT := PyFloat) ft_next) ft_h.
Proof. apply consistent_test; by_cases. Qed.
Lemma fl_consistent : fc (wgraph_of (WT := PyFloat) fl_next) ft_h.
Proof. apply consistent_test; by_cases. Qed.

Lemma zero_val a : val a = Some 0 -> exists b, a = Some b /\ fin_value 53 py_largest b = 0.
Proof. destruct a as [b|]; [|discriminate]. cbn [val option_map]. intros H. injection H as H. now exists b. Qed.

Lemma fa_admissible : fa (wgraph_of (WT := PyFloat) fa_next) fa_h (fun i => i = 3%nat).
Proof. apply consistent_admissible; [exact fa_consistent|]. intros g ->. apply zero_val. vm_compute. reflexivity. Qed.
Lemma ft_admissible : fa (wgraph_of (WT := PyFloat) ft_next) ft_h (fun i => i = 3%nat).
Proof. apply consistent_admissible; [exact ft_consistent|]. intros g ->. apply zero_val. vm_compute. reflexivity. Qed.
Lemma fl_admissible : fa (wgraph_of (WT := PyFloat) fl_next) ft_h (fun i => i = 3%nat).
Proof. apply consistent_admissible; [exact fl_consistent|]. intros g ->. apply zero_val. vm_compute. reflexivity. Qed.

Definition fdm : DMap nat (w_t PyFloat) (w_inf PyFloat) := hDM (W := w_t PyFloat) None.
Definition frun (next : nat -> list (nat * w_t PyFloat * unit)) h n := ast_run id_nat PyFloat fdm bPM bPM next ast_default h [0%nat] None None None n.
Definition fshow (os : list (@ast_report nat nat unit PyFloat fdm bPM bPM)) := map (fun rep => (ar_vertex rep, val (ar_path_length rep), ar_depth rep)) os.
