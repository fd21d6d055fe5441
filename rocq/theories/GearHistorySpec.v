(** Mathematical sets and partial maps, and what the operations mean for them. *)
From Coq Require Import List ZArith Bool Arith.
From Verif Require Import GearHistoryModel.
Import ListNotations.

(** Meaning of one operation on a set of numbers: [s] before, [s'] after. *)
Definition set_op_means (op : set_op) (s s' : nat -> Prop) : Prop :=
  match op with
  | SAdd k => forall j, s' j <-> j = k \/ s j
  | SDiscard k => forall j, s' j <-> j <> k /\ s j
  | SUpdate ks => forall j, s' j <-> In j ks \/ s j
  | SPop => (* the smallest element is removed, if there is one *)
      forall j, s' j <-> s j /\ exists i, s i /\ i < j
  | SClear => forall j, ~ s' j
  end.

(** [set_history s ops s']: applying [ops] to the set [s] gives the set [s']. *)
Inductive set_history : (nat -> Prop) -> list set_op -> (nat -> Prop) -> Prop :=
| sh_nil s s' : (forall j, s' j <-> s j) -> set_history s [] s'
| sh_cons s s1 op ops s' : set_op_means op s s1 -> set_history s1 ops s' ->
    set_history s (op :: ops) s'.

(** Partial maps are functions to [option]; the value [default] denotes absence, so that
    storing it removes the key. *)
Section Map.
Context {A : Type}.
Variable default : A.

(** [assigned k v m m']: [m'] is [m] with [k] mapped to [v]. *)
Definition assigned (k : nat) (v : A) (m m' : nat -> option A) : Prop :=
  (v <> default -> m' k = Some v) /\ (v = default -> m' k = None) /\
  forall j, j <> k -> m' j = m j.

(** Items are assigned one after the other; with [only_missing] only to keys without value. *)
Inductive all_assigned (only_missing : bool) :
    list (nat * A) -> (nat -> option A) -> (nat -> option A) -> Prop :=
| aa_nil m m' : (forall j, m' j = m j) -> all_assigned only_missing [] m m'
| aa_set k v items m m1 m' :
    (only_missing = false \/ m k = None) ->
    assigned k v m m1 -> all_assigned only_missing items m1 m' ->
    all_assigned only_missing ((k, v) :: items) m m'
| aa_skip k v items m m' : only_missing = true -> m k <> None ->
    all_assigned only_missing items m m' ->
    all_assigned only_missing ((k, v) :: items) m m'.

Definition map_op_means (op : map_op A) (m m' : nat -> option A) : Prop :=
  match op with
  | MSet k v => assigned k v m m'
  | MDel k => m' k = None /\ forall j, j <> k -> m' j = m j
  | MUpdate items => all_assigned false items m m'
  | MUpdateDefault items => all_assigned true items m m'
  end.

Inductive map_history : (nat -> option A) -> list (map_op A) -> (nat -> option A) -> Prop :=
| mh_nil m m' : (forall j, m' j = m j) -> map_history m [] m'
| mh_cons m m1 op ops m' : map_op_means op m m1 -> map_history m1 ops m' ->
    map_history m (op :: ops) m'.
End Map.
