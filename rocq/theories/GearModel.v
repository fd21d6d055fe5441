(** Model of the collections in [_gear_collections.py] and of their use by the
    gears of [_gears.py].

    Keys are natural numbers ([NonNegativeDenseInt], _gear_collections.py:645); the
    methods that accept any object as key ([__contains__]) take an integer here. A Python
    list or array is a list; reading or writing outside of its bounds
    (IndexError) gives [None]. *)
From Coq Require Import List ZArith NArith Bool Arith.
From Verif Require Import GearSpec.
Import ListNotations.

(** [sequence[key]]; [None]: IndexError. *)
Definition seq_get {A} (s : list A) (k : nat) : option A := nth_error s k.

(** [sequence[key] = value]; [None]: IndexError. *)
Fixpoint seq_set {A} (s : list A) (k : nat) (a : A) : option (list A) :=
  match s, k with
  | [], _ => None
  | _ :: r, 0 => Some (a :: r)
  | x :: r, S k' => option_map (cons x) (seq_set r k' a)
  end.

(** Parameters of a wrapper, _gear_collections.py:691-736 ([__init__]):
    size of extensions, whether a template is used, and the pre-allocated size. *)
Record wcfg := { w_extend_size : nat; w_by_template : bool; w_pre_allocate : nat }.

Section Wrapper.
Context {A : Type}.
Variable cfg : wcfg.
Variable default : A.

(** The sequence factories of _gears.py:541-551, 566, 596, 609-612, 705-708, 754-757,
    822-824: pre-allocated space filled with the default value. *)
Definition factory : list A := repeat default (w_pre_allocate cfg).

(** _gear_collections.py:731-736 *)
Definition expansion_template : option (list A) :=
  if w_by_template cfg then Some (factory ++ repeat default (w_extend_size cfg)) else None.

(** _gear_collections.py:777-778: [while len(collection) < target_len: extend(template)].
    Fuel [target_len] suffices for a non-empty template. *)
Fixpoint extend_by_template_loop (fuel : nat) (s tpl : list A) (target_len : nat) : list A :=
  match fuel with
  | 0 => s
  | S fuel' => if length s <? target_len
               then extend_by_template_loop fuel' (s ++ tpl) tpl target_len else s
  end.

(** _gear_collections.py:753-779 ([extend_and_set]); [None]: the final assignment raises. *)
Definition extend_and_set (s : list A) (key : nat) (value : A) : option (list A) :=
  let target_len := (key + 1) + w_extend_size cfg in
  let s1 := match expansion_template with
            | None => s ++ repeat default (target_len - length s)
            | Some tpl => extend_by_template_loop target_len s tpl target_len
            end in
  seq_set s1 key value.

(** The pattern [try: sequence[key] = value; except IndexError: extend_and_set(key, value)],
    e.g. _gear_collections.py:888-891, 1056-1060 and breadth_first.py:349-352.
    If even that raised, the collection would be left unchanged. *)
Definition set_or_extend (s : list A) (key : nat) (value : A) : list A :=
  match seq_set s key value with
  | Some s' => s'
  | None => match extend_and_set s key value with Some s' => s' | None => s end
  end.
End Wrapper.

(** * Sets without bit packing, _gear_collections.py:865-920 *)
Section ByteSet.
Variable cfg : wcfg.

Definition bs_new : list N := factory cfg 0%N.

(** _gear_collections.py:868-877 ([__contains__]) *)
Definition bs_contains (k : Z) (s : list N) : bool :=
  if (k <? 0)%Z then false
  else match seq_get s (Z.to_nat k) with
       | Some v => negb (v =? 0)%N
       | None => false
       end.

(** _gear_collections.py:887-891 ([add]) *)
Definition bs_add (k : nat) (s : list N) : list N := set_or_extend cfg 0%N s k 1%N.

(** _gear_collections.py:893-897 ([discard]) *)
Definition bs_discard (k : nat) (s : list N) : list N :=
  match seq_set s k 0%N with Some s' => s' | None => s end.

(** _gear_collections.py:899-904 ([update_from_keys]) *)
Definition bs_update (ks : list nat) (s : list N) : list N :=
  fold_left (fun s k => set_or_extend cfg 0%N s k 1%N) ks s.

(** _gear_collections.py:879-882 ([__iter__]); [k] is the number of the first element *)
Fixpoint bs_iter_from (k : nat) (s : list N) : list nat :=
  match s with
  | [] => []
  | v :: r => (if (v =? 0)%N then [] else [k]) ++ bs_iter_from (S k) r
  end.
Definition bs_iter (s : list N) : list nat := bs_iter_from 0 s.

(** _gear_collections.py:884-885 ([__len__]) *)
Definition bs_len (s : list N) : nat := length (filter (fun v => negb (v =? 0)%N) s).

(** The inlined code of the traversals, e.g. breadth_first.py:338-345: result [None] if
    the vertex has been visited ([continue]), else the updated sequence. *)
Definition bs_visit (k : nat) (s : list N) : option (list N) :=
  match seq_get s k with
  | Some v => if negb (v =? 0)%N then None else Some (match seq_set s k 1%N with Some s' => s' | None => s end)
  | None => Some (match extend_and_set cfg 0%N s k 1%N with Some s' => s' | None => s end)
  end.
End ByteSet.

(** * Sets with bit packing, _gear_collections.py:923-1001 *)
Section BitSet.
Variable cfg : wcfg.

Definition bits_new : list N := factory cfg 0%N.
Definition bit_mask (k : nat) : N := N.shiftl 1 (N.of_nat (k mod 8)).

(** _gear_collections.py:926-937 ([__contains__]) *)
Definition bits_contains (k : Z) (s : list N) : bool :=
  if (k <? 0)%Z then false
  else match seq_get s (Z.to_nat k / 8) with
       | Some v => negb (v =? 0)%N && negb (N.land v (bit_mask (Z.to_nat k)) =? 0)%N
       | None => false
       end.

(** [try: s[i] = s[i] | mask; except IndexError: extend_and_set(i, mask)] *)
Definition bits_or (k : nat) (s : list N) : list N :=
  match seq_get s (k / 8) with
  | Some v => match seq_set s (k / 8) (N.lor v (bit_mask k)) with Some s' => s' | None => s end
  | None => match extend_and_set cfg 0%N s (k / 8) (bit_mask k) with Some s' => s' | None => s end
  end.

(** _gear_collections.py:957-964 ([add]) *)
Definition bits_add (k : nat) (s : list N) : list N := bits_or k s.

(** _gear_collections.py:966-973 ([discard]) *)
Definition bits_discard (k : nat) (s : list N) : list N :=
  match seq_get s (k / 8) with
  | Some v => match seq_set s (k / 8) (N.land v (255 - bit_mask k)) with Some s' => s' | None => s end
  | None => s
  end.

(** _gear_collections.py:975-983 ([update_from_keys]) *)
Definition bits_update (ks : list nat) (s : list N) : list N := fold_left (fun s k => bits_or k s) ks s.

(** _gear_collections.py:939-949 ([__iter__]) *)
Definition byte_iter (high : nat) (v : N) : list nat :=
  if (v =? 0)%N then []
  else flat_map (fun p : nat * N => if (N.land v (snd p) =? 0)%N then [] else [high + fst p])
                (combine (seq 0 8) [1; 2; 4; 8; 16; 32; 64; 128]%N).
Fixpoint bits_iter_from (high : nat) (s : list N) : list nat :=
  match s with
  | [] => []
  | v :: r => byte_iter high v ++ bits_iter_from (high + 8) r
  end.
Definition bits_iter (s : list N) : list nat := bits_iter_from 0 s.

(** [value.bit_count()] *)
Fixpoint pos_bit_count (p : positive) : nat :=
  match p with xH => 1 | xO q => pos_bit_count q | xI q => S (pos_bit_count q) end.
Definition bit_count (v : N) : nat := match v with N0 => 0 | Npos p => pos_bit_count p end.

(** _gear_collections.py:951-955 ([__len__]) *)
Definition bits_len (s : list N) : nat := list_sum (map bit_count s).

(** The inlined code of the traversals, e.g. breadth_first.py:325-337. *)
Definition bits_visit (k : nat) (s : list N) : option (list N) :=
  match seq_get s (k / 8) with
  | Some v => if negb (N.land v (bit_mask k) =? 0)%N then None
              else Some (match seq_set s (k / 8) (N.lor v (bit_mask k)) with Some s' => s' | None => s end)
  | None => Some (match extend_and_set cfg 0%N s (k / 8) (bit_mask k) with Some s' => s' | None => s end)
  end.
End BitSet.

(** * Mappings, _gear_collections.py:1007-1143. The sequence stores elements of [A]; [default]
    marks gaps. For [..WithNone], [A] is [option B] and [default] is [None]. *)
Section Mapping.
Context {A : Type}.
Variable A_eqb : A -> A -> bool.
Variable cfg : wcfg.
Variable default : A.

Definition ma_new : list A := factory cfg default.

(** _gear_collections.py:1062-1071 ([__contains__]) *)
Definition ma_contains (k : Z) (s : list A) : bool :=
  if (k <? 0)%Z then false
  else (Z.to_nat k <? length s) &&
       match seq_get s (Z.to_nat k) with Some v => negb (A_eqb v default) | None => false end.

(** _gear_collections.py:1043-1052 ([__getitem__]); [None]: KeyError *)
Definition ma_getitem (k : nat) (s : list A) : option A :=
  if ma_contains (Z.of_nat k) s then seq_get s k else None.

(** _gear_collections.py:1054-1060 ([__setitem__]) *)
Definition ma_setitem (k : nat) (v : A) (s : list A) : list A := set_or_extend cfg default s k v.

(** _gear_collections.py:1088-1091 ([__delitem__]) *)
Definition ma_delitem (k : nat) (s : list A) : list A :=
  if ma_contains (Z.of_nat k) s
  then match seq_set s k default with Some s' => s' | None => s end else s.

(** _gear_collections.py:1098-1109 ([update_from_keys_values]) *)
Definition ma_update (items : list (nat * A)) (s : list A) : list A :=
  fold_left (fun s p => set_or_extend cfg default s (fst p) (snd p)) items s.

(** _gear_collections.py:1111-1125 ([update_default]) *)
Definition ma_setdefault (k : nat) (v : A) (s : list A) : list A :=
  match seq_get s k with
  | Some x => if A_eqb x default
              then match seq_set s k v with Some s' => s' | None => s end else s
  | None => match extend_and_set cfg default s k v with Some s' => s' | None => s end
  end.
Definition ma_update_default (items : list (nat * A)) (s : list A) : list A :=
  fold_left (fun s p => ma_setdefault (fst p) (snd p) s) items s.

(** _gear_collections.py:1073-1080 ([__iter__]) *)
Fixpoint ma_iter_from (k : nat) (s : list A) : list nat :=
  match s with
  | [] => []
  | v :: r => (if A_eqb v default then [] else [k]) ++ ma_iter_from (S k) r
  end.
Definition ma_iter (s : list A) : list nat := ma_iter_from 0 s.

(** _gear_collections.py:1082-1086 ([__len__]) *)
Definition ma_len (s : list A) : nat := length (filter (fun v => negb (A_eqb v default)) s).

(** Direct reading by the traversals, e.g. shortest_paths.py:
    [try: d = distances_sequence[i]; except IndexError: d = infinity]. *)
Definition ma_direct (k : nat) (s : list A) : A :=
  match seq_get s k with Some v => v | None => default end.
End Mapping.

(** * Hash based collections: [set], [dict], [DefaultdictWithNiceStr]
    (_gears.py:296-375). Python's hash collections are modelled as functions: lookup of
    a key gives the value stored last. *)
Section Hashed.
Context {I : Type}.
Variable I_dec : forall a b : I, {a = b} + {a <> b}.

Definition hset_add (i : I) (s : I -> bool) : I -> bool := fun j => if I_dec j i then true else s j.
Definition hset_discard (i : I) (s : I -> bool) : I -> bool := fun j => if I_dec j i then false else s j.
Definition hmap_set {A} (i : I) (a : A) (m : I -> A) : I -> A := fun j => if I_dec j i then a else m j.
End Hashed.
