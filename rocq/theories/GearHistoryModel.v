(** Histories of operations on the collections of [GearModel.v], and the mathematical
    collections they are compared with. *)
From Coq Require Import List ZArith NArith Bool Arith.
From Verif Require Import GearModel.
Import ListNotations.

(** * Sets *)
(** The operations a user can apply to a vertex set. [SPop] and [SClear] are the mixin
    methods of [collections.abc.MutableSet] (base class of [VertexSet]), that are based on
    [__iter__] and [discard]. *)
Inductive set_op :=
| SAdd (k : nat)
| SDiscard (k : nat)
| SUpdate (ks : list nat)          (* update_from_keys *)
| SPop
| SClear.

(** [MutableSet.pop]: discard the first iterated key ([None]: KeyError, nothing changed). *)
Definition mixin_pop {T} (iter : T -> list nat) (discard : nat -> T -> T) (s : T) : option T :=
  match iter s with [] => None | k :: _ => Some (discard k s) end.

(** [MutableSet.clear]: [while True: self.pop()] until KeyError. The bound is the number of
    passes; [len s] passes suffice (proved). *)
Fixpoint mixin_clear {T} (iter : T -> list nat) (discard : nat -> T -> T) (fuel : nat) (s : T) : T :=
  match fuel with
  | 0 => s
  | S fuel' => match mixin_pop iter discard s with
               | None => s
               | Some s' => mixin_clear iter discard fuel' s'
               end
  end.

Definition bs_apply (cfg : wcfg) (s : list N) (op : set_op) : list N :=
  match op with
  | SAdd k => bs_add cfg k s
  | SDiscard k => bs_discard k s
  | SUpdate ks => bs_update cfg ks s
  | SPop => match mixin_pop bs_iter bs_discard s with Some s' => s' | None => s end
  | SClear => mixin_clear bs_iter bs_discard (bs_len s) s
  end.

Definition bits_apply (cfg : wcfg) (s : list N) (op : set_op) : list N :=
  match op with
  | SAdd k => bits_add cfg k s
  | SDiscard k => bits_discard k s
  | SUpdate ks => bits_update cfg ks s
  | SPop => match mixin_pop bits_iter bits_discard s with Some s' => s' | None => s end
  | SClear => mixin_clear bits_iter bits_discard (bits_len s) s
  end.

(** The set after a history that starts with initial keys, _gear_collections.py:808-818. *)
Definition bs_after (cfg : wcfg) (keys : list nat) (ops : list set_op) : list N :=
  fold_left (bs_apply cfg) ops (bs_update cfg keys (bs_new cfg)).
Definition bits_after (cfg : wcfg) (keys : list nat) (ops : list set_op) : list N :=
  fold_left (bits_apply cfg) ops (bits_update cfg keys (bits_new cfg)).

(** * Mappings *)
Inductive map_op {A : Type} :=
| MSet (k : nat) (v : A)
| MDel (k : nat)
| MUpdate (items : list (nat * A))          (* update_from_keys_values *)
| MUpdateDefault (items : list (nat * A)).  (* update_default *)
Arguments map_op : clear implicits.

Definition ma_apply {A} (A_eqb : A -> A -> bool) (cfg : wcfg) (default : A)
    (s : list A) (op : map_op A) : list A :=
  match op with
  | MSet k v => ma_setitem cfg default k v s
  | MDel k => ma_delitem A_eqb default k s
  | MUpdate items => ma_update cfg default items s
  | MUpdateDefault items => ma_update_default A_eqb cfg default items s
  end.

(** _gear_collections.py:1025-1041 *)
Definition ma_after {A} (A_eqb : A -> A -> bool) (cfg : wcfg) (default : A)
    (items : list (nat * A)) (ops : list (map_op A)) : list A :=
  fold_left (ma_apply A_eqb cfg default) ops (ma_update cfg default items (ma_new cfg default)).
