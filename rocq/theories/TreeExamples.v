(** An infinite tree: the complete binary tree, vertex [v] has the children [2v+1] and [2v+2]. *)
From Coq Require Import List ZArith Arith Lia Bool.
From Verif Require Import DFSSpec WTree.
Import ListNotations.

Definition bin_edges {L} (a b : L) (v : nat) : list (nat * L) := [(2 * v + 1, a); (2 * v + 2, b)].

Lemma bin_tree {L} (a b : L) : tree_like (fun v : nat => v) (bin_edges a b) [0].
Proof.
  intros j v p j' v' p' H1 H2 E. simpl in E. subst v'. remember ((j, v) :: p) as x eqn:Ex. revert j v p Ex j' p' H2.
  induction H1 as [k s Hk|i n l ju u pu H1 IH Hi]; intros j v p Ex j' p' H2.
  - injection Ex as -> -> <-. destruct j as [|j]; [|destruct j; discriminate]. injection Hk as <-.
    inversion H2 as [k' s' Hk'|i' n' l' ju' u' pu' H2' Hi']; subst.
    + destruct j' as [|j']; [reflexivity|destruct j'; discriminate].
    + destruct j' as [|[|j']]; cbn in Hi'; [injection Hi' as Hi' _; lia|injection Hi' as Hi' _; lia|destruct j'; discriminate].
  - injection Ex as -> -> <-. inversion H2 as [k' s' Hk'|i' n' l' ju' u' pu' H2' Hi']; subst.
    + destruct j' as [|j']; [|destruct j'; discriminate]. injection Hk' as <-.
      destruct j as [|[|j]]; cbn in Hi; [injection Hi as Hi _; lia|injection Hi as Hi _; lia|destruct j; discriminate].
    + assert (Hu : u = u' /\ j = j').
      { destruct j as [|[|j]]; cbn in Hi; [| |destruct j; discriminate]; injection Hi as Hi _;
        (destruct j' as [|[|j']]; cbn in Hi'; [| |destruct j'; discriminate]; injection Hi' as Hi' _; lia). }
      destruct Hu as [-> ->]. f_equal. eapply IH; eauto.
Qed.

Definition bin_next : nat -> list (nat * nat) := bin_edges 10 20.
Definition bin_wnext (v : nat) : list (nat * option Z * unit) := [(2 * v + 1, Some 1%Z, tt); (2 * v + 2, Some 3%Z, tt)].
Lemma bin_next_tree : tree_like (fun v : nat => v) bin_next [0].
Proof. apply bin_tree. Qed.
Lemma bin_wnext_tree : tree_like (fun v : nat => v) (bare bin_wnext) [0].
Proof. apply (bin_tree (Some 1%Z, tt) (Some 3%Z, tt)). Qed.
