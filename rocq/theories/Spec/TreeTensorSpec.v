(** Vocabulary for the properties of tree-based tensors (no code is modelled here). *)
From Coq Require Import List Arith Bool.
From Verif.Base Require Import ListAux CRing Index.
From Verif.Model Require Import Numpy FullTensor DimensionTree TreeBased.
From Verif.Spec Require Import TensorSpec TreeSpec.
Import ListNotations.

Section TreeTensorSpec.
  Context {R : Type} {CR : CRing R}.
  Local Open Scope cr_scope.

  (** number of axes of the core of a node before its last (rank) axis: one per child; one (the index of
      the dimension) at a leaf *)
  Definition arity_at (t : dtree) (n : nat) : nat := if is_leaf t n then 1%nat else length (children t n).
  (** sizes of these axes / of the remaining axes (the rank of the node; at the root, optional) *)
  Definition heads (X : tbt R) (n : nat) : list nat := firstn (arity_at (ttree X) n) (shape (core X n)).
  Definition exts (X : tbt R) (n : nat) : list nat := skipn (arity_at (ttree X) n) (shape (core X n)).

  (** well-formed tree-based tensor with root r: one core per node; internal nodes are active; an active
      node has one axis per child (a leaf: one axis) and a last axis, which may be absent at the root;
      the size of the axis of an active child is the last size of the child's core *)
  Definition tb_ok (X : tbt R) (r : nat) : Prop :=
    dim_tree (ttree X) r /\ length (cores X) = nbn (ttree X) /\ active X r = true /\
    forall n, node (ttree X) n ->
      (is_leaf (ttree X) n = false -> active X n = true) /\
      (active X n = true -> (arity_at (ttree X) n <= ndim (core X n))%nat /\
         length (exts X n) = (if n =? r then length (exts X n) else 1%nat) /\ (length (exts X n) <= 1)%nat) /\
      (forall c, edge (ttree X) n c -> active X c = true ->
         nth (index_of c (children (ttree X) n)) (shape (core X n)) 0%nat = last (shape (core X c)) 0%nat).

  (** the value of the sub-tree of node n at the multi-index [is] (over all dimensions) and rank index [e]
      ([e] is [[k]], or [[]] at a root without rank axis):
      - active leaf of dimension mu: core[is_mu, k]; inactive leaf: 1 if k = is_mu, 0 otherwise;
      - internal node: sum over k_1, ..., k_m of core[k_1, ..., k_m, e] * product of the values of the
        children at k_1, ..., k_m.
      The recursion goes down the tree; [nbn] steps are enough. *)
  Fixpoint tval_fuel (fuel : nat) (X : tbt R) (n : nat) (is e : list nat) : R :=
    match fuel with
    | 0%nat => r0
    | S f =>
      if is_leaf (ttree X) n then
        let i := nth (index_of n (d2i (ttree X))) is 0%nat in
        if active X n then get (core X n) (i :: e) else if list_eqb e [i] then r1 else r0
      else bsum (heads X n) (fun ks =>
             get (core X n) (ks ++ e) *
             lprod (combine (children (ttree X) n) ks) (fun p => tval_fuel f X (fst p) is [snd p]))
    end.
  Definition tval (X : tbt R) (n : nat) (is e : list nat) : R := tval_fuel (nbn (ttree X)) X n is e.

  (** the core A is orthonormal: the matrix whose column index is the last index of A has orthonormal columns *)
  Definition orth_cols (A : nd R) : Prop :=
    forall a b, (a < last (shape A) 0)%nat -> (b < last (shape A) 0)%nat ->
      bsum (removelast (shape A)) (fun ks => get A (ks ++ [a]) * get A (ks ++ [b])) = if a =? b then r1 else r0.
End TreeTensorSpec.
