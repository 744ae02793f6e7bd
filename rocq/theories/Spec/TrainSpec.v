(** Vocabulary for tensor trains (no code is modelled here). *)
From Coq Require Import List Arith Bool.
From Verif.Base Require Import ListAux CRing Index.
From Verif.Model Require Import Numpy.
Import ListNotations.

Section TrainSpec.
  Context {R : Type} {CR : CRing R}.
  Local Open Scope cr_scope.
  (** the sizes n_0, n_1, ..., ranks k_0, k_1, ... of the cores of a tensor train: (n_0, k_0), (k_0, n_1, k_1), ..., (k_(d-2), n_(d-1)) followed by
      the (at most one) output axis *)
  Definition train_shapes (d : nat) (A : nat -> nd R) (n k : nat -> nat) (ext : list nat) : Prop :=
    shape (A 0%nat) = [n 0%nat; k 0%nat] /\
    (forall j, (1 <= j < d - 1)%nat -> shape (A j) = [k (j - 1)%nat; n j; k j]) /\
    shape (A (d - 1)%nat) = [k (d - 2)%nat; n (d - 1)%nat] ++ ext.
  (** the product of the cores 0, ..., j: A_0[i_0, :] A_1[:, i_1, :] ... A_j[:, i_j, e] *)
  Fixpoint train_prod (A : nat -> nd R) (k : nat -> nat) (is : list nat) (j : nat) (e : list nat) : R :=
    match j with
    | 0%nat => get (A 0%nat) (nth 0 is 0%nat :: e)
    | S j' => rsum (k j') (fun a => train_prod A k is j' [a] * get (A (S j')) (a :: nth (S j') is 0%nat :: e))
    end.
End TrainSpec.
