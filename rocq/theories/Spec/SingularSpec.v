(** What the singular values of a matricization of a tensor are (no code is modelled here). *)
From Coq Require Import List Arith Bool Reals.
From Verif.Base Require Import ListAux CRing Index RealAux.
From Verif.Model Require Import Numpy.
From Verif.Spec Require Import TensorSpec GramSpec.
Import ListNotations.
Local Open Scope R_scope.

(** [sv] is the list of the singular values of the matricization M of the array A whose rows are indexed by the indices of the axes D:
    the values are nonnegative and non-increasing, and M M^T = U diag(sv^2) U^T for a family of orthonormal functions u_0, u_1, ... of
    the indices of the axes D  ([sect A D is js] is the entry of M M^T of the rows of [is] and of [js]). *)
Definition singular_values_of (A : nd R) (D : list nat) (sv : list R) : Prop :=
  Forall (fun s => 0 <= s) sv /\
  (forall i j, (i <= j)%nat -> (j < length sv)%nat -> nth j sv 0 <= nth i sv 0) /\
  exists u : nat -> list nat -> R,
    (forall a b, (a < length sv)%nat -> (b < length sv)%nat ->
       bsum (sel 0%nat (shape A) D) (fun x => u a x * u b x) = if (a =? b)%nat then 1 else 0) /\
    forall is js, valid (shape A) is -> valid (shape A) js ->
      sect A D is js = rsum (length sv) (fun k => u k (sel 0%nat is D) * (nth k sv 0 * nth k sv 0) * u k (sel 0%nat js D)).
