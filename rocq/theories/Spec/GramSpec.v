(** Vocabulary for the Gramians of a tensor (no code is modelled here). *)
From Coq Require Import List Arith Bool Reals.
From Verif.Base Require Import ListAux CRing Index RealAux.
From Verif.Model Require Import Numpy.
From Verif.Spec Require Import TensorSpec.
Import ListNotations.
Local Open Scope R_scope.

(** the inner product of two sections of A: the indices of the axes E are those of [is] (of [js]), and the indices of all the
    other axes are summed *)
Definition sect (A : nd R) (E is js : list nat) : R :=
  let co := filter (fun d => negb (existsb (Nat.eqb d) E)) (seq 0 (ndim A)) in
  bsum (sel 0%nat (shape A) co) (fun x => get A (put co x is) * get A (put co x js)).
