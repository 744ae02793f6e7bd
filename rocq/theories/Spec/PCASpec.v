(** Vocabulary for the properties of the tensor principal component analysis (no code is modelled here). *)
From Coq Require Import List Arith Reals.
From Verif.Base Require Import ListAux CRing Index RealAux.
From Verif.Model Require Import Numpy.
From Verif.Spec Require Import TensorSpec TruncatorSpec.
Import ListNotations.
Local Open Scope R_scope.

(** the dimensions of an array with d dimensions that are not in D *)
Definition other_dims (d : nat) (D : list nat) : list nat := filter (fun k => negb (existsb (Nat.eqb k) D)) (seq 0 d).
(** the fibres of f along the dimensions D through the points Z of the other dimensions span all the fibres along D *)
Definition fibres_span (f : list nat -> R) (s D : list nat) (Z : list (list nat)) : Prop :=
  forall is, valid s is -> exists a : nat -> R, forall p, valid (sel 0%nat s D) p ->
    f (put D p is) = rsum (length Z) (fun j => a j * f (put D p (put (other_dims (length s) D) (nth j Z []) is))).

(** a parameter with one value for all the nodes or with one value per node *)
Definition node_param (l : list (option R)) (n : nat) : option R := match l with [x] => x | _ => nth (n - 1) l None end.
(** x is the least of two numbers that may be infinite *)
Definition least_of (a b : option R) (x : R) : Prop :=
  (a = Some x \/ b = Some x) /\ (forall y, a = Some y -> x <= y) /\ (forall y, b = Some y -> x <= y).
(** the number N of random points of a node with m unknown coefficients: the sampling factor times the least number of points *)
Definition draws_count (factor : nat) (x : R) (m N : nat) : Prop :=
  (x < 1 -> N = (factor * m)%nat) /\ (1 <= x -> INR N - 1 < INR factor * x <= INR N).
(** the parameters and the random points of a node with dimensions D and m unknown coefficients make its truncation exact: the precision is
    not positive, or the rank is at least that of f; and the fibres at the random points span all the fibres *)
Definition exact_node (f : list nat -> R) (s : list nat) (factor : nat) (adaptive : bool) (tol mr : list (option R))
  (rnd : list nat -> nat -> list (list nat)) (n : nat) (D : list nat) (m : nat) : Prop :=
  exists x, least_of (node_param tol n) (node_param mr n) x /\
    (x <= 0 /\ adaptive = false \/ 1 <= x /\ forall k, INR k <= x < INR k + 1 -> rank_at_most s D k f) /\
    forall N, draws_count factor x m N -> fibres_span f s D (rnd (other_dims (length s) D) N).
