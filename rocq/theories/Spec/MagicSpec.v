(** Vocabulary for cross approximation and interpolation.  Matrices are entries F a b, a < m, b < p; Is and J are lists of
    row and column indices. *)
From Coq Require Import List Arith Lia Reals Bool.
From Verif.Base Require Import ListAux CRing Index LinAlg.
Import ListNotations.
Local Open Scope R_scope.

(** F = A B with r columns in A *)
Definition rank_le (m p : nat) (F : nat -> nat -> R) (r : nat) : Prop :=
  exists A B : nat -> nat -> R, forall a b, (a < m)%nat -> (b < p)%nat -> F a b = rsum r (fun k => A a k * B k b).
(** the square submatrix F[I, J] has trivial kernel *)
Definition sub_nonsingular (F : nat -> nat -> R) (Is J : list nat) : Prop :=
  length Is = length J /\
  forall c : nat -> R, (forall k, (k < length Is)%nat -> rsum (length J) (fun l => F (nth k Is 0%nat) (nth l J 0%nat) * c l) = 0) ->
    forall l, (l < length J)%nat -> c l = 0.
(** G = F[:, J] X with F[I, J] X = F[I, :] *)
Definition cross_approximation (m p : nat) (F : nat -> nat -> R) (Is J : list nat) (G : nat -> nat -> R) : Prop :=
  exists X : nat -> nat -> R,
    (forall k b, (k < length Is)%nat -> (b < p)%nat -> rsum (length J) (fun l => F (nth k Is 0%nat) (nth l J 0%nat) * X l b) = F (nth k Is 0%nat) b) /\
    (forall a b, (a < m)%nat -> (b < p)%nat -> G a b = rsum (length J) (fun l => F a (nth l J 0%nat) * X l b)).
(** distinct indices below n *)
Definition distinct_below (n : nat) (l : list nat) : Prop := NoDup l /\ forall i, In i l -> (i < n)%nat.
