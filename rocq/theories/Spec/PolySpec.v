(** Vocabulary for the properties of the polynomials (no code is modelled here). *)
From Coq Require Import List Arith Reals.
From Verif.Base Require Import ListAux CRing RealAux Poly.
Import ListNotations.
Local Open Scope R_scope.

(** value at x of the polynomial with the given coefficients: c_0 + c_1 x + c_2 x^2 + ... *)
Definition monomial_value (coef : list R) (x : R) : R := rsum (length coef) (fun j => nth j coef 0 * x ^ j).
Definition kron_delta (i j : nat) : R := if (i =? j)%nat then 1 else 0.

(** moments of the standard Gaussian: E[X^0] = 1, E[X] = 0, E[X^(k+2)] = (k+1) E[X^k] *)
Fixpoint gauss_moment2 (k : nat) : R * R :=
  match k with O => (1, 0) | S k' => (snd (gauss_moment2 k'), INR k * fst (gauss_moment2 k')) end.
Definition gauss_moment (k : nat) : R := fst (gauss_moment2 k).
(** moments of the uniform distribution on [-1, 1] *)
Definition unif_moment (k : nat) : R := if Nat.even k then 1 / INR (k + 1) else 0.

(** [moment_is m f v]: f is a polynomial function and its expectation, for a distribution with moments m, is v *)
Definition moment_is (m : nat -> R) (f : R -> R) (v : R) : Prop :=
  exists coef, (forall x, f x = monomial_value coef x) /\ v = rsum (length coef) (fun j => nth j coef 0 * m j).
(** integral over [s, t] by an antiderivative *)
Definition integral_is (s t : R) (f : R -> R) (v : R) : Prop :=
  exists F, (forall x, derivable_pt_lim F x (f x)) /\ v = F t - F s.

(** the documented contract of numpy.linalg.eig on a symmetric n x n matrix: n eigenpairs (lam k, column k of V),
    unit eigenvectors, linearly independent *)
Definition eig_contract (n : nat) (A : nat -> nat -> R) (lam : nat -> R) (V : nat -> nat -> R) : Prop :=
  (forall k i, (k < n)%nat -> (i < n)%nat -> rsum n (fun j => A i j * V j k) = lam k * V i k) /\
  (forall k, (k < n)%nat -> rsum n (fun i => V i k ^ 2) = 1) /\
  (forall c, (forall i, (i < n)%nat -> rsum n (fun k => c k * V i k) = 0) -> forall k, (k < n)%nat -> c k = 0).
