(** Model of approximation/bases/sub_functional_basis.py:94-115: SubFunctionalBasis.orthonormalize (Gram-Schmidt on the
    columns of the matrix of coefficients).  Floating point is idealised: real numbers. *)
From Coq Require Import List Arith Reals.
From Verif.Base Require Import ListAux CRing Index RealAux.
From Verif.Model Require Import Numpy FunctionalBases.
Import ListNotations.
Local Open Scope R_scope.

(** scalar product of the first n entries *)
Definition dotn (n : nat) (u v : nat -> R) : R := rsum n (fun k => u k * v k).
(** sub_functional_basis.py:107-113 the i-th column, [qs] the first i columns of new_basis: subtraction of
    new_basis[:, :i] (new_basis[:, :i]^T new_basis[:, i]), then division by the norm *)
Definition gs_sub (n : nat) (qs : list (nat -> R)) (v : nat -> R) : nat -> R :=
  fun k => v k - rsum (length qs) (fun j => nth j qs (fun _ => 0) k * dotn n (nth j qs (fun _ => 0)) v).
Definition gs_col (n : nat) (qs : list (nat -> R)) (v : nat -> R) : nat -> R :=
  fun k => gs_sub n qs v k / sqrt (dotn n (gs_sub n qs v) (gs_sub n qs v)).
Definition gs (n : nat) (vs : list (nat -> R)) : list (nat -> R) := fold_left (fun qs v => qs ++ [gs_col n qs v]) vs [].
Definition columns (B : nd R) : list (nat -> R) := map (fun j k => get B [k; j]) (seq 0 (nth 1 (shape B) 0%nat)).
Definition of_columns (n : nat) (vs : list (nat -> R)) : nd R := ND [n; length vs] (fun ix => nth (nth 1 ix 0%nat) vs (fun _ => 0) (nth 0 ix 0%nat)).
(** sub_functional_basis.py:94-115 orthonormalize: the matrix of the new basis (AssertionError when the underlying basis is
    not orthonormal; IndexError when there is no column, line 107) *)
Definition sub_orthonormalize {A V} (b : fbasis R A V) (B : nd R) : option (nd R) :=
  if fb_orth b then
    match nth 1 (shape B) 0%nat with O => None | S _ => Some (of_columns (nth 0 (shape B) 0%nat) (gs (nth 0 (shape B) 0%nat) (columns B))) end
  else None.
