(** Model of approximation/bases/piecewise_polynomial_functional_basis.py:194-206 element_number, 122-126 cardinal and 62-89
    eval (indices=None).  The basis is given by its attributes points and p; [pol k] is the k-th of the orthonormal
    polynomials of LebesgueMeasure(0, 1) (lines 73-77; they are the subject of C09).  Floating point is idealised: real numbers. *)
From Coq Require Import List Arith Bool Reals.
Import ListNotations.
Local Open Scope R_scope.

Definition pt (pts : list R) (i : nat) : R := nth i pts 0.
(** piecewise_polynomial_functional_basis.py:194-206 element_number at one x *)
Definition pw_pos (pts : list R) (x : R) : nat :=
  let n := (length pts - 1)%nat in
  let pos := fold_left (fun pos i => if Rle_dec (pt pts i) x then if Rlt_dec x (pt pts (S i)) then i else pos else pos) (seq 0 n) 0%nat in
  let pos := if Rle_dec (last pts 0) x then (n - 1)%nat else pos in
  if Rlt_dec x (pt pts 0) then 0%nat else pos.
(** np.sum(self.p[:i] + 1), lines 83 and 126 *)
Definition pw_offset (p : list nat) (i : nat) : nat := list_sum (map S (firstn i p)).
Definition pw_card (p : list nat) : nat := pw_offset p (length p).
(** piecewise_polynomial_functional_basis.py:66-84 entry (x, c) of the array hx: the row of x is filled in the columns J of
    its element, np.sum(p[:i] + 1) + np.arange(p[i] + 1) *)
Definition pw_at (pol : nat -> R -> R) (pts : list R) (p : list nat) (x : R) (c : nat) : R :=
  let i := pw_pos pts x in let h := pt pts (S i) - pt pts i in let o := pw_offset p i in
  if (o <=? c)%nat && (c <=? o + nth i p 0)%nat then pol (c - o)%nat ((x - pt pts i) / h) / sqrt h else 0.
