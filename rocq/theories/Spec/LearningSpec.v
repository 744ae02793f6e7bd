(** Vocabulary for least-squares learning. *)
From Coq Require Import List Arith Lia Reals Bool.
From Verif.Base Require Import ListAux CRing Index RealAux LinAlg.
From Verif.Model Require Import Learning.
Import ListNotations.
Local Open Scope R_scope.

(** prediction of the linear model with coefficients x for the i-th sample *)
Definition prediction (A : mx) (x : vec) (i : nat) : R := rsum (mcols A) (fun j => ment A i j * x j).
(** residual sum of squares over the samples listed in [rows] *)
Definition rss (A : mx) (y : vec) (rows : list nat) (x : vec) : R := lsum rows (fun i => (y i - prediction A x i) ^ 2).
Definition least_squares (A : mx) (y : vec) (rows : list nat) (x : vec) : Prop := forall x', rss A y rows x <= rss A y rows x'.
(** least-squares fits among the coefficient vectors that vanish outside [ind] *)
Definition supported (A : mx) (ind : list nat) (x : vec) : Prop := forall j, (j < mcols A)%nat -> ~ In j ind -> x j = 0.
Definition sparse_least_squares (A : mx) (y : vec) (rows ind : list nat) (x : vec) : Prop :=
  supported A ind x /\ forall x', supported A ind x' -> rss A y rows x <= rss A y rows x'.
(** the samples in [rows] determine the coefficients (the columns restricted to [rows] are independent) *)
Definition determined (A : mx) (rows : list nat) : Prop :=
  forall x, (forall i, In i rows -> prediction A x i = 0) -> forall j, (j < mcols A)%nat -> x j = 0.
Definition all_rows (A : mx) : list nat := seq 0 (mrows A).
(** samples not in the test set F *)
Definition without (A : mx) (F : list nat) : list nat := filter (fun i => negb (existsb (Nat.eqb i) F)) (seq 0 (mrows A)).
Definition mean (l : list nat) (f : nat -> R) : R := lsum l f / INR (length l).

(** the documented behaviour of numpy.linalg *)
Definition square (M : mx) : Prop := mrows M = mcols M.
Definition nonsingular (M : mx) : Prop := square M /\ inj (mrows M) (mcols M) (ment M).
Definition delta_ij (i j : nat) : R := if (i =? j)%nat then 1 else 0.
Definition qr_ok (A : mx) (qr : mx * mx) : Prop :=
  let (q, r) := qr in let k := Nat.min (mrows A) (mcols A) in
  mrows q = mrows A /\ mcols q = k /\ mrows r = k /\ mcols r = mcols A /\
  (forall a b, (a < k)%nat -> (b < k)%nat -> rsum (mrows A) (fun i => ment q i a * ment q i b) = delta_ij a b) /\
  (forall i j, (i < mrows A)%nat -> (j < mcols A)%nat -> ment A i j = rsum k (fun c => ment q i c * ment r c j)).
Definition solve_ok (M : mx) (b : vec) (o : option vec) : Prop :=
  match o with
  | Some x => nonsingular M /\ forall i, (i < mrows M)%nat -> mv (mcols M) (ment M) x i = b i
  | None => ~ nonsingular M
  end.
Definition lstsq_ok (M : mx) (b x : vec) : Prop :=
  forall x', rsum (mrows M) (fun i => (mv (mcols M) (ment M) x i - b i) ^ 2) <= rsum (mrows M) (fun i => (mv (mcols M) (ment M) x' i - b i) ^ 2).
Definition inv_ok (M : mx) (o : option mx) : Prop :=
  match o with
  | Some C => nonsingular M /\ mrows C = mcols M /\ mcols C = mrows M /\
              forall i j, (i < mrows M)%nat -> (j < mrows M)%nat -> rsum (mcols M) (fun k => ment M i k * ment C k j) = delta_ij i j
  | None => ~ nonsingular M
  end.
(** the first Penrose condition is all that is needed of pinv *)
Definition pinv_ok (M X : mx) : Prop :=
  mrows X = mcols M /\ mcols X = mrows M /\
  forall i j, (i < mrows M)%nat -> (j < mcols M)%nat ->
    rsum (mcols M) (fun a => rsum (mrows M) (fun b => ment M i a * ment X a b * ment M b j)) = ment M i j.
Definition lapack_ok (L : lapack) : Prop :=
  (forall A, qr_ok A (l_qr L A)) /\ (forall M b, solve_ok M b (l_solve L M b)) /\ (forall M b, lstsq_ok M b (l_lstsq L M b)) /\
  (forall M, inv_ok M (l_inv L M)) /\ (forall M, pinv_ok M (l_pinv L M)).

(** an inverse of the matrix A^T A *)
Definition gram_inverse (A : mx) (C : nat -> nat -> R) : Prop :=
  forall i j, (i < mcols A)%nat -> (j < mcols A)%nat ->
    rsum (mcols A) (fun k => rsum (mrows A) (fun l => ment A l i * ment A l k) * C k j) = delta_ij i j.
(** the test sets are pairwise disjoint, non-empty and cover the samples *)
Definition folds_ok (N : nat) (folds : list (list nat)) : Prop :=
  NoDup (concat folds) /\ (forall i, In i (concat folds) <-> (i < N)%nat) /\ Forall (fun F => F <> []) folds.

(** relative leave-one-out error: [fit i] is the model trained without sample i *)
Definition loo_error (A : mx) (y : vec) (fit : nat -> vec) : R :=
  mean (all_rows A) (fun i => (y i - prediction A (fit i) i) ^ 2) / mean (all_rows A) (fun i => y i ^ 2).
Definition loo_fits (A : mx) (y : vec) (fit : nat -> vec) : Prop :=
  forall i, (i < mrows A)%nat -> least_squares A y (without A [i]) (fit i).
(** k-fold error: mean over the folds of the mean squared error of the model trained without the fold *)
Definition fold_error (A : mx) (y : vec) (folds : list (list nat)) (fit : list nat -> vec) : R :=
  lsum folds (fun F => mean F (fun i => (y i - prediction A (fit F) i) ^ 2)) / INR (length folds) / mean (all_rows A) (fun i => y i ^ 2).
(** the correction factor N/(N-P) (1 + trace(C G)) with C the inverse of A^T A and G the Gram matrix (identity by default) *)
Definition correction (A : mx) (C : nat -> nat -> R) (G : option mx) : R :=
  INR (mrows A) / (INR (mrows A) - INR (mcols A)) *
  (1 + match G with None => rsum (mcols A) (fun i => C i i) | Some G => rsum (mcols A) (fun i => rsum (mcols A) (fun k => C i k * ment G k i)) end).
(** every sample is determined by the others *)
Definition loo_determined (A : mx) : Prop := forall i, (i < mrows A)%nat -> determined A (without A [i]).
(** the columns of A listed in [ind] *)
Definition columns (A : mx) (ind : list nat) : mx := MX (mrows A) (length ind) (fun i j => ment A i (nth j ind 0%nat)).
(** positions where a pattern is true *)
Definition positions (p : list bool) : list nat := filter (fun j => nth j p false) (seq 0 (length p)).
(** candidate patterns: those of the path that are not empty and have at most as many coefficients as there are samples *)
Definition candidate (A : mx) (path : list (list bool)) (p : list bool) : Prop :=
  In p path /\ positions p <> [] /\ (length (positions p) <= mrows A)%nat.
