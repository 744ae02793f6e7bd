(** Vocabulary for the properties of the Truncator (no code is modelled here). *)
From Coq Require Import List Arith Reals.
From Verif.Base Require Import ListAux CRing Index RealAux.
From Verif.Model Require Import Numpy Truncator.
Import ListNotations.
Local Open Scope R_scope.

(** the p-norm of a list of numbers >= 0 *)
Definition pnorm (p : R) (l : list R) : R := rpow (lsum l (fun x => rpow x p)) (1 / p).
Definition maxnorm (l : list R) : R := fold_right Rmax 0 l.
(** squared Frobenius norm of an array *)
Definition frob2 (A : nd R) : R := bsum (shape A) (fun is => get A is * get A is).

(** what [np.linalg.svd(M, full_matrices=False)] guarantees on an m x n matrix: M = U diag(s) V with
    k = min(m, n), U^T U = I, V V^T = I, s >= 0 and non-increasing *)
Definition svd_contract (svd : nd R -> nd R * list R * nd R) : Prop :=
  forall M m n, shape M = [m; n] ->
    let U := fst (fst (svd M)) in let s := snd (fst (svd M)) in let V := snd (svd M) in let k := Nat.min m n in
    shape U = [m; k] /\ length s = k /\ shape V = [k; n] /\
    (forall c, (c < k)%nat -> 0 <= nth c s 0) /\
    (forall c d, (c <= d)%nat -> (d < k)%nat -> nth d s 0 <= nth c s 0) /\
    (forall a b, (a < k)%nat -> (b < k)%nat -> rsum m (fun i => get U [i; a] * get U [i; b]) = if a =? b then 1 else 0) /\
    (forall a b, (a < k)%nat -> (b < k)%nat -> rsum n (fun j => get V [a; j] * get V [b; j]) = if a =? b then 1 else 0) /\
    (forall i j, (i < m)%nat -> (j < n)%nat -> get M [i; j] = rsum k (fun c => get U [i; c] * nth c s 0 * get V [c; j])).
(** squared distance between the array [A] and the tensor with entries [f] *)
Definition err2 (A : nd R) (f : list nat -> R) : R := bsum (shape A) (fun is => (get A is - f is) * (get A is - f is)).
(** the function f of the multi-indices of the box s has rank at most k with respect to the axes dims: it is the sum of k
    products of a function of the indices of these axes by a function of the other indices *)
Definition rank_at_most (s dims : list nat) (k : nat) (f : list nat -> R) : Prop :=
  exists a b : nat -> list nat -> R, forall is, valid s is ->
    f is = rsum k (fun c => a c (sel 0%nat is dims) *
                            b c (sel 0%nat is (filter (fun d => negb (existsb (Nat.eqb d) dims)) (seq 0 (length s))))).
(** sum of the squares *)
Definition sumsq (l : list R) : R := lsum l (fun x => x * x).
(** k is the smallest number with P *)
Definition smallest (P : nat -> Prop) (k : nat) : Prop := P k /\ forall j, (j < k)%nat -> ~ P j.
(** the number k of singular values selected by the tolerance: the smallest k >= 1 such that the norm of the
    discarded values is < tol * the norm of all the values; all the values if tol <= 0 or if they are all 0 *)
Definition kept_by_tolerance (s : list R) (tol : R) (pw : power) (k : nat) : Prop :=
  (tol <= 0 \/ (forall x, In x s -> x = 0) -> (length s <= k)%nat) /\
  (0 < tol -> ~ (forall x, In x s -> x = 0) ->
     match pw with
     | Pw p => smallest (fun j => (1 <= j)%nat /\ pnorm p (skipn j s) < tol * pnorm p s) k
     | Pinf => smallest (fun j => (1 <= j)%nat /\ nth j s 0 < tol * maxnorm s) k
     end).
(** the number of elements >= c *)
Definition count_ge (c : R) (l : list R) : nat := length (filter (fun x => if Rle_dec c x then true else false) l).
(** the truncator after a sequence of calls of hosvd *)
Definition after_hosvds (svd : nd R -> nd R * list R * nd R) (l : list (nd R)) (t : truncator) : option truncator :=
  ofold (fun t A => option_map snd (hosvd svd t A)) l t.
