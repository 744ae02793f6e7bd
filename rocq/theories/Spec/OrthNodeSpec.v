(** Contracts of np.linalg.matrix_rank, pinv, inv used by orth_at_node, and what the result is (no code of tensap is modelled here). *)
From Coq Require Import List Arith Bool Reals.
From Verif.Base Require Import ListAux CRing Index RealAux.
From Verif.Model Require Import Numpy FullTensor DimensionTree TreeBased.
From Verif.Spec Require Import TensorSpec TreeSpec TreeTensorSpec TruncatorSpec FunctionalSpec.
Import ListNotations.
Local Open Scope R_scope.

(** np.linalg.matrix_rank: the smallest k such that M is the sum of k products of a column by a row *)
Definition rank_contract (mrank : nd R -> nat) : Prop := forall M m n, shape M = [m; n] ->
  forall k, (mrank M <= k)%nat <-> rank_at_most [m; n] [0%nat] k (get M).
(** np.linalg.pinv: the Moore-Penrose equations  M P M = M,  P M P = P,  M P and P M symmetric *)
Definition pinv_contract (pinv : nd R -> nd R) : Prop := forall M m n, shape M = [m; n] -> shape (pinv M) = [n; m] /\
  let MP i j := rsum n (fun k => get M [i; k] * get (pinv M) [k; j]) in let PM i j := rsum m (fun k => get (pinv M) [i; k] * get M [k; j]) in
  (forall i j, (i < m)%nat -> (j < n)%nat -> rsum m (fun k => MP i k * get M [k; j]) = get M [i; j]) /\
  (forall i j, (i < n)%nat -> (j < m)%nat -> rsum n (fun k => PM i k * get (pinv M) [k; j]) = get (pinv M) [i; j]) /\
  (forall i j, (i < m)%nat -> (j < m)%nat -> MP i j = MP j i) /\
  (forall i j, (i < n)%nat -> (j < n)%nat -> PM i j = PM j i).
(** np.linalg.inv does not fail on an invertible matrix *)
Definition inv_complete (inv : nd R -> option (nd R)) : Prop := forall M n N, shape M = [n; n] ->
  (forall i j, (i < n)%nat -> (j < n)%nat -> rsum n (fun k => N i k * get M [k; j]) = if (i =? j)%nat then 1 else 0) -> exists P, inv M = Some P.

(** The tree-based tensor Y is written, seen from its node n, in an orthonormal frame: there are functions w_0, w_1, ... (one per
    value of the last index of the core of n) of the indices of the dimensions that are not those of n (and of the last index, if
    the root has a rank), orthonormal, such that every tensor Y' that differs from Y only by the cores of the sub-tree of n has the entries
      sum_c (value of the sub-tree of n in Y' at the rank index c) * w_c (the other indices). *)
Definition frame_at (Y : tbt R) (r : nat) (A : nd R) (n : nat) : Prop :=
  let co := filter (fun d => negb (existsb (Nat.eqb d) (dims (ttree Y) n))) (seq 0 (ndim A)) in
  let a := last (shape (core Y n)) 0%nat in
  exists w : nat -> list nat -> R,
    (forall c d, (c < a)%nat -> (d < a)%nat -> bsum (sel 0%nat (shape A) co) (fun y => w c y * w d y) = if (c =? d)%nat then 1 else 0) /\
    forall Y' F, tb_ok Y' r -> ttree Y' = ttree Y -> (forall m, node (ttree Y) m -> shape (core Y' m) = shape (core Y m)) ->
      (forall m, node (ttree Y) m -> ~ below (ttree Y) n m -> core Y' m = core Y m) -> tb_full Y' = Some F ->
      shape F = shape A /\
      forall is, valid (shape A) is -> get F is = rsum a (fun c => tval Y' n (firstn (tb_order Y) is) [c] * w c (sel 0%nat is co)).
