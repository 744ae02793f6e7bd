(** Model of tensap/approximation/learning/loss_functions.py.  Real arithmetic.  The prediction is the array obtained from
    fun.eval(sample[0]), fun(sample[0]) or fun itself; sample[1] is the array of outputs. *)
From Coq Require Import List Arith Lia Reals Bool.
From Verif.Base Require Import ListAux CRing Index RealAux.
From Verif.Model Require Import Measures Learning.
Import ListNotations.
Local Open Scope R_scope.

(** arrays with at most two axes *)
Inductive nda := A0 (x : R) | A1 (n : nat) (f : vec) | A2 (M : mx).
(** np.atleast_2d *)
Definition atleast_2d (a : nda) : mx := match a with A0 x => MX 1 1 (fun _ _ => x) | A1 n f => MX 1 n (fun _ j => f j) | A2 M => M end.
(** broadcasting of one axis, and of A - B *)
Definition bdim (a b : nat) : option nat := if (a =? b)%nat then Some a else if (a =? 1)%nat then Some b else if (b =? 1)%nat then Some a else None.
Definition bix (a i : nat) : nat := if (a =? 1)%nat then 0%nat else i.
Definition bsub (A B : mx) : option mx :=
  match bdim (mrows A) (mrows B), bdim (mcols A) (mcols B) with
  | Some r, Some c => Some (MX r c (fun i j => ment A (bix (mrows A) i) (bix (mcols A) j) - ment B (bix (mrows B) i) (bix (mcols B) j)))
  | _, _ => None
  end.
(** np.sum(M ** 2, 1): length and entries *)
Definition sum_sq_rows (M : mx) : nat * vec := (mrows M, fun i => rsum (mcols M) (fun j => ment M i j ^ 2)).
Definition np_mean_v (v : nat * vec) : R := np_mean (fst v) (snd v).

(** SquareLossFunction.eval, loss_functions.py:147-165: loss and loss_ref *)
Definition square_eval (y_pred y_true : nda) : option ((nat * vec) * (nat * vec)) :=
  let yp := atleast_2d y_pred in let yt := atleast_2d y_true in
  match bsub yp yt with Some D => Some (sum_sq_rows D, sum_sq_rows yt) | None => None end.
(** LossFunction.risk_estimation, 32-63 *)
Definition square_risk (y_pred y_true : nda) : option (R * R) :=
  match square_eval y_pred y_true with Some (l, lr) => Some (np_mean_v l, np_mean_v lr) | None => None end.
(** 167-169 *)
Definition square_relative_error (y_pred y_true : nda) : option R :=
  match square_risk y_pred y_true with Some (r, rr) => Some (sqrt (r / rr)) | None => None end.
(** 171-180 *)
Inductive error_type := Absolute | Relative.
Definition square_test_error (t : error_type) (y_pred y_true : nda) : option R :=
  match t with
  | Absolute => match square_risk y_pred y_true with Some (r, _) => Some (sqrt r) | None => None end
  | Relative => square_relative_error y_pred y_true
  end.
(** DensityL2LossFunction.eval and risk, 204-246, for one-dimensional predictions; [norm] is fun.norm() or args[0] *)
Definition density_risk (norm : R) (n : nat) (y_pred : vec) : R := np_mean n (fun i => norm ^ 2 - 2 * y_pred i).
(** CustomLossFunction.eval and risk (np.mean or tensorflow's reduce_mean), 271-306, for one-dimensional outputs and a loss function acting
    elementwise *)
Definition custom_risk (loss : R -> R -> R) (n : nat) (y_true y_pred : vec) : R * R :=
  (np_mean n (fun i => loss (y_true i) (y_pred i)), np_mean n (fun i => loss (y_true i) (0 * y_pred i))).
