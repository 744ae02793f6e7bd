(** Model of tensap/approximation/learning/linear_model_learning_density_l2.py (orthonormal basis, real arithmetic). *)
From Coq Require Import List Arith Lia Reals Bool.
From Verif.Base Require Import ListAux CRing Index RealAux LinAlg.
From Verif.Model Require Import Learning.
Import ListNotations.
Local Open Scope R_scope.

(** 104-114: sol = mean of the basis evaluations, minus b when training_data[1] is given *)
Definition dl2_sol (A : mx) (b : option vec) : vec :=
  fun j => rsum (mrows A) (fun i => ment A i j) / INR (mrows A) - match b with Some b => b j | None => 0 end.

(** the leave-one-out expression; it occurs, restricted to the columns [ind], at 120-131 (all columns), 176-180 and 208-221
    (with A[:, ind], b[ind]) and 336-350.  [np.linalg.norm(v) ** 2] is the sum of the squares, [np.sum(np.matmul(A, v))] the sum
    over the samples of the sums over the columns. *)
Definition dl2_error (A : mx) (b : option vec) (sol : vec) (ind : list nat) : R :=
  let N := INR (mrows A) in
  let norm2 (v : vec) := lsum ind (fun j => v j ^ 2) in
  let sum_matmul (v : vec) := rsum (mrows A) (fun i => lsum ind (fun j => ment A i j * v j)) in
  let square_sum := lsum ind (fun j => rsum (mrows A) (fun i => ment A i j ^ 2)) in
  match b with
  | None => (- (N ^ 2)) / (1 - N) ^ 2 * norm2 sol + (2 * N - 1) / (N * (N - 1) ^ 2) * square_sum
  | Some b =>
      (N ^ 2 - 2 * N) / (N - 1) ^ 2 * norm2 sol + 1 / (N - 1) ^ 2 * norm2 b - 2 / (N - 1) ^ 2 * sum_matmul b
      + (2 * N - 1) / (N * (N - 1) ^ 2) * square_sum - 2 / (N - 1) * sum_matmul sol + 2 * lsum ind (fun j => sol j * b j)
  end.
(** 85-133: error_estimation on, error_estimation_type "leave_out" *)
Definition dl2_solve_standard (A : mx) (b : option vec) : vec * R :=
  let sol := dl2_sol A b in (sol, dl2_error A b sol (seq 0 (mcols A))).

(** np.argmin of a list of numbers: first position of the minimum *)
Fixpoint rargmin_from (best k : nat) (e : R) (l : list R) : nat :=
  match l with [] => best | x :: l => if Rlt_dec x e then rargmin_from k (S k) x l else rargmin_from best (S k) e l end.
Definition rargmin (l : list R) : nat := match l with [] => 0%nat | x :: l => rargmin_from 0 1 x l end.

(** sol[ind, i] = sol_red, zero elsewhere *)
Definition dl2_restrict (sol : vec) (ind : list nat) : vec := fun j => if existsb (Nat.eqb j) ind then sol j else 0.
(** 197-241: candidates given by their column lists; the one with the smallest error *)
Definition dl2_best (A : mx) (b : option vec) (sol : vec) (inds : list (list nat)) : vec * R :=
  let errs := map (dl2_error A b sol) inds in
  let k := rargmin errs in (dl2_restrict sol (nth k inds []), nth k errs 0).
(** 135-241; [order] is np.argsort(-np.abs(sol_standard)); [incl] is regularization_options["included_coefficients"]
    (with b given and included coefficients, 191 multiplies arrays of different lengths: not modelled, [None]) *)
Definition dl2_solve_regularized (A : mx) (b : option vec) (order : list nat) (incl : option (list nat)) : option (vec * option R) :=
  let sol := dl2_sol A b in
  match incl, b with
  | Some _, Some _ => None
  | Some incl, None =>
      let order := filter (fun j => negb (existsb (Nat.eqb j) incl)) order in
      if (length order =? 0)%nat then Some (sol, None) else
      let (x, e) := dl2_best A b sol (incl :: map (fun i => incl ++ firstn (S i) order) (seq 0 (length order))) in Some (x, Some e)
  | None, _ =>
      if (length order =? 0)%nat then Some (sol, None) else
      let (x, e) := dl2_best A b sol (map (fun i => firstn (S i) order) (seq 0 (length order))) in Some (x, Some e)
  end.
(** 265-371: the loop has no break, the entries set to inf at 359 are recomputed, see select_loop in Model/Learning.v
    (here the recomputation is taken into account directly) *)
Definition dl2_select (A : mx) (b : option vec) (path : list (list bool)) : vec * R :=
  match admissible_patterns (mrows A) path with
  | [] => dl2_solve_standard A b
  | pats => dl2_best A b (dl2_sol A b) (map support pats)
  end.
