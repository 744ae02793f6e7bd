(** Model of tensap/approximation/learning/linear_model_learning_square_loss.py.
    Real arithmetic instead of floating point.  The LAPACK-backed numpy.linalg functions are the fields of [lapack]; what is
    assumed of them is the specification [lapack_ok] of Spec/LearningSpec.v.  An exception that the code catches is [None]. *)
From Coq Require Import List Arith Lia Reals Bool.
From Verif.Base Require Import ListAux CRing Index RealAux LinAlg.
From Verif.Model Require Import Measures.
Import ListNotations.
Local Open Scope R_scope.

(** a two-dimensional array *)
Record mx := MX { mrows : nat; mcols : nat; ment : nat -> nat -> R }.
Definition vec := nat -> R.
(** np.matmul(A, x), np.matmul(A, B), np.transpose(A), np.trace(A) *)
Definition matvec (A : mx) (x : vec) : vec := fun i => rsum (mcols A) (fun j => ment A i j * x j).
Definition matmul (A B : mx) : mx := MX (mrows A) (mcols B) (fun i k => rsum (mcols A) (fun j => ment A i j * ment B j k)).
Definition mtr (A : mx) : mx := MX (mcols A) (mrows A) (fun i j => ment A j i).
Definition mtrace (A : mx) : R := rsum (mrows A) (fun i => ment A i i).
(** np.mean and np.var of a vector of length n *)
Definition np_mean (n : nat) (f : vec) : R := rsum n f / INR n.
Definition np_var (n : nat) (f : vec) : R := np_mean n (fun i => (f i - np_mean n f) ^ 2).

(** numpy.linalg.qr / solve / lstsq / inv / pinv / cond *)
Record lapack := Lapack {
  l_qr : mx -> mx * mx; l_solve : mx -> vec -> option vec; l_lstsq : mx -> vec -> vec;
  l_inv : mx -> option mx; l_pinv : mx -> mx; l_cond : mx -> R }.

Inductive solver := Solve | QR.                         (* self.linear_solver *)
Inductive cv_type := LeaveOut | KFold.                  (* self.error_estimation_type, other than "residuals" *)
(** error_estimation_options; [folds] is the list of test sets produced by sklearn's KFold(n_splits, shuffle=True) *)
Record cv_options := CV { cv_kind : cv_type; cv_nfolds : option nat; cv_correction : bool; cv_gram : option mx; cv_folds : list (list nat) }.
(** value of the pair (err, delta): numpy's inf in the early return, a number otherwise *)
Inductive cv_result := CvInf | CvFin (err : R) (delta : vec).
(** the factors passed in *args: q_A, r_A for "qr", C for "solve" *)
Inductive factors_of := FQR (q r : mx) | FInv (c : mx).

Section Learning.
Variable L : lapack.

Definition try_solve (M : mx) (b : vec) : vec := match l_solve L M b with Some x => x | None => l_lstsq L M b end.
Definition try_inv (M : mx) : mx := match l_inv L M with Some C => C | None => l_pinv L M end.

(** linear_model_learning_square_loss.py:180-191 (one output) *)
Definition ols (s : solver) (A : mx) (y : vec) : vec :=
  match s with
  | Solve => try_solve (matmul (mtr A) A) (matvec (mtr A) y)
  | QR => let (q, r) := l_qr L A in try_solve r (matvec (mtr q) y)
  end.

(** linear_model_learning_square_loss.py:194 (also 281, 395) *)
Definition second_moment (N : nat) (y : vec) : R := np_var N y + np_mean N y ^ 2.

(** linear_model_learning_square_loss.py:195-197: error_estimation_type "residuals" *)
Definition residual_error (A : mx) (y sol : vec) : R * vec :=
  let delta := fun i => y i - matvec A sol i in
  (np_mean (mrows A) (fun i => delta i ^ 2) / second_moment (mrows A) y, delta).

(** 530-534: "k_fold" with as many folds as samples is "leave_out" (the attribute is overwritten; only the effect on this call is modelled) *)
Definition cv_kind_used (o : cv_options) (N : nat) : cv_type :=
  match cv_kind o with
  | LeaveOut => LeaveOut
  | KFold => if (match cv_nfolds o with Some k => k | None => Nat.min 10 N end =? N)%nat then LeaveOut else KFold
  end.
Definition cv_nfolds_used (o : cv_options) (N : nat) : nat := Nat.min N (match cv_nfolds o with Some k => k | None => Nat.min 10 N end).

(** 567-570: diagonal of the hat matrix *)
Definition leverage (A : mx) (f : factors_of) : vec :=
  match f with
  | FInv C => fun i => rsum (mcols A) (fun k => ment (mtr A) k i * ment (matmul C (mtr A)) k i)
  | FQR q _ => fun i => rsum (mcols q) (fun k => ment q i k ^ 2)
  end.
(** 596-599: hat matrix *)
Definition hat (A : mx) (f : factors_of) : mx :=
  match f with FInv C => matmul A (matmul C (mtr A)) | FQR q _ => matmul q (mtr q) end.

(** 601-618: solution of the small system for one fold; [None] when numpy.linalg.solve raises (not caught) *)
Definition fold_delta (A H : mx) (y sol : vec) (test : list nat) : option vec :=
  l_solve L (MX (length test) (length test) (fun a b => (if (a =? b)%nat then 1 else 0) - ment H (nth a test 0%nat) (nth b test 0%nat)))
            (fun a => y (nth a test 0%nat) - matvec A sol (nth a test 0%nat)).
(** delta[test] = delta_loc *)
Definition scatter (test : list nat) (loc : vec) (delta : vec) : vec :=
  fold_left (fun d a => fun i => if (i =? nth a test 0%nat)%nat then loc a else d i) (seq 0 (length test)) delta.
Fixpoint kfold_loop (A H : mx) (y sol : vec) (folds : list (list nat)) (errors : list R) (delta : vec) : option (list R * vec) :=
  match folds with
  | [] => Some (errors, delta)
  | test :: folds => match fold_delta A H y sol test with
                     | None => None
                     | Some loc => kfold_loop A H y sol folds (errors ++ [np_mean (length test) (fun a => loc a ^ 2)]) (scatter test loc delta)
                     end
  end.

(** 629-671: normalisation, correction factor and square root *)
Definition cv_finish (o : cv_options) (A : mx) (y : vec) (f : factors_of) (err : R) : R :=
  let N := mrows A in let P := mcols A in
  let err := err / second_moment N y in
  let correct (C : mx) :=
    if (N =? P)%nat then err else
    let corr := INR N / (INR N - INR P) * (1 + mtrace (match cv_gram o with Some G => matmul C G | None => C end)) in
    if Rlt_dec 0 corr then err * corr else err in
  sqrt (match f with
        | FQR _ r => if Rlt_dec (1 / l_cond L r) feps then err else
                     if cv_correction o then (let ir := try_inv r in correct (matmul ir (mtr ir))) else err
        | FInv C => if cv_correction o then correct C else err
        end).

(** linear_model_learning_square_loss.py:467-671 with one output *)
Definition compute_cv_error (o : cv_options) (A : mx) (y sol : vec) (f : factors_of) : option cv_result :=
  let N := mrows A in let P := mcols A in
  match cv_kind_used o N with
  | LeaveOut => if (N <? P + 1)%nat then Some CvInf else
      let T := leverage A f in
      let delta := fun i => (y i - matvec A sol i) / (1 - T i) in
      Some (CvFin (cv_finish o A y f (np_mean N (fun i => delta i ^ 2))) delta)
  | KFold => if Rlt_dec (INR N * (1 - 1 / INR (cv_nfolds_used o N))) (INR P) then Some CvInf else
      match kfold_loop A (hat A f) y sol (cv_folds o) [] (fun _ => 0) with
      | None => None
      | Some (errors, delta) => Some (CvFin (cv_finish o A y f (lsum errors (fun e => e) / INR (length errors))) delta)
      end
  end.

(** linear_model_learning_square_loss.py:163-215, error_estimation on, error_estimation_type not "residuals" *)
Definition solve_ols (s : solver) (o : cv_options) (A : mx) (y : vec) : vec * option cv_result :=
  let sol := ols s A y in
  (sol, compute_cv_error o A y sol
          (match s with Solve => FInv (try_inv (matmul (mtr A) A)) | QR => let (q, r) := l_qr L A in FQR q r end)).

(** ---- linear_model_learning_square_loss.py:337-465: selection along a path of sparsity patterns ----
    A pattern is a column of [solpath != 0], given by its list of Booleans. *)
Definition has_true (p : list bool) : bool := existsb (fun b => b) p.
Fixpoint beqb (p q : list bool) : bool :=
  match p, q with [], [] => true | a :: p, b :: q => Bool.eqb a b && beqb p q | _, _ => false end.
(** np.unique(pattern, return_index=True, axis=1), indices sorted: first occurrences in order *)
Fixpoint first_occurrences (seen l : list (list bool)) : list (list bool) :=
  match l with [] => [] | p :: l => if existsb (beqb p) seen then first_occurrences seen l else p :: first_occurrences (p :: seen) l end.
Definition count_true (p : list bool) : nat := length (filter (fun b => b) p).
(** 380-401 *)
Definition admissible_patterns (N : nat) (path : list (list bool)) : list (list bool) :=
  filter (fun p => (count_true p <=? N)%nat) (first_occurrences [] (filter has_true path)).
(** positions of the True entries; A[:, ind] *)
Definition support (p : list bool) : list nat := filter (fun j => nth j p false) (seq 0 (length p)).
Definition take_columns (A : mx) (ind : list nat) : mx := MX (mrows A) (length ind) (fun i j => ment A i (nth j ind 0%nat)).
(** sol[ind, i] = sol_red: zero elsewhere *)
Definition spread (ind : list nat) (x : vec) : vec := scatter ind x (fun _ => 0).
(** gram_matrix[ind, ind]: numpy's pairwise indexing with Boolean masks selects the diagonal entries (a vector, on which
    np.matmul(C, .) is then a matrix-vector product and np.trace raises), so the gram_matrix option is not modelled here *)
Definition reduced_fit (s : solver) (o : cv_options) (A : mx) (y : vec) (ind : list nat) : vec * option cv_result :=
  let Ar := take_columns A ind in
  let s := if (mrows A <? length ind)%nat then Solve else s in
  match s with
  | QR => let (q, r) := l_qr L Ar in
          let x := try_solve r (matvec (mtr q) y) in (x, compute_cv_error o Ar y x (FQR q r))
  | Solve => let C := try_inv (matmul (mtr Ar) Ar) in
             let x := matvec C (matvec (mtr Ar) y) in (x, compute_cv_error o Ar y x (FInv C))
  end.
(** numpy comparisons with inf *)
Definition cv_lt (a b : cv_result) : bool :=
  match a, b with CvFin x _, CvFin y _ => if Rlt_dec x y then true else false | CvFin _ _, CvInf => true | CvInf, _ => false end.
(** err[i] > 2 * err[i-1] *)
Definition cv_gt2 (a b : cv_result) : bool :=
  match a, b with CvFin x _, CvFin y _ => if Rlt_dec (2 * y) x then true else false | CvInf, CvFin _ _ => true | _, CvInf => false end.
(** np.argmin: first position of the minimum *)
Fixpoint argmin_from (best k : nat) (e : cv_result) (l : list cv_result) : nat :=
  match l with [] => best | x :: l => if cv_lt x e then argmin_from k (S k) x l else argmin_from best (S k) e l end.
Definition np_argmin (l : list cv_result) : nat := match l with [] => 0%nat | x :: l => argmin_from 0 1 x l end.
Definition upd (l : list cv_result) (i : nat) (x : cv_result) : list cv_result := firstn i l ++ x :: skipn (S i) l.
(** 406-450: the loop; [stop] is model_selection_options["stop_if_error_increase"].  The entries set to inf at 449 are
    recomputed by the next iterations: the loop has no break. *)
Fixpoint select_loop (s : solver) (o : cv_options) (stop : bool) (A : mx) (y : vec) (pats : list (list bool)) (i : nat)
         (errs : list cv_result) (sols : list vec) : option (list cv_result * list vec) :=
  match pats with
  | [] => Some (errs, sols)
  | p :: pats =>
      let ind := support p in
      let (x, e) := reduced_fit s o A y ind in
      match e with
      | None => None
      | Some e =>
          let errs := upd errs i e in
          let errs := if (1 <? i)%nat && stop && cv_gt2 (nth i errs CvInf) (nth (i - 1) errs CvInf)
                      then firstn (S i) errs ++ map (fun _ => CvInf) (skipn (S i) errs) else errs in
          select_loop s o stop A y pats (S i) errs (sols ++ [spread ind x])
      end
  end.
(** 337-465; returns the solution, its error and the index in the path (None for the least-squares fallback) *)
Definition select_optimal_path (s : solver) (o : cv_options) (stop : bool) (A : mx) (y : vec) (path : list (list bool))
  : option (vec * option cv_result * option (list bool)) :=
  let pats := admissible_patterns (mrows A) path in
  match pats with
  | [] => let (x, e) := solve_ols s o A y in Some (x, e, None)
  | _ => match select_loop s o stop A y pats 0 (map (fun _ => CvFin 0 (fun _ => 0)) pats) [] with
         | None => None
         | Some (errs, sols) => let k := np_argmin errs in Some (nth k sols (fun _ => 0), Some (nth k errs CvInf), Some (nth k pats []))
         end
  end.
(** 315-335: default path np.triu(ones) *)
Definition triu_path (P : nat) : list (list bool) := map (fun j => map (fun i => (i <=? j)%nat) (seq 0 P)) (seq 0 P).
Definition solve_basis_adaptation (s : solver) (o : cv_options) (stop : bool) (A : mx) (y : vec) (path : option (list (list bool))) :=
  select_optimal_path s o stop A y (match path with Some p => p | None => triu_path (mcols A) end).
End Learning.
