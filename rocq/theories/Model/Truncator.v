(** Model of tensap/tensor_algebra/tools/truncator.py (class Truncator), over the reals.
    The routine [np.linalg.svd] is a parameter (its contract is in Spec/TruncatorSpec.v). *)
From Coq Require Import List Arith Lia Bool Reals.
From Verif.Base Require Import ListAux CRing Index RealAux.
From Verif.Model Require Import Sorting Numpy FullTensor Diagonal Canonical DimensionTree TreeBased.
Import ListNotations.
Local Open Scope R_scope.

(** truncator.py:70-74: the attributes.  [max_rank]: a number is a list of one element; None is np.inf *)
Inductive thr_type := Hard | Soft | OtherThr.
Record truncator := Trunc {
  tolerance : R; max_rank : list (option nat); thresholding_type : thr_type; thresholding_parameter : option R }.
Definition set_max_rank (t : truncator) (m : option nat) : truncator :=
  Trunc (tolerance t) [m] (thresholding_type t) (thresholding_parameter t).

(** the argument [power]: a number or one of "inf", np.inf *)
Inductive power := Pw (p : R) | Pinf.
(** [np.cumsum] *)
Definition np_cumsum (l : list R) : list R := map (fun k => lsum (firstn (S k) l) (fun x => x)) (seq 0 (length l)).
(** truncator.py:163-170 [error]; None stands for nan (0/0, when all the singular values are 0) *)
Definition sv_error (pw : power) (s : list R) : list (option R) :=
  match pw with
  | Pinf => let m := fold_right Rmax 0 s in map (fun x => if Req_EM_T m 0 then None else Some (x / m)) s
  | Pw p =>
    let q := map (fun x => rpow x p) s in
    let tot := lsum q (fun x => x) in
    map (fun x => if Req_EM_T tot 0 then None else Some (rpow (x / tot) (1 / p))) (rev (np_cumsum (rev q)))
  end.
(** [error < tolerance] (a comparison with nan is False) *)
Definition err_lt (tol : R) (e : option R) : bool :=
  match e with None => false | Some x => if Rlt_dec x tol then true else false end.
(** index of the first / last true element *)
Fixpoint first_true (l : list bool) : option nat :=
  match l with [] => None | b :: l' => if b then Some 0%nat else option_map S (first_true l') end.
Definition last_true (l : list bool) : option nat :=
  match first_true (rev l) with None => None | Some k => Some (length l - 1 - k)%nat end.
(** truncator.py:171-176 *)
Definition tol_rank (pw : power) (tol : R) (mins : nat) (s : list R) : nat :=
  match first_true (map (err_lt tol) (tl (sv_error pw s) ++ [Some 0])) with
  | Some k => (k + 1)%nat
  | None => (mins + 1)%nat
  end.
Definition min_opt (k : nat) (m : option nat) : nat := match m with None => k | Some m => Nat.min k m end.
(** truncator.py:178-192: the number of kept singular values, and the singular values (modified by the
    soft thresholding).  None: an exception *)
Definition trunc_rank (t : truncator) (pw : power) (tol : R) (mins : nat) (s : list R) : option (nat * list R) :=
  match max_rank t with
  | [m] =>
    let ind := min_opt (tol_rank pw tol mins s) m in
    match thresholding_parameter t with
    | None => Some (ind, s)
    | Some c =>
      if Req_EM_T c 0 then Some (ind, s)
      else match thresholding_type t with
      | Soft =>
        let s := map (fun x => x - c) s in
        match last_true (map (fun x => if Rle_dec 0 x then true else false) s) with
        | Some k => Some (Nat.min ind (k + 1)%nat, s)
        | None => None
        end
      | Hard =>
        match last_true (map (fun x => if Rle_dec c x then true else false) s) with
        | Some k => Some (Nat.min ind (k + 1)%nat, s)
        | None => None
        end
      | OtherThr => Some (ind, s)
      end
    end
  | _ => None
  end.

Section Truncator.
  (** [np.linalg.svd(matrix, full_matrices=False)] *)
  Variable svd : nd R -> nd R * list R * nd R.

  (** [left[:, :ind]] and [np.transpose(right[:ind, :])] *)
  Definition take_cols (U : nd R) (k : nat) : nd R := ND [nth 0 (shape U) 0%nat; Nat.min k (nth 1 (shape U) 0%nat)] (get U).
  Definition take_rows_tr (V : nd R) (k : nat) : nd R :=
    ND [nth 1 (shape V) 0%nat; Nat.min k (nth 0 (shape V) 0%nat)] (fun is => get V [nth 1 is 0%nat; nth 0 is 0%nat]).
  (** truncator.py:136-197 trunc_svd.  [tol] = None: the tolerance of the truncator *)
  Definition trunc_svd (t : truncator) (M : nd R) (tol : option R) (pw : power) : option (cp R) :=
    let tol := match tol with None => tolerance t | Some x => x end in
    let '(U, s, V) := svd M in
    let mins := Nat.min (nth 0 (shape M) 0%nat) (nth 1 (shape M) 0%nat) in
    let* ks := trunc_rank t pw tol mins s in
    Some (CP (firstn (fst ks) (snd ks)) [take_cols U (fst ks); take_rows_tr V (fst ks)]).

  (** truncator.py:238-283 hosvd of a dense tensor of order <> 2.  The second component is the truncator
      after the call: the attribute max_rank is overwritten.  (Order 2: svd, i.e. [trunc_svd].) *)
  Definition hosvd_step (A : nd R) (tol : R) (mr : list (option nat)) (st : truncator * list (nd R)) (d : nat) : option (truncator * list (nd R)) :=
    match nth_error mr d with
    | None => None
    | Some m =>
      let t := set_max_rank (fst st) m in
      let* M := ft_matricize A [d] None in
      let* c := trunc_svd t M (Some tol) (Pw 2) in
      Some (t, snd st ++ [nth 0 (cp_space c) (scalar 0)])
    end.
  Definition hosvd (t : truncator) (A : nd R) : option (tbt R * truncator) :=
    let order := ndim A in
    let mr := match max_rank t with [m] => repeat m order | l => l end in
    let local_tol := tolerance t / sqrt (INR order) in
    let* st := ofold (hosvd_step A local_tol mr) (seq 0 order) (t, []) in
    let* core := ofold (fun C d => let* Vt := np_transpose (nth d (snd st) (scalar 0)) [1%nat; 0%nat] in ft_tensor_matrix_product C [Vt] (Some [d])) (seq 0 order) A in
    let* X := tb_make (core :: snd st) (dt_trivial order) in
    Some (X, fst st).
End Truncator.
