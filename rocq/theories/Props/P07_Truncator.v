(** C28-C29: the Truncator.  Scalars: real numbers; [svd] stands for np.linalg.svd (full_matrices=False), of
    which only the contract of Spec/TruncatorSpec.v is used. *)
From Coq Require Import List Arith Lia Bool Reals Lra.
From Verif.Base Require Import ListAux CRing Index RealAux.
From Verif.Model Require Import Sorting Numpy FullTensor Diagonal Canonical DimensionTree TreeBased Truncator.
From Verif.Spec Require Import TensorSpec TreeSpec TreeTensorSpec TruncatorSpec.
From Verif.Proofs Require TruncatorP5 TruncatorP6 SpectralP2.
Import ListNotations.
Local Open Scope R_scope.

(** * C28 *)
(** The result is a sum of min(k0, max_rank) rank-one terms with orthonormal factors, whose weights are the
    first singular values, where k0 is the number selected by the tolerance; the squared error is the sum of
    the squares of the discarded singular values.  (trunc_svd without tolerance uses that of the truncator.) *)
Theorem c28_trunc_svd : forall svd, svd_contract svd -> forall t M m n, shape M = [m; n] -> (0 < m)%nat -> (0 < n)%nat ->
  forall mr tol, max_rank t = [mr] -> thresholding_parameter t = None \/ thresholding_parameter t = Some 0 ->
  forall pw, (match pw with Pw p => 0 < p | Pinf => True end) ->
  let s := snd (fst (svd M)) in
  exists k0 U V, trunc_svd svd t M (Some tol) pw = Some (CP (firstn (min_opt k0 mr) s) [U; V]) /\ kept_by_tolerance s tol pw k0 /\
    cp_ok (firstn (min_opt k0 mr) s) [U; V] /\ cp_dims [U; V] = [m; n] /\ orth_cols U /\ orth_cols V /\
    err2 M (cp_val (firstn (min_opt k0 mr) s) [U; V]) = sumsq (skipn (min_opt k0 mr) s).
Proof. exact TruncatorP5.trunc_svd_kept. Qed.
Print Assumptions c28_trunc_svd.
Theorem c28_trunc_svd_default_tolerance : forall svd t M pw, trunc_svd svd t M None pw = trunc_svd svd t M (Some (tolerance t)) pw.
Proof. reflexivity. Qed.
Print Assumptions c28_trunc_svd_default_tolerance.
(** the relative error in the Frobenius norm is at most the tolerance when max_rank is infinite *)
Theorem c28_trunc_svd_error : forall svd, svd_contract svd -> forall t M m n, shape M = [m; n] -> (0 < m)%nat -> (0 < n)%nat ->
  forall mr tol, max_rank t = [mr] -> thresholding_parameter t = None \/ thresholding_parameter t = Some 0 -> 0 < tol -> mr = None ->
  exists c, trunc_svd svd t M (Some tol) (Pw 2) = Some c /\ err2 M (cp_val (cp_core c) (cp_space c)) <= tol * tol * frob2 M.
Proof. exact TruncatorP5.trunc_svd_error_bound. Qed.
Print Assumptions c28_trunc_svd_error.
(** the result is a best approximation: no matrix which is a sum of as many products u(i) v(j) is closer to M in the
    Frobenius norm *)
Theorem c28_trunc_svd_best : forall svd, svd_contract svd -> forall t M m n, shape M = [m; n] -> (0 < m)%nat -> (0 < n)%nat ->
  forall mr tol, max_rank t = [mr] -> thresholding_parameter t = None \/ thresholding_parameter t = Some 0 ->
  forall pw, (match pw with Pw p => 0 < p | Pinf => True end) ->
  exists c, trunc_svd svd t M (Some tol) pw = Some c /\
    forall g, rank_at_most [m; n] [0%nat] (length (cp_core c)) g -> err2 M (cp_val (cp_core c) (cp_space c)) <= err2 M g.
Proof. exact TruncatorP6.trunc_svd_best. Qed.
Print Assumptions c28_trunc_svd_best.
(** hard thresholding: among the values kept by the tolerance and max_rank, only those >= c are kept; an
    exception is raised when all the singular values are < c *)
Theorem c28_trunc_svd_hard : forall svd, svd_contract svd -> forall t t0 M m n, shape M = [m; n] ->
  forall tol c pw, c <> 0 -> thresholding_parameter t = Some c -> t0 = Trunc (tolerance t) (max_rank t) (thresholding_type t) None ->
  forall mr, max_rank t = [mr] -> thresholding_type t = Hard ->
  let k := count_ge c (snd (fst (svd M))) in
  trunc_svd svd t M (Some tol) pw =
    match k with
    | O => None
    | S _ => option_map (fun x => CP (firstn k (cp_core x)) (map (fun A => take_cols A k) (cp_space x))) (trunc_svd svd t0 M (Some tol) pw)
    end.
Proof. exact TruncatorP5.trunc_svd_hard. Qed.
Print Assumptions c28_trunc_svd_hard.
(** soft thresholding: moreover c is subtracted from the kept singular values *)
Theorem c28_trunc_svd_soft : forall svd, svd_contract svd -> forall t t0 M m n, shape M = [m; n] ->
  forall tol c pw, c <> 0 -> thresholding_parameter t = Some c -> t0 = Trunc (tolerance t) (max_rank t) (thresholding_type t) None ->
  forall mr, max_rank t = [mr] -> thresholding_type t = Soft ->
  let k := count_ge c (snd (fst (svd M))) in
  trunc_svd svd t M (Some tol) pw =
    match k with
    | O => None
    | S _ => option_map (fun x => CP (map (fun a => a - c) (firstn k (cp_core x))) (map (fun A => take_cols A k) (cp_space x))) (trunc_svd svd t0 M (Some tol) pw)
    end.
Proof. exact TruncatorP5.trunc_svd_soft. Qed.
Print Assumptions c28_trunc_svd_soft.
(** higher-order SVD of a tensor of order >= 3: a Tucker tensor with orthonormal factors; each rank is given
    by the singular values of the matricisation and the local tolerance tol / sqrt(d), bounded by max_rank; the
    squared error is at most the sum of the squares of all the discarded singular values *)
Theorem c28_hosvd : forall svd, svd_contract svd -> forall t (A : nd R) mr,
  mr = match max_rank t with [m] => repeat m (ndim A) | l => l end -> length mr = ndim A ->
  thresholding_parameter t = None \/ thresholding_parameter t = Some 0 ->
  Forall (fun n => (0 < n)%nat) (shape A) -> Forall (fun m => m <> Some 0%nat) mr -> (2 <= ndim A)%nat ->
  exists X t' F (k0 : nat -> nat) (M : nat -> nd R),
    hosvd svd t A = Some (X, t') /\ ttree X = dt_trivial (ndim A) /\ tb_ok X 1 /\ tb_full X = Some F /\ shape F = shape A /\
    (forall d, (d < ndim A)%nat -> ft_matricize A [d] None = Some (M d) /\
       kept_by_tolerance (snd (fst (svd (M d)))) (tolerance t / sqrt (INR (ndim A))) (Pw 2) (k0 d) /\
       orth_cols (core X (d + 2)) /\ shape (core X (d + 2)) = [nth d (shape A) 0%nat; length (firstn (min_opt (k0 d) (nth d mr None)) (snd (fst (svd (M d)))))]) /\
    err2 A (get F) <= lsum (seq 0 (ndim A)) (fun d => sumsq (skipn (min_opt (k0 d) (nth d mr None)) (snd (fst (svd (M d)))))).
Proof. exact TruncatorP5.hosvd_main. Qed.
Print Assumptions c28_hosvd.
(** without max_rank, the relative error is at most the tolerance *)
Theorem c28_hosvd_error : forall svd, svd_contract svd -> forall t (A : nd R), max_rank t = [None] ->
  thresholding_parameter t = None \/ thresholding_parameter t = Some 0 ->
  Forall (fun n => (0 < n)%nat) (shape A) -> (2 <= ndim A)%nat -> 0 < tolerance t ->
  exists X t' F, hosvd svd t A = Some (X, t') /\ tb_full X = Some F /\ shape F = shape A /\
    err2 A (get F) <= tolerance t * tolerance t * frob2 A.
Proof. exact TruncatorP5.hosvd_tol. Qed.
Print Assumptions c28_hosvd_error.
(** quasi-optimality: the squared error is at most d times the squared error of any tensor with the same multilinear
    ranks *)
Theorem c28_hosvd_quasi_optimal : forall svd, svd_contract svd -> forall t (A : nd R) mr,
  mr = match max_rank t with [m] => repeat m (ndim A) | l => l end -> length mr = ndim A ->
  thresholding_parameter t = None \/ thresholding_parameter t = Some 0 ->
  Forall (fun n => (0 < n)%nat) (shape A) -> Forall (fun m => m <> Some 0%nat) mr -> (2 <= ndim A)%nat ->
  exists X t' F, hosvd svd t A = Some (X, t') /\ tb_full X = Some F /\ shape F = shape A /\
    forall f, (forall d, (d < ndim A)%nat -> rank_at_most (shape A) [d] (last (shape (core X (d + 2))) 0%nat) f) ->
    err2 A (get F) <= INR (ndim A) * err2 A f.
Proof. exact TruncatorP6.hosvd_best. Qed.
Print Assumptions c28_hosvd_quasi_optimal.
(** the contract of np.linalg.svd is satisfiable: every matrix has a singular value decomposition *)
Theorem c28_svd_exists : exists svd, svd_contract svd.
Proof. exact SpectralP2.svd_contract_exists. Qed.
Print Assumptions c28_svd_exists.
(** the contract of np.linalg.qr (C26) is satisfiable over the real numbers *)
Theorem c26_qr_exists : exists qr : nd R -> nd R * nd R, qr_contract qr.
Proof. exact TruncatorP6.qr_contract_exists. Qed.
Print Assumptions c26_qr_exists.
Example c28_ex : let t := Trunc (/ 10) [None] Hard None in
  max_rank t = [None] /\ (thresholding_parameter t = None \/ thresholding_parameter t = Some 0) /\
  Forall (fun n => (0 < n)%nat) (shape (ND [2;3;4]%nat (fun is => INR (sumn is)))) /\ (2 <= ndim (ND [2;3;4]%nat (fun is => INR (sumn is))))%nat /\
  0 < tolerance t.
Proof. cbn. split; auto. split; auto. split; [repeat constructor|]. split; [lia|]. lra. Qed.

(** * C29 *)
(** whatever the sequence of the previous calls of hosvd, a truncator whose max_rank is one number is unchanged,
    so that the next result does not depend on the history *)
Theorem c29_hosvd_history_partial : forall svd (m : option nat) l t t', max_rank t = [m] -> after_hosvds svd l t = Some t' ->
  t' = t /\ forall A, hosvd svd t' A = hosvd svd t A.
Proof. intros svd m l t t' Hm E. assert (t' = t) by (exact (TruncatorP5.hosvd_hist svd m l t t' Hm E)). subst. auto. Qed.
Print Assumptions c29_hosvd_history_partial.
(** but not when max_rank has one value per dimension: max_rank is overwritten by its last value *)
Theorem c29_hosvd_history_refuted : forall svd, svd_contract svd -> exists t A X1 t1 X2 t2,
  hosvd svd t A = Some (X1, t1) /\ hosvd svd t1 A = Some (X2, t2) /\ shape (core X1 1) <> shape (core X2 1).
Proof.
  intros svd H. destruct (TruncatorP5.hosvd_twice svd H) as (X1 & t1 & X2 & t2 & H1 & H2 & H3 & H4).
  do 6 eexists. split; [exact H1|]. split; [exact H2|]. rewrite H3, H4. discriminate.
Qed.
Print Assumptions c29_hosvd_history_refuted.
