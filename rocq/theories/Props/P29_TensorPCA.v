(** C66: the principal component analysis of tensors. *)
From Coq Require Import List Arith Lia Bool Reals Permutation Lra.
From Verif.Base Require Import ListAux CRing Index RealAux LinAlg.
From Verif.Model Require Import Numpy FullTensor DimensionTree TreeBased Truncator Functions Learning TensorPCA.
From Verif.Spec Require Import TensorSpec TreeSpec TreeTensorSpec TruncatorSpec LearningSpec FunctionSpec PCASpec.
From Verif.Proofs Require Import NumpyP DimTreeP DimTreeP2 LapackP TensorPCAP3 TensorPCAP9 TensorPCAP10 TensorPCAP11 TensorPCAP12 TensorPCAP13.
From Verif.Props Require Import P06_TreeBased P07_Truncator.
Import ListNotations.
Local Open Scope R_scope.

(** * C66 *)
(** tree_based_approximation: the result is a well-formed tensor with the given tree and shape; it interpolates f at all the points of the product
    of the interpolation grids of the children of the root; each other node has a grid of points of its dimensions, with as many points as its rank if it
    is active; the output number_of_evaluations is the number of evaluations of f *)
Theorem c66_interpolation : forall svd L factor adaptive (f : list nat -> R) shp tol mr sub rnd choice t r oact X st,
  svd_contract svd -> lapack_ok L -> dim_tree t r -> length shp = length (d2i t) -> (2 <= length shp)%nat ->
  (forall n na N, length (rnd n na N) = N) -> (forall n m k, (k <= m)%nat -> length (choice n m k) = k /\ forall i, In i (choice n m k) -> (i < m)%nat) ->
  tree_based_approximation svd L factor adaptive f shp tol mr sub rnd choice t oact = Some (X, st) ->
  ttree X = t /\ tb_ok X r /\ exists A, tb_full X = Some A /\ shape A = shp /\ (forall is, valid shp is -> In (sel 0%nat is (dims t r)) (nthg st r) -> get A is = f is) /\
    nthg st r = map (grid_point (map (nthg st) (children t r))) (boxF (shape (core X r))) /\
    (forall n, node t n -> n <> r -> Forall (valid (sel 0%nat shp (dims t n))) (nthg st n) /\ (active X n = true -> length (nthg st n) = tb_rank X n)) /\
    ps_n st = length (ps_pts st).
Proof. exact pca_interpolation. Qed.
Print Assumptions c66_interpolation.
(** the ranks are positive and at most the prescribed ranks, where the least of the precision and of the maximal rank is at least 1 *)
Theorem c66_ranks_partial : forall svd L factor adaptive (f : list nat -> R) shp tol mr sub rnd choice t r oact X st,
  svd_contract svd -> lapack_ok L -> dim_tree t r -> length shp = length (d2i t) ->
  (forall n na N, length (rnd n na N) = N) -> (forall n m k, (k <= m)%nat -> length (choice n m k) = k /\ forall i, In i (choice n m k) -> (i < m)%nat) ->
  tree_based_approximation svd L factor adaptive f shp tol mr sub rnd choice t oact = Some (X, st) ->
  forall n, node t n -> n <> r -> active X n = true ->
    (1 <= tb_rank X n)%nat /\ forall x, least_of (node_param tol n) (node_param mr n) x -> 1 <= x -> INR (tb_rank X n) <= x.
Proof. exact pca_ranks. Qed.
Print Assumptions c66_ranks_partial.
(** with empirical interpolation, the result is f everywhere if at each active node the precision or the rank does not truncate and the fibres at the
    random points span all the fibres *)
Theorem c66_exact : forall svd L factor adaptive (f : list nat -> R) shp tol mr rnd choice t r oact X st,
  svd_contract svd -> lapack_ok L -> dim_tree t r -> length shp = length (d2i t) -> (2 <= length shp)%nat ->
  (forall n na N, length (rnd n na N) = N) ->
  (forall n na N, Forall (fun k => (k < length shp)%nat) na -> Forall (valid (sel 0%nat shp na)) (rnd n na N)) ->
  (forall n m k, (k <= m)%nat -> length (choice n m k) = k /\ forall i, In i (choice n m k) -> (i < m)%nat) ->
  tree_based_approximation svd L factor adaptive f shp tol mr EIM rnd choice t oact = Some (X, st) ->
  (forall n, node t n -> n <> r -> active X n = true -> exact_node f shp factor adaptive tol mr (rnd n) n (dims t n) (prodn (heads X n))) ->
  returns (tb_full X) shp f.
Proof. exact pca_exact. Qed.
Print Assumptions c66_exact.
(** with empirical interpolation no system is singular: the call succeeds for every function, precision, rank and every outcome of the draws *)
Theorem c66_success : forall svd L factor adaptive (f : list nat -> R) shp tol mr rnd choice t r oact,
  svd_contract svd -> lapack_ok L -> dim_tree t r -> length shp = length (d2i t) -> (2 <= length shp)%nat ->
  Forall (fun m => (1 <= m)%nat) shp -> (1 <= factor)%nat -> (forall n na N, length (rnd n na N) = N) ->
  (forall n na N, Forall (fun k => (k < length shp)%nat) na -> Forall (valid (sel 0%nat shp na)) (rnd n na N)) ->
  (forall n m k, (k <= m)%nat -> length (choice n m k) = k /\ forall i, In i (choice n m k) -> (i < m)%nat) ->
  length tol = 1%nat \/ length tol = nbn t -> length mr = 1%nat \/ length mr = nbn t ->
  (forall n, node t n -> n <> r -> node_param tol n <> None \/ node_param mr n <> None) ->
  exists X st, tree_based_approximation svd L factor adaptive f shp tol mr EIM rnd choice t oact = Some (X, st).
Proof. exact tree_succeeds. Qed.
Print Assumptions c66_success.
(** hopca: for each dimension, an orthonormal family of principal components; they span all the fibres of f along this dimension if the precision or
    the rank does not truncate and the fibres at the random points span all the fibres *)
Theorem c66_hopca : forall svd L factor adaptive (f : list nat -> R) shp tol mr rnd l, svd_contract svd -> lapack_ok L ->
  (forall n na N, length (rnd n na N) = N) ->
  (forall n na N, Forall (fun k => (k < length shp)%nat) na -> Forall (valid (sel 0%nat shp na)) (rnd n na N)) ->
  hopca svd L factor adaptive f shp tol mr rnd = Some l -> length l = length shp /\ forall a, (a < length shp)%nat ->
    let p := nth a l (PO (MX 0 0 (fun _ _ => 0)) [] 0 [] []) in
    mrows (po_pc p) = nth a shp 0%nat /\ (1 <= mcols (po_pc p) <= nth a shp 0%nat)%nat /\ cols_orth (po_pc p) /\ po_n p = length (po_pts p) /\
    (exact_node f shp factor adaptive tol mr (rnd a) (S a) [a] (nth a shp 0%nat) -> forall is, valid shp is -> exists b : nat -> R, forall i, (i < nth a shp 0%nat)%nat ->
       f (TensorSpec.put [a] [i] is) = rsum (mcols (po_pc p)) (fun k => ment (po_pc p) i k * b k)).
Proof. exact hopca_spec. Qed.
Print Assumptions c66_hopca.

(** tucker_approximation: the trivial tree, the k-th parameter is that of dimension k *)
Theorem c66_tucker : forall svd, svd_contract svd -> forall L, lapack_ok L -> forall factor adaptive (f : list nat -> R) shp tol mr rnd choice,
  (2 <= length shp)%nat -> (forall n na N, length (rnd n na N) = N) ->
  (forall n na N, Forall (fun k => (k < length shp)%nat) na -> Forall (valid (sel 0%nat shp na)) (rnd n na N)) ->
  (forall n m k, (k <= m)%nat -> length (choice n m k) = k /\ forall i, In i (choice n m k) -> (i < m)%nat) -> forall X st,
  tucker_approximation svd L factor adaptive f shp tol mr EIM rnd choice = Some (X, st) ->
  (forall a, (a < length shp)%nat -> exact_node f shp factor adaptive tol mr (rnd (a + 2)%nat) (S a) [a] (nth a shp 0%nat)) ->
  ttree X = dt_trivial (length shp) /\ returns (tb_full X) shp f.
Proof. exact pca_tucker. Qed.
Print Assumptions c66_tucker.
(** tt_approximation: the linear tree, only the first leaf active, the k-th parameter is that of the dimensions 0, ..., k *)
Theorem c66_tt : forall svd, svd_contract svd -> forall L, lapack_ok L -> forall factor adaptive (f : list nat -> R) shp tol mr rnd choice,
  (2 <= length shp)%nat -> (forall n na N, length (rnd n na N) = N) ->
  (forall n na N, Forall (fun k => (k < length shp)%nat) na -> Forall (valid (sel 0%nat shp na)) (rnd n na N)) ->
  (forall n m k, (k <= m)%nat -> length (choice n m k) = k /\ forall i, In i (choice n m k) -> (i < m)%nat) -> forall X st,
  tt_approximation svd L factor adaptive f shp tol mr EIM rnd choice = Some (X, st) -> let d := length shp in
  (forall k, (k < d - 1)%nat -> exact_node f shp factor adaptive tol mr (rnd (2 * (d - 1 - k))%nat) (S k) (seq 0 (S k)) (prodn (heads X (2 * (d - 1 - k))%nat))) ->
  ttree X = dt_linear d (seq 0 d) /\ (forall j, (1 <= j < d)%nat -> active X (nth j (d2i (dt_linear d (seq 0 d))) 0%nat) = false) /\
  returns (tb_full X) shp f.
Proof. exact pca_tt. Qed.
Print Assumptions c66_tt.

(** * What does not hold *)
(** max_rank does not bound the ranks when a precision is given: the result is the one without max_rank *)
Theorem c66_max_rank_refuted : forall svd L factor adaptive (f : list nat -> R) shp x mr sub rnd choice t r oact,
  dim_tree t r -> length shp = length (d2i t) -> x < 1 -> length mr = 1%nat \/ length mr = nbn t -> (forall y, In (Some y) mr -> 1 <= y) ->
  tree_based_approximation svd L factor adaptive f shp [Some x] mr sub rnd choice t oact =
  tree_based_approximation svd L factor adaptive f shp [Some x] [None] sub rnd choice t oact.
Proof. exact max_rank_ignored. Qed.
Print Assumptions c66_max_rank_refuted.

(** * Cases that meet the hypotheses *)
(** if all the points are drawn and the precision is zero, the call reproduces f *)
Theorem c66_all_draws : forall svd L factor (f : list nat -> R) shp choice t r, svd_contract svd -> lapack_ok L -> dim_tree t r ->
  length shp = length (d2i t) -> (2 <= length shp)%nat -> Forall (fun m => (1 <= m)%nat) shp -> (prodn shp <= factor)%nat ->
  (forall n m k, (k <= m)%nat -> length (choice n m k) = k /\ forall i, In i (choice n m k) -> (i < m)%nat) ->
  exists X st, tree_based_approximation svd L factor false f shp [Some 0] [None] EIM (all_draws shp) choice t None = Some (X, st) /\ returns (tb_full X) shp f.
Proof. exact pca_all_draws. Qed.
Print Assumptions c66_all_draws.
Theorem c66_all_draws_tucker : forall svd L factor (f : list nat -> R) shp choice, svd_contract svd -> lapack_ok L -> (2 <= length shp)%nat ->
  Forall (fun m => (1 <= m)%nat) shp -> (prodn shp <= factor)%nat ->
  (forall n m k, (k <= m)%nat -> length (choice n m k) = k /\ forall i, In i (choice n m k) -> (i < m)%nat) ->
  exists X st, tucker_approximation svd L factor false f shp [Some 0] [None] EIM (all_draws shp) choice = Some (X, st) /\ returns (tb_full X) shp f.
Proof. exact tucker_all_draws. Qed.
Print Assumptions c66_all_draws_tucker.
Theorem c66_all_draws_tt : forall svd L factor (f : list nat -> R) shp choice, svd_contract svd -> lapack_ok L -> (2 <= length shp)%nat ->
  Forall (fun m => (1 <= m)%nat) shp -> (prodn shp <= factor)%nat ->
  (forall n m k, (k <= m)%nat -> length (choice n m k) = k /\ forall i, In i (choice n m k) -> (i < m)%nat) ->
  exists X st, tt_approximation svd L factor false f shp [Some 0] [None] EIM (all_draws shp) choice = Some (X, st) /\ returns (tb_full X) shp f.
Proof. exact tt_all_draws. Qed.
Print Assumptions c66_all_draws_tt.
Definition ex66_choice (n m k : nat) : list nat := seq 0 k.
Definition ex66_shape : list nat := [2;3;2;2]%nat.
Example c66_example : forall f : list nat -> R, exists svd L X st, svd_contract svd /\ lapack_ok L /\
  tree_based_approximation svd L 24 false f ex66_shape [Some 0] [None] EIM (all_draws ex66_shape) ex66_choice (dt_balanced 4 [0;1;2;3]%nat) None = Some (X, st) /\
  returns (tb_full X) ex66_shape f.
Proof.
  intros f. destruct c28_svd_exists as [svd SV]. destruct lapack_exists as [L HL]. exists svd, L.
  assert (HP : Forall (fun m => (1 <= m)%nat) ex66_shape) by (repeat constructor).
  assert (CH : forall n m k, (k <= m)%nat -> length (ex66_choice n m k) = k /\ forall i, In i (ex66_choice n m k) -> (i < m)%nat).
  { intros n m k Hk. unfold ex66_choice. split; [apply seq_length|]. intros i Hi. apply in_seq in Hi. lia. }
  assert (HF : (prodn ex66_shape <= 24)%nat) by (cbn; lia).
  destruct (c66_all_draws svd L 24 f ex66_shape ex66_choice (dt_balanced 4 [0;1;2;3]%nat) 1 SV HL ex_tree eq_refl ltac:(cbn; lia) HP HF CH) as (X & st & E1 & E2).
  exists X, st. split; [exact SV|]. split; [exact HL|]. split; [exact E1|exact E2].
Qed.
