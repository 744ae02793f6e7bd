(** C57: the Gramians of a tree-based tensor (TreeBasedTensor.gramians);
    C58: the higher-order SVD of a tree-based tensor (Truncator.hsvd, applied to a TreeBasedTensor);
    C29: the state of the truncator after it. *)
From Coq Require Import List Arith Lia Bool Reals Lra Permutation.
From Verif.Base Require Import ListAux CRing Index RealAux.
From Verif.Model Require Import Sorting Numpy FullTensor Diagonal Canonical DimensionTree TreeBased Truncator HSVD HsvdTree.
From Verif.Spec Require Import TensorSpec TreeSpec TreeTensorSpec TruncatorSpec GramSpec.
From Verif.Proofs Require Import HsvdTreeP9 HsvdTreeP12 HsvdTreeP13.
Import ListNotations.
Local Open Scope R_scope.

(** * C57 *)
(** For a well-formed tensor (marked orthonormal only if its cores are orthonormal) and a list of nodes (None: all of
    them), gramians returns the same tensor in orthonormal form, Z, and for each requested node n: the matrix 1 for the
    root, nothing for an inactive leaf, and for every other node a square matrix G of the size of the rank of n in Z such
    that, with the orthonormal family of functions (x, k) -> tval Z n x [k] of the dimensions below n, the matrix of the inner
    products of the sections of the tensor in the dimensions of n is  V G V^T. *)
Theorem c57_gramians : forall qr (X : tbt R) r A is_orth alpha, qr_contract qr -> tb_ok X r -> (2 <= tb_order X)%nat -> tb_full X = Some A ->
  (is_orth = true -> forall n, node (ttree X) n -> active X n = true -> n <> r -> orth_cols (core X n)) ->
  (forall al n, alpha = Some al -> In n al -> node (ttree X) n) ->
  exists g Z, tb_gramians qr is_orth X alpha = Some (g, Z) /\ tb_ok Z r /\ ttree Z = ttree X /\
    (forall n, node (ttree X) n -> active Z n = active X n) /\
    (exists B, tb_full Z = Some B /\ shape B = shape A /\ forall is, valid (shape A) is -> get B is = get A is) /\
    (forall n, node (ttree X) n -> active X n = true -> n <> r -> orth_cols (core Z n)) /\
    Forall2 (fun n oG =>
      (n = r -> oG = Some (ND [1%nat; 1%nat] (fun _ => 1))) /\
      (n <> r -> active X n = false -> oG = None) /\
      (n <> r -> active X n = true -> exists G, oG = Some G /\
         let K := last (shape (core Z n)) 0%nat in shape G = [K; K] /\
         (forall k l, (k < K)%nat -> (l < K)%nat ->
            bsum (sel 0%nat (shape A) (dims (ttree X) n)) (fun x => tval Z n (put (dims (ttree X) n) x (repeat 0%nat (tb_order X))) [k] * tval Z n (put (dims (ttree X) n) x (repeat 0%nat (tb_order X))) [l]) = if (k =? l)%nat then 1 else 0) /\
         forall is js, valid (shape A) is -> valid (shape A) js ->
           sect A (dims (ttree X) n) is js =
           rsum K (fun k => rsum K (fun l => tval Z n (firstn (tb_order X) is) [k] * get G [k; l] * tval Z n (firstn (tb_order X) js) [l]))))
      (match alpha with None => nodes (ttree X) | Some al => al end) g.
Proof. exact gramians_main. Qed.
Print Assumptions c57_gramians.
(** the hypotheses are met: linear tree of order 3, diag(4, 3) as a tensor of shape (2, 2, 1), with orthonormal cores *)
Example c57_ex : tb_ok flag_X 1 /\ (2 <= tb_order flag_X)%nat /\
  (forall n, node (ttree flag_X) n -> active flag_X n = true -> n <> 1%nat -> orth_cols (core flag_X n)) /\
  sect (ND [2; 2; 1]%nat (fun is => if (nth 0 is 0 =? nth 1 is 0)%nat then 4 else 0)) [0; 1]%nat [1; 1; 0]%nat [0; 0; 0]%nat = 16.
Proof.
  split; [exact flag_ok|]. split; [cbn; lia|]. split.
  - intros n Hn _ NE. unfold node in Hn. cbn in Hn. destruct n as [|[|[|[|[|[|n]]]]]]; try lia; intros a b; cbn [core nthc flag_X cores nth shape last removelast Nat.sub]; intros Ha Hb;
      (destruct a as [|[|a]]; try lia; destruct b as [|[|b]]; try lia; cbn; try field; try lra).
  - cbn. lra.
Qed.

(** * C58 *)
(** For a well-formed tree-based tensor X of order at least 2 and both values (1, 2) of the attribute that selects the
    algorithm (2 by default): hsvd succeeds and returns a well-formed tensor with the same tree, active nodes and shape,
    whose ranks are bounded by the maximal ranks; without maximal ranks the relative error is at most the tolerance, and
    the result equals X if the tolerance is 0. *)
Theorem c58_hsvd_tree : forall svd qr, svd_contract svd -> qr_contract qr -> forall ty X r t mr A,
  ty = 1%nat \/ ty = 2%nat -> tb_ok X r -> (2 <= tb_order X)%nat -> tb_full X = Some A ->
  thresholding_parameter t = None \/ thresholding_parameter t = Some 0 ->
  mr = match max_rank t with [m] => repeat m (nbn (ttree X)) | l => l end -> length mr = nbn (ttree X) -> Forall (fun m => m <> Some 0%nat) mr ->
  exists Y b t' F, hsvd_tb svd qr ty t X = Some (Y, b, t') /\ ttree Y = ttree X /\ tb_ok Y r /\ tb_full Y = Some F /\ shape F = shape A /\
    (forall n, node (ttree X) n -> active Y n = active X n) /\
    (forall n, node (ttree X) n -> n <> r -> active X n = true -> match nth (n - 1) mr None with Some m => (last (shape (core Y n)) 0 <= m)%nat | None => True end) /\
    ((forall n, node (ttree X) n -> n <> r -> nth (n - 1) mr None = None) -> err2 A (get F) <= tolerance t * tolerance t * frob2 A) /\
    ((forall n, node (ttree X) n -> n <> r -> nth (n - 1) mr None = None) -> tolerance t = 0 -> forall is, valid (shape A) is -> get F is = get A is).
Proof. exact hsvd_tb_props. Qed.
Print Assumptions c58_hsvd_tree.
(** quasi-optimality: the squared error is at most (number of active nodes - 1) times that of any tensor f whose ranks, for the
    dimensions of every active node, are at most those of the result *)
Theorem c58_hsvd_tree_quasi_optimal : forall svd qr, svd_contract svd -> qr_contract qr -> forall ty X r t mr A Y b t' F,
  ty = 1%nat \/ ty = 2%nat -> tb_ok X r -> (2 <= tb_order X)%nat -> tb_full X = Some A ->
  thresholding_parameter t = None \/ thresholding_parameter t = Some 0 ->
  mr = match max_rank t with [m] => repeat m (nbn (ttree X)) | l => l end -> length mr = nbn (ttree X) -> Forall (fun m => m <> Some 0%nat) mr ->
  hsvd_tb svd qr ty t X = Some (Y, b, t') -> tb_full Y = Some F ->
  forall f, (forall n, node (ttree X) n -> n <> r -> active X n = true -> rank_at_most (shape A) (dims (ttree X) n) (last (shape (core Y n)) 0%nat) f) ->
  err2 A (get F) <= INR (count_occ bool_dec (map (active X) (nodes (ttree X))) true - 1) * err2 A f.
Proof. exact hsvd_tb_best. Qed.
Print Assumptions c58_hsvd_tree_quasi_optimal.
(** in particular, of any tree-based tensor with the same tree and ranks at most those of the result *)
Theorem c58_hsvd_tree_quasi_optimal_tree : forall svd qr, svd_contract svd -> qr_contract qr -> forall ty X r t mr A Y b t' F,
  ty = 1%nat \/ ty = 2%nat -> tb_ok X r -> (2 <= tb_order X)%nat -> tb_full X = Some A ->
  thresholding_parameter t = None \/ thresholding_parameter t = Some 0 ->
  mr = match max_rank t with [m] => repeat m (nbn (ttree X)) | l => l end -> length mr = nbn (ttree X) -> Forall (fun m => m <> Some 0%nat) mr ->
  hsvd_tb svd qr ty t X = Some (Y, b, t') -> tb_full Y = Some F ->
  forall W G, tb_ok W r -> ttree W = ttree X -> tb_full W = Some G -> shape G = shape A ->
  (forall n, node (ttree X) n -> n <> r -> active X n = true -> active W n = true /\ (last (shape (core W n)) 0 <= last (shape (core Y n)) 0)%nat) ->
  err2 A (get F) <= INR (count_occ bool_dec (map (active X) (nodes (ttree X))) true - 1) * err2 A (get G).
Proof. exact hsvd_tb_best_tree. Qed.
Print Assumptions c58_hsvd_tree_quasi_optimal_tree.
(** The default algorithm marks its result as orthonormal at the root, but truncating the rank of an internal node's child
    loses the orthonormality of its core: norm, which trusts the mark, returns the norm of the original tensor (squared:
    25) although the squared norm of the result is at most 16. *)
Theorem c58_norm_after_hsvd_refuted : forall svd qr, svd_contract svd -> qr_contract qr -> exists (X : tbt R) t A Y t' F v,
  tb_ok X 1 /\ tb_full X = Some A /\ hsvd_tb svd qr 2 t X = Some (Y, true, t') /\ tb_full Y = Some F /\ tb_norm2 qr true Y = Some v /\ v = 25 /\ frob2 F <= 16.
Proof.
  intros svd qr SVD QR. destruct (flag_wrong svd qr SVD QR) as (A & Y & t' & F & v & H1 & H2 & H3 & H4 & H5 & H6).
  exists flag_X, flag_t, A, Y, t', F, v. pose proof flag_ok. auto 10.
Qed.
Print Assumptions c58_norm_after_hsvd_refuted.
(** the hypotheses are met *)
Example c58_ex : tb_ok flag_X 1 /\ (2 <= tb_order flag_X)%nat /\ thresholding_parameter flag_t = None /\
  length (repeat (Some 1%nat) (nbn (ttree flag_X))) = nbn (ttree flag_X) /\ Forall (fun m => m <> Some 0%nat) (repeat (Some 1%nat) (nbn (ttree flag_X))) /\
  max_rank flag_t = [Some 1%nat].
Proof. split; [exact flag_ok|]. split; [cbn; lia|]. split; [reflexivity|]. split; [reflexivity|]. split; [|reflexivity]. cbn. repeat (apply Forall_cons; [discriminate|]). apply Forall_nil. Qed.

(** * C29 *)
(** a truncator whose max_rank is one number is unchanged by hsvd of a tree-based tensor (default algorithm) *)
Theorem c29_hsvd_tree_state_partial : forall svd qr, svd_contract svd -> qr_contract qr -> forall X r t mr A m Y b t',
  tb_ok X r -> (2 <= tb_order X)%nat -> tb_full X = Some A ->
  thresholding_parameter t = None \/ thresholding_parameter t = Some 0 ->
  mr = match max_rank t with [m] => repeat m (nbn (ttree X)) | l => l end -> length mr = nbn (ttree X) -> Forall (fun m => m <> Some 0%nat) mr ->
  max_rank t = [m] -> hsvd_tb svd qr 2 t X = Some (Y, b, t') -> t' = t.
Proof. exact hsvd_tb_state. Qed.
Print Assumptions c29_hsvd_tree_state_partial.
