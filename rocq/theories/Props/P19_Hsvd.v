(** C56: the higher-order SVD of a FullTensor in tree-based format (Truncator.hsvd, Truncator.ttsvd);
    C29: calls of hsvd and the state of the truncator. *)
From Coq Require Import List Arith Lia Bool Reals Lra Permutation.
From Verif.Base Require Import ListAux CRing Index RealAux.
From Verif.Model Require Import Sorting Numpy FullTensor Diagonal Canonical DimensionTree TreeBased Truncator HSVD.
From Verif.Spec Require Import TensorSpec TreeSpec TreeTensorSpec TruncatorSpec.
From Verif.Proofs Require Import DimTreeP2 HsvdP5 HsvdP6 HsvdP9.
Import ListNotations.
Local Open Scope R_scope.

(** * C56 *)
(** For any dimension tree with at least two dimensions, any choice of active leaves, and a tensor with one axis per
    dimension (and possibly a last axis, the rank of the root): hsvd succeeds and returns a well-formed tree-based tensor
    with this tree and these active nodes, of the shape of A, whose cores, except the root, are orthonormal, with the
    ranks bounded by the maximal ranks; without maximal ranks, the relative error is at most the tolerance, and the result
    equals A if the tolerance is <= 0. *)
Theorem c56_hsvd : forall svd, svd_contract svd -> forall t (A : nd R) tr r oact act mr,
  dim_tree tr r -> (2 <= length (d2i tr))%nat ->
  ndim A = length (d2i tr) \/ ndim A = (length (d2i tr) + 1)%nat -> Forall (fun n => (0 < n)%nat) (shape A) ->
  act = match oact with None => repeat true (nbn tr) | Some a => a end -> length act = nbn tr ->
  (forall n, node tr n -> is_leaf tr n = false -> nth (n - 1) act false = true) ->
  thresholding_parameter t = None \/ thresholding_parameter t = Some 0 ->
  mr = match max_rank t with [m] => repeat m (nbn tr) | l => l end -> length mr = nbn tr -> Forall (fun m => m <> Some 0%nat) mr ->
  exists X t' F, hsvd svd t A tr oact = Some (X, t') /\ ttree X = tr /\ tb_ok X r /\ tb_full X = Some F /\ shape F = shape A /\
    (forall n, node tr n -> n <> r -> active X n = nth (n - 1) act false) /\
    (forall n, node tr n -> n <> r -> active X n = true ->
       orth_cols (core X n) /\ match nth (n - 1) mr None with Some m => (last (shape (core X n)) 0 <= m)%nat | None => True end) /\
    ((forall n, node tr n -> n <> r -> nth (n - 1) mr None = None) -> 0 < tolerance t ->
       err2 A (get F) <= tolerance t * tolerance t * frob2 A) /\
    ((forall n, node tr n -> n <> r -> nth (n - 1) mr None = None) -> tolerance t <= 0 ->
       forall is, valid (shape A) is -> get F is = get A is).
Proof. exact hsvd_main. Qed.
Print Assumptions c56_hsvd.
(** ttsvd: the same with the linear tree over the dimensions in their order, all the leaves inactive except the leaf of
    the first dimension *)
Theorem c56_ttsvd : forall svd, svd_contract svd -> forall t (A : nd R) mr,
  (2 <= ndim A)%nat -> Forall (fun n => (0 < n)%nat) (shape A) ->
  thresholding_parameter t = None \/ thresholding_parameter t = Some 0 ->
  mr = match max_rank t with [m] => repeat m (2 * ndim A - 1) | l => l end -> length mr = (2 * ndim A - 1)%nat -> Forall (fun m => m <> Some 0%nat) mr ->
  let tr := dt_linear (ndim A) (seq 0 (ndim A)) in
  exists X t' F, ttsvd svd t A = Some (X, t') /\ ttree X = tr /\ tb_ok X 1 /\ tb_full X = Some F /\ shape F = shape A /\
    (forall n, node tr n -> active X n = false <-> is_leaf tr n = true /\ n <> nth 0 (d2i tr) 0%nat) /\
    (forall n, node tr n -> n <> 1%nat -> active X n = true ->
       orth_cols (core X n) /\ match nth (n - 1) mr None with Some m => (last (shape (core X n)) 0 <= m)%nat | None => True end) /\
    ((forall n, node tr n -> n <> 1%nat -> nth (n - 1) mr None = None) -> 0 < tolerance t ->
       err2 A (get F) <= tolerance t * tolerance t * frob2 A) /\
    ((forall n, node tr n -> n <> 1%nat -> nth (n - 1) mr None = None) -> tolerance t <= 0 ->
       forall is, valid (shape A) is -> get F is = get A is).
Proof. exact ttsvd_main. Qed.
Print Assumptions c56_ttsvd.
(** quasi-optimality: the squared error is at most (number of active nodes - 1) times the squared error of any tensor f
    whose ranks, for the dimensions of every active node, are at most those of the result *)
Theorem c56_hsvd_quasi_optimal : forall svd, svd_contract svd -> forall t (A : nd R) tr r oact act mr X t' F,
  dim_tree tr r -> (2 <= length (d2i tr))%nat ->
  ndim A = length (d2i tr) \/ ndim A = (length (d2i tr) + 1)%nat -> Forall (fun n => (0 < n)%nat) (shape A) ->
  act = match oact with None => repeat true (nbn tr) | Some a => a end -> length act = nbn tr ->
  (forall n, node tr n -> is_leaf tr n = false -> nth (n - 1) act false = true) ->
  thresholding_parameter t = None \/ thresholding_parameter t = Some 0 ->
  mr = match max_rank t with [m] => repeat m (nbn tr) | l => l end -> length mr = nbn tr -> Forall (fun m => m <> Some 0%nat) mr ->
  hsvd svd t A tr oact = Some (X, t') -> tb_full X = Some F ->
  forall f, (forall n, node tr n -> n <> r -> active X n = true -> rank_at_most (shape A) (dims tr n) (last (shape (core X n)) 0%nat) f) ->
  err2 A (get F) <= INR (count_occ bool_dec act true - 1) * err2 A f.
Proof. exact hsvd_best. Qed.
Print Assumptions c56_hsvd_quasi_optimal.
(** in particular, of any tree-based tensor Y with the same tree and ranks at most those of the result *)
Theorem c56_hsvd_quasi_optimal_tree : forall svd, svd_contract svd -> forall t (A : nd R) tr r oact act mr X t' F,
  dim_tree tr r -> (2 <= length (d2i tr))%nat ->
  ndim A = length (d2i tr) \/ ndim A = (length (d2i tr) + 1)%nat -> Forall (fun n => (0 < n)%nat) (shape A) ->
  act = match oact with None => repeat true (nbn tr) | Some a => a end -> length act = nbn tr ->
  (forall n, node tr n -> is_leaf tr n = false -> nth (n - 1) act false = true) ->
  thresholding_parameter t = None \/ thresholding_parameter t = Some 0 ->
  mr = match max_rank t with [m] => repeat m (nbn tr) | l => l end -> length mr = nbn tr -> Forall (fun m => m <> Some 0%nat) mr ->
  hsvd svd t A tr oact = Some (X, t') -> tb_full X = Some F ->
  forall Y G, tb_ok Y r -> ttree Y = tr -> tb_full Y = Some G -> shape G = shape A ->
  (forall n, node tr n -> n <> r -> active X n = true -> active Y n = true /\ (last (shape (core Y n)) 0 <= last (shape (core X n)) 0)%nat) ->
  err2 A (get F) <= INR (count_occ bool_dec act true - 1) * err2 A (get G).
Proof. exact hsvd_best_tree. Qed.
Print Assumptions c56_hsvd_quasi_optimal_tree.
(** the hypotheses are met: balanced tree of order 4, tensor with a rank axis, two inactive leaves (nodes 4 and 7) *)
Example c56_ex : let A := ND [2;3;2;2;3]%nat (fun is => INR (sumn is)) in let tr := dt_balanced 4 (seq 0 4) in
  let act := [true; true; true; false; true; true; false] in let t := Trunc (/ 10) [None] Hard None in
  dim_tree tr 1 /\ (2 <= length (d2i tr))%nat /\ ndim A = (length (d2i tr) + 1)%nat /\ Forall (fun n => (0 < n)%nat) (shape A) /\
  length act = nbn tr /\ (forall n, node tr n -> is_leaf tr n = false -> nth (n - 1) act false = true) /\
  thresholding_parameter t = None /\ Forall (fun m => m <> Some 0%nat) (repeat (@None nat) (nbn tr)) /\ 0 < tolerance t.
Proof.
  cbv zeta. split; [apply dt_balanced_ok; [lia|apply Permutation_refl]|]. split; [cbn; lia|]. split; [reflexivity|]. split; [repeat constructor|].
  split; [reflexivity|]. split.
  - intros n Hn. unfold node in Hn. cbn in Hn. destruct n as [|[|[|[|[|[|[|[|n]]]]]]]]; try lia; vm_compute; auto; discriminate.
  - split; [reflexivity|]. split; [repeat constructor; discriminate|]. cbn. lra.
Qed.

(** * C29 *)
(** a truncator whose max_rank is one number is unchanged by hsvd: the next result does not depend on this call *)
Theorem c29_hsvd_state_partial : forall svd t (A : nd R) tr r act X t' (m : option nat), dim_tree tr r -> max_rank t = [m] ->
  hsvd svd t A tr act = Some (X, t') -> t' = t /\ forall B tr' act', hsvd svd t' B tr' act' = hsvd svd t B tr' act'.
Proof. intros svd t A tr r act X t' m V Hm H. assert (t' = t) by (exact (hsvd_state svd t A tr r act X t' m V Hm H)). subst. auto. Qed.
Print Assumptions c29_hsvd_state_partial.
(** but not when max_rank has one value per node: it is overwritten by the value of the last node, and a second call on
    the same tensor gives another tensor *)
Theorem c29_hsvd_state_refuted : forall svd, svd_contract svd -> exists t A tr X1 t1 F1 X2 t2 F2,
  dim_tree tr 1 /\ hsvd svd t A tr None = Some (X1, t1) /\ tb_full X1 = Some F1 /\ hsvd svd t1 A tr None = Some (X2, t2) /\ tb_full X2 = Some F2 /\
  shape F1 = shape A /\ shape F2 = shape A /\ exists is, valid (shape A) is /\ get F1 is <> get F2 is.
Proof.
  intros svd H. destruct (hsvd_twice svd H) as (X1 & t1 & F1 & X2 & t2 & F2 & H1 & H2 & H3 & H4 & H5 & H6 & is & H7 & H8).
  do 9 eexists. split; [exact tr_V|]. split; [exact H1|]. split; [exact H2|]. split; [exact H3|]. split; [exact H4|]. split; [exact H5|]. split; [exact H6|]. exists is. auto.
Qed.
Print Assumptions c29_hsvd_state_refuted.
