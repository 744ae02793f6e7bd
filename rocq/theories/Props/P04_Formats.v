(** Properties C13-C16: sparse, diagonal and canonical tensors
    (tensap/tensor_algebra/tensors/{sparse,diagonal,canonical}_tensor.py).
    Entries in any commutative ring (with a test for zero for the sparse format); the vocabulary is in
    Spec/TensorSpec.v. *)
From Coq Require Import List Arith ZArith Lia Bool Permutation.
From Verif.Base Require Import ListAux CRing Index.
From Verif.Model Require Import MultiIndices Numpy FullTensor Diagonal Canonical Sparse.
From Verif.Spec Require Import TensorSpec.
From Verif.Proofs Require DiagonalP CanonicalP CanonicalP2 SparseP SparseP2 SparseP3.
Import ListNotations.

#[global] Instance ZZeroTest : ZeroTest Z := { isz := Z.eqb 0; isz_ok := fun a => conj (fun H => eq_sym (proj1 (Z.eqb_eq 0 a) H)) (fun H => proj2 (Z.eqb_eq 0 a) (eq_sym H)) }.
(** 4 e_(0,0) - 7 e_(1,2), 4 e_(1,2) + 9 e_(0,1), and the zero matrix with no stored entry *)
Definition SA : sp Z := SP [4; -7]%Z false (MI 2 [[0;0];[1;2]]%Z) [2;3].
Definition SB : sp Z := SP [4; 9]%Z false (MI 2 [[1;2];[0;1]]%Z) [2;3].
Definition M32 : nd Z := of_list 0%Z [3;2] [1;2;3;4;5;6]%Z.

(** ** C13: sparse tensors *)
(** [x] is well formed, and its value at [is] *)
Definition wf {R} (x : sp R) : Prop := sp_ok (sp_rows x) (sp_data x) (sp_shape x).
Definition val {R} {CR : CRing R} (x : sp R) : list nat -> R := sp_val (sp_rows x) (sp_data x).

Theorem c13_full : forall R (CR : CRing R) (x : sp R), wf x -> returns (sp_full x) (sp_shape x) (val x).
Proof. exact (fun R CR => SparseP.sp_full_spec). Qed.
Print Assumptions c13_full.
(** dense -> sparse: same entries, and exactly the nonzero entries are stored *)
Theorem c13_of_dense : forall R (CR : CRing R) (ZT : ZeroTest R) (A : nd R),
  exists x, ft_sparse A = Some x /\ wf x /\ sp_shape x = shape A /\
    (forall is, valid (shape A) is -> val x is = get A is) /\
    (forall is, valid (shape A) is -> (In (map Z.of_nat is) (sp_rows x) <-> get A is <> r0)).
Proof.
  intros R CR ZT A. destruct (SparseP.ft_sparse_spec A) as (x & H1 & H2 & H3 & H4 & H5 & _). exists x. auto.
Qed.
Print Assumptions c13_of_dense.
Theorem c13_of_diagonal : forall R (CR : CRing R) (ZT : ZeroTest R) (v : list R) order, 0 < order ->
  exists x, dt_sparse (dt_make v order) = Some x /\ wf x /\ sp_shape x = repeat (length v) order /\
    forall is, valid (sp_shape x) is -> val x is = diag_val v is.
Proof.
  exact (fun R CR ZT v o Ho => let (x, H) := SparseP.dt_sparse_spec v o Ho in ex_intro _ x
    (conj (proj1 H) (conj (proj1 (proj2 H)) (conj (proj1 (proj2 (proj2 H))) (proj1 (proj2 (proj2 (proj2 H)))))))).
Qed.
Print Assumptions c13_of_diagonal.
Theorem c13_add : forall R (CR : CRing R) (x y : sp R), wf x -> wf y -> sp_shape x = sp_shape y -> sp_rows x <> [] ->
  exists z, sp_add x y = Some z /\ wf z /\ sp_shape z = sp_shape x /\
    (forall r, In r (sp_rows z) <-> In r (sp_rows x) \/ In r (sp_rows y)) /\
    forall is, val z is = radd (val x is) (val y is).
Proof.
  exact (fun R CR x y Hx Hy Hs Hn => let (z, H) := SparseP.sp_add_spec x y Hx Hy Hs Hn in ex_intro _ z
    (conj (proj1 H) (conj (proj1 (proj2 H)) (conj (proj1 (proj2 (proj2 H))) (proj2 (proj2 (proj2 (proj2 H)))))))).
Qed.
Print Assumptions c13_add.
(** element-wise product and inner product (with one stored entry the data array is 0-dimensional
    and the code raises: the hypotheses [sp_zd _ = false] exclude it) *)
Theorem c13_mul : forall R (CR : CRing R) (x y : sp R), wf x -> wf y -> sp_shape x = sp_shape y ->
  sp_zd x = false -> sp_zd y = false ->
  exists z, sp_mul x y = Some z /\ wf z /\ sp_shape z = sp_shape x /\
    (forall r, In r (sp_rows z) <-> In r (sp_rows x) /\ In r (sp_rows y)) /\
    forall is, val z is = rmul (val x is) (val y is).
Proof.
  exact (fun R CR x y Hx Hy Hs Z1 Z2 => let (z, H) := SparseP.sp_mul_spec x y Hx Hy Hs Z1 Z2 in ex_intro _ z
    (conj (proj1 H) (conj (proj1 (proj2 H)) (conj (proj1 (proj2 (proj2 H))) (proj2 (proj2 (proj2 (proj2 H)))))))).
Qed.
Print Assumptions c13_mul.
Theorem c13_dot : forall R (CR : CRing R) (x y : sp R), wf x -> wf y -> sp_shape x = sp_shape y ->
  sp_zd x = false -> sp_zd y = false ->
  sp_dot x y = Some (bsum (sp_shape x) (fun is => rmul (val x is) (val y is))).
Proof. exact (fun R CR => SparseP.sp_dot_spec). Qed.
Print Assumptions c13_dot.
Theorem c13_single_entry_dot_raises_refuted : exists x y : sp Z, wf x /\ wf y /\ sp_shape x = sp_shape y /\
  sp_make [4%Z] (MI 2 [[1;0]]%Z) [2;3] = Some x /\ sp_dot x y = None.
Proof.
  exists (SP [4%Z] true (MI 2 [[1;0]]%Z) [2;3]), SA.
  split; [split; [reflexivity|split; [repeat constructor; simpl; tauto|repeat constructor; exists [1;0]; split; [repeat constructor|reflexivity]]]|].
  split; [split; [reflexivity|split]|vm_compute; auto].
  - constructor; [simpl; intros [H|[]]; discriminate|repeat constructor; simpl; tauto].
  - constructor; [exists [0;0]; split; [repeat constructor|reflexivity]|constructor; [exists [1;2]; split; [repeat constructor|reflexivity]|constructor]].
Qed.
Print Assumptions c13_single_entry_dot_raises_refuted.
Theorem c13_transpose : forall R (CR : CRing R) (x : sp R) p, wf x -> 1 < sp_order x -> Permutation p (seq 0 (sp_order x)) ->
  exists z, sp_transpose x p = Some z /\ wf z /\ sp_shape z = sel 0 (sp_shape x) p /\
    forall is, valid (sp_shape x) is -> val z (sel 0 is p) = val x is.
Proof.
  exact (fun R CR x p Hx Ho Hp => let (z, H) := SparseP.sp_transpose_spec x p Hx Ho Hp in ex_intro _ z
    (conj (proj1 H) (conj (proj1 (proj2 H)) (conj (proj1 (proj2 (proj2 H))) (proj2 (proj2 (proj2 (proj2 H)))))))).
Qed.
Print Assumptions c13_transpose.
Theorem c13_reshape : forall R (CR : CRing R) (x : sp R) s, wf x -> prodn s = prodn (sp_shape x) ->
  exists z, sp_reshape x s = Some z /\ wf z /\ sp_shape z = s /\
    forall is js, valid (sp_shape x) is -> valid s js -> sub2indF (sp_shape x) is = sub2indF s js -> val z js = val x is.
Proof.
  exact (fun R CR x s Hx Hp => let (z, H) := SparseP.sp_reshape_spec x s Hx Hp in ex_intro _ z
    (conj (proj1 H) (conj (proj1 (proj2 H)) (conj (proj1 (proj2 (proj2 H))) (proj2 (proj2 (proj2 (proj2 H)))))))).
Qed.
Print Assumptions c13_reshape.
Theorem c13_eval_at_indices : forall R (CR : CRing R) (x : sp R) (l : list (list nat)), wf x -> sp_zd x = false ->
  sp_eval_at_indices x (map (map Z.of_nat) l) = Some (map (val x) l).
Proof. exact (fun R CR => SparseP.sp_eval_at_indices_spec). Qed.
Print Assumptions c13_eval_at_indices.
Theorem c13_tensor_matrix_product_eval_diag : forall R (CR : CRing R) (x : sp R) Ms n, wf x -> sp_zd x = false ->
  0 < sp_order x -> length Ms = sp_order x ->
  (forall k, k < sp_order x -> shape (nth k Ms (scalar r0)) = [n; nth k (sp_shape x) 0]) ->
  returns (sp_tensor_matrix_product_eval_diag x Ms) [n]
    (fun is => bsum (sp_shape x) (fun js => rmul (val x js) (factors Ms (repeat (nth 0 is 0) (sp_order x)) js))).
Proof. exact (fun R CR => SparseP.sp_tmp_eval_diag_spec). Qed.
Print Assumptions c13_tensor_matrix_product_eval_diag.
(** products with vectors along some, not all, of the dimensions, whenever the call returns *)
Theorem c13_tensor_vector_product : forall R (CR : CRing R) (ZT : ZeroTest R) (x : sp R) vs dims y, wf x ->
  NoDup dims -> Forall (fun k => k < sp_order x) dims -> length dims < sp_order x ->
  (forall k, k < length dims -> length (nth k vs []) = nth (nth k dims 0) (sp_shape x) 0) ->
  sp_tensor_vector_product x vs (Some dims) = Some y ->
  exists z, y = inr z /\ sp_shape z = sel 0 (sp_shape x) (compl (sp_order x) dims) /\ NoDup (sp_rows z) /\
    forall is, valid (sp_shape z) is ->
      val z is = bsum (sel 0 (sp_shape x) dims) (fun js => rmul (val x (asm (sp_order x) dims js is)) (lfactors vs js)).
Proof. exact (fun R CR ZT => SparseP2.sp_tvp_spec). Qed.
Print Assumptions c13_tensor_vector_product.
Theorem c13_tensor_vector_product_returns : forall R (CR : CRing R) (ZT : ZeroTest R) (x : sp R) v d, wf x ->
  1 < sp_order x -> d < sp_order x -> length v = nth d (sp_shape x) 0 ->
  exists z, sp_tensor_vector_product x [v] (Some [d]) = Some (inr z).
Proof. exact (fun R CR ZT => SparseP2.sp_tvp_one). Qed.
Print Assumptions c13_tensor_vector_product_returns.
(** along all the dimensions the returned array is not the number sum_is x[is] v_1[i_1] v_2[i_2]:
    here it has two entries, none of which is the number (-132) *)
Theorem c13_tensor_vector_product_all_dims_refuted : exists (x : sp Z) vs, wf x /\
  bsum (sp_shape x) (fun is => rmul (val x is) (lfactors vs is)) = (-132)%Z /\
  sp_tensor_vector_product x vs None = Some (inl [4; -14]%Z).
Proof.
  exists SA, [[1;2];[2;3;10]]%Z. split; [|vm_compute; auto]. split; [reflexivity|split].
  - constructor; [simpl; intros [H|[]]; discriminate|repeat constructor; simpl; tauto].
  - constructor; [exists [0;0]; split; [repeat constructor|reflexivity]|constructor; [exists [1;2]; split; [repeat constructor|reflexivity]|constructor]].
Qed.
Print Assumptions c13_tensor_vector_product_all_dims_refuted.
(** products with matrices, whenever the call returns (it raises on the zero tensor) *)
Theorem c13_tensor_matrix_product : forall R (CR : CRing R) (ZT : ZeroTest R) (x : sp R) Ms dims z, wf x -> sp_zd x = false ->
  1 < sp_order x -> NoDup dims -> Forall (fun k => k < sp_order x) dims ->
  (forall k, k < length dims -> exists m, shape (nth k Ms (scalar r0)) = [m; nth (nth k dims 0) (sp_shape x) 0]) ->
  sp_tensor_matrix_product x Ms (Some dims) = Some z ->
  wf z /\ sp_shape z = put dims (map (fun M => nth 0 (shape M) 0) Ms) (sp_shape x) /\
  forall is, valid (sp_shape z) is ->
    val z is = bsum (sel 0 (sp_shape x) dims) (fun js => rmul (val x (put dims js is)) (factors Ms (sel 0 is dims) js)).
Proof.
  exact (fun R CR ZT x Ms dims z Hx Hz Ho Hn Hf HM He => let H := SparseP3.sp_tmp_spec x Ms dims z Hx Hz Ho Hn Hf HM He in
    conj (proj1 H) (proj2 (proj2 H))).
Qed.
Print Assumptions c13_tensor_matrix_product.
Theorem c13_tensor_matrix_product_returns : forall R (CR : CRing R) (ZT : ZeroTest R) (x : sp R) M m mu is, wf x -> sp_zd x = false ->
  1 < sp_order x -> mu < sp_order x -> shape M = [m; nth mu (sp_shape x) 0] -> valid (sp_shape x) is -> val x is <> r0 ->
  exists z, sp_tensor_matrix_product x [M] (Some [mu]) = Some z.
Proof. exact (fun R CR ZT => SparseP3.sp_tmp_one). Qed.
Print Assumptions c13_tensor_matrix_product_returns.
Theorem c13_dot_with_rank_one_metric : forall R (CR : CRing R) (ZT : ZeroTest R) (x y : sp R) Ms v, wf x -> wf y ->
  sp_zd x = false -> sp_zd y = false -> 1 < sp_order y -> length Ms = sp_order y ->
  (forall k, k < sp_order y -> shape (nth k Ms (scalar r0)) = [nth k (sp_shape x) 0; nth k (sp_shape y) 0]) ->
  sp_order x = sp_order y -> sp_dot_with_rank_one_metric x y Ms = Some v ->
  v = bsum (sp_shape x) (fun is => bsum (sp_shape y) (fun js => rmul (rmul (val x is) (factors Ms is js)) (val y js))).
Proof. exact (fun R CR ZT => SparseP3.sp_dot_metric_spec). Qed.
Print Assumptions c13_dot_with_rank_one_metric.
Example c13_ex :
  option_map to_list (sp_full SA) = Some ([2;3], [4;0;0;0;0;-7]%Z) /\
  option_map (fun z => (sp_rows z, sp_data z)) (sp_add SA SB) = Some ([[0;0];[1;2];[0;1]]%Z, [4;-3;9]%Z) /\
  sp_dot SA SB = Some (-28)%Z /\
  option_map (fun z => (sp_rows z, sp_data z)) (sp_mul SA SB) = Some ([[1;2]]%Z, [-28]%Z) /\
  sp_eval_at_indices SA [[1;2];[0;1]]%Z = Some [-7;0]%Z /\
  option_map (fun z => (sp_rows z, sp_shape z)) (sp_transpose SA [1;0]) = Some ([[0;0];[2;1]]%Z, [3;2]) /\
  option_map (fun z => (sp_rows z, sp_data z, sp_shape z)) (sp_tensor_matrix_product SA [M32] (Some [0])) =
    Some ([[0;0];[0;2];[1;0];[1;2];[2;0];[2;2]]%Z, [4;-28;8;-35;12;-42]%Z, [3;3]) /\
  match sp_tensor_vector_product SA [[2;3]]%Z (Some [0]) with Some (inr z) => (sp_rows z, sp_data z, sp_shape z) = ([[0];[2]]%Z, [8;-21]%Z, [3]) | _ => False end.
Proof. vm_compute. repeat split. Qed.
Example c13_wf : wf SA /\ wf SB /\ sp_shape SA = sp_shape SB /\ sp_zd SA = false /\ 1 < sp_order SA /\ sp_rows SA <> [] /\
  shape M32 = [3; nth 0 (sp_shape SA) 0] /\ val SA [1;2] <> 0%Z.
Proof.
  split; [split; [reflexivity|split]|split; [split; [reflexivity|split]|]].
  - constructor; [simpl; intros [H|[]]; discriminate|repeat constructor; simpl; tauto].
  - constructor; [exists [0;0]; split; [repeat constructor|reflexivity]|constructor; [exists [1;2]; split; [repeat constructor|reflexivity]|constructor]].
  - constructor; [simpl; intros [H|[]]; discriminate|repeat constructor; simpl; tauto].
  - constructor; [exists [1;2]; split; [repeat constructor|reflexivity]|constructor; [exists [0;1]; split; [repeat constructor|reflexivity]|constructor]].
  - vm_compute. repeat split; try lia; discriminate.
Qed.

(** ** C14: diagonal tensors, against their dense conversion *)
Theorem c14_full : forall R (CR : CRing R) (v : list R) order, 0 < order ->
  tensor_is (dt_full (dt_make v order)) (repeat (length v) order) (diag_val v).
Proof. exact (fun R CR => DiagonalP.ft_diag_spec). Qed.
Print Assumptions c14_full.
Theorem c14_add_sub_mul_neg : forall R (CR : CRing R) (x y : dt R), 0 < dt_order x -> dt_order y = dt_order x ->
  length (dt_data x) = length (dt_data y) ->
  (exists z, dt_add x y = Some z /\ tensor_is (dt_full z) (shape (dt_full x)) (fun is => radd (get (dt_full x) is) (get (dt_full y) is))) /\
  (exists z, dt_sub x y = Some z /\ tensor_is (dt_full z) (shape (dt_full x)) (fun is => rsub (get (dt_full x) is) (get (dt_full y) is))) /\
  (exists z, dt_mul x y = Some z /\ tensor_is (dt_full z) (shape (dt_full x)) (fun is => rmul (get (dt_full x) is) (get (dt_full y) is))) /\
  tensor_is (dt_full (dt_neg x)) (shape (dt_full x)) (fun is => ropp (get (dt_full x) is)).
Proof.
  exact (fun R CR x y H1 H2 H3 => conj (DiagonalP.dt_add_spec x y H1 H2 H3) (conj (DiagonalP.dt_sub_spec x y H1 H2 H3)
    (conj (DiagonalP.dt_mul_spec x y H1 H2 H3) (DiagonalP.dt_neg_spec x H1)))).
Qed.
Print Assumptions c14_add_sub_mul_neg.
Theorem c14_dot : forall R (CR : CRing R) (x y : dt R), 0 < dt_order x -> dt_order y = dt_order x ->
  length (dt_data x) = length (dt_data y) ->
  dt_dot x y = Some (bsum (shape (dt_full x)) (fun is => rmul (get (dt_full x) is) (get (dt_full y) is))).
Proof. exact (fun R CR => DiagonalP.dt_dot_spec). Qed.
Print Assumptions c14_dot.
(** tensor_vector_product does not look at which dimensions are contracted: right for any of them *)
Theorem c14_tensor_vector_product : forall R (CR : CRing R) (x : dt R) vs dims, NoDup dims -> Forall (fun k => k < dt_order x) dims ->
  vs <> [] -> length vs = length dims -> length dims < dt_order x -> Forall (fun v => length v = length (dt_data x)) vs ->
  exists z, dt_tensor_vector_product x vs = Some (inr z) /\
    tensor_is (dt_full z) (sel 0 (shape (dt_full x)) (compl (dt_order x) dims))
      (fun is => bsum (sel 0 (shape (dt_full x)) dims) (fun js => rmul (get (dt_full x) (asm (dt_order x) dims js is)) (lfactors vs js))).
Proof. exact (fun R CR => DiagonalP.dt_tvp_spec). Qed.
Print Assumptions c14_tensor_vector_product.
Theorem c14_tensor_vector_product_all : forall R (CR : CRing R) (x : dt R) vs, 0 < dt_order x -> length vs = dt_order x ->
  Forall (fun v => length v = length (dt_data x)) vs ->
  dt_tensor_vector_product x vs = Some (inl (bsum (shape (dt_full x)) (fun is => rmul (get (dt_full x) is) (lfactors vs is)))).
Proof. exact (fun R CR => DiagonalP.dt_tvp_all). Qed.
Print Assumptions c14_tensor_vector_product_all.
Theorem c14_tensor_diagonal_matrix_product : forall R (CR : CRing R) (x : dt R) vs, 0 < dt_order x -> length vs = dt_order x ->
  Forall (fun v => length v = length (dt_data x)) vs ->
  exists z, dt_tensor_diagonal_matrix_product x vs = Some z /\
    tensor_is (dt_full z) (shape (dt_full x)) (fun is => rmul (get (dt_full x) is) (lfactors vs is)).
Proof. exact (fun R CR => DiagonalP.dt_tdmp_spec). Qed.
Print Assumptions c14_tensor_diagonal_matrix_product.
Theorem c14_cat : forall R (CR : CRing R) (x y : dt R), 0 < dt_order x -> dt_order y = dt_order x ->
  tensor_is (dt_full (dt_cat x y)) (cat_shape (seq 0 (dt_order x)) (shape (dt_full x)) (shape (dt_full y)))
    (cat_entry (seq 0 (dt_order x)) (dt_full x) (dt_full y)).
Proof. exact (fun R CR => DiagonalP.dt_cat_spec). Qed.
Print Assumptions c14_cat.
Theorem c14_kron : forall R (CR : CRing R) (x y : dt R), 0 < dt_order x -> dt_order y = dt_order x ->
  exists K, ft_kron (dt_full x) (dt_full y) = Some K /\ teq (dt_full (dt_kron x y)) K.
Proof. exact (fun R CR => DiagonalP.dt_kron_spec). Qed.
Print Assumptions c14_kron.
Theorem c14_transpose : forall R (CR : CRing R) (x : dt R) p, 0 < dt_order x -> Permutation p (seq 0 (dt_order x)) ->
  exists B, ft_transpose (dt_full x) p = Some B /\ teq (dt_full (dt_transpose x p)) B.
Proof. exact (fun R CR => DiagonalP.dt_transpose_spec). Qed.
Print Assumptions c14_transpose.
Theorem c14_eval_at_indices : forall R (CR : CRing R) (x : dt R) rows, 0 < dt_order x -> Forall (valid (shape (dt_full x))) rows ->
  dt_eval_at_indices x rows = Some (map (get (dt_full x)) rows).
Proof. exact (fun R CR => DiagonalP.dt_eval_at_indices_spec). Qed.
Print Assumptions c14_eval_at_indices.
Theorem c14_eval_diag : forall R (CR : CRing R) (x : dt R), 0 < dt_order x ->
  dt_eval_diag x None = Some (inl (map (fun i => get (dt_full x) (repeat i (dt_order x))) (seq 0 (length (dt_data x))))).
Proof. exact (fun R CR => DiagonalP.dt_eval_diag_all). Qed.
Print Assumptions c14_eval_diag.
(** the diagonal of an order-4 tensor in dimensions 0 and 2 has order 3; the code returns order 2 *)
Theorem c14_eval_diag_some_dims_refuted : exists (x : dt Z) y, dt_eval_diag x (Some [0;2]) = Some (inr y) /\
  dt_order y = 2 /\ exists T, ft_eval_diag (dt_full x) (Some [0;2]) = Some T /\ ndim T = 3.
Proof. exists (dt_make [1;2]%Z 4). eexists. split; [reflexivity|]. split; [reflexivity|]. eexists. split; [reflexivity|]. reflexivity. Qed.
Print Assumptions c14_eval_diag_some_dims_refuted.
(** <x, (M_1 x ... x M_d) y> : the code uses M_k^T for square matrices *)
Theorem c14_dot_with_rank_one_metric_refuted : exists (x y : dt Z) (Ms : list (nd Z)) v,
  dt_dot_with_rank_one_metric x y Ms = Some v /\
  Forall (fun M => shape M = [2;2]) Ms /\ length Ms = dt_order x /\
  v <> bsum (shape (dt_full x)) (fun is => bsum (shape (dt_full y)) (fun js =>
         rmul (rmul (get (dt_full x) is) (factors Ms is js)) (get (dt_full y) js))).
Proof.
  exists (dt_make [1;2]%Z 2), (dt_make [3;5]%Z 2), [of_list 0%Z [2;2] [1;2;3;4]%Z; of_list 0%Z [2;2] [1;0;1;1]%Z].
  eexists. split; [reflexivity|]. split; [repeat constructor|]. split; [reflexivity|]. vm_compute. discriminate.
Qed.
Print Assumptions c14_dot_with_rank_one_metric_refuted.
Example c14_ex : let x := dt_make [1;2]%Z 3 in let y := dt_make [10;20]%Z 3 in
  0 < dt_order x /\ dt_order y = dt_order x /\ length (dt_data x) = length (dt_data y) /\
  option_map dt_data (dt_add x y) = Some [11;22]%Z /\ dt_dot x y = Some 50%Z /\
  dt_data (dt_kron x y) = [10;20;20;40]%Z /\ dt_data (dt_cat x y) = [1;2;10;20]%Z /\
  to_list (dt_full x) = ([2;2;2], [1;0;0;0;0;0;0;2]%Z) /\
  option_map to_list (ft_transpose (dt_full x) [1;2;0]) = Some ([2;2;2], [1;0;0;0;0;0;0;2]%Z).
Proof. vm_compute. repeat split; lia. Qed.

(** ** C15: canonical tensors, against the sum of rank-one tensors they represent *)
Definition cwf {R} (x : cp R) : Prop := cp_ok (cp_core x) (cp_space x).
Definition cval {R} {CR : CRing R} (x : cp R) : list nat -> R := cp_val (cp_core x) (cp_space x).
Definition cdims {R} (x : cp R) : list nat := cp_dims (cp_space x).
Definition CX : cp Z := CP [2;3]%Z [of_list 0%Z [2;2] [1;2;0;1]%Z; of_list 0%Z [3;2] [1;1;2;0;5;1]%Z].
Definition CY : cp Z := CP [1;-4]%Z [of_list 0%Z [2;2] [0;2;1;1]%Z; of_list 0%Z [3;2] [1;0;0;4;1;1]%Z].
Theorem c15_full : forall R (CR : CRing R) (x : cp R), cwf x -> returns (cp_full x) (cdims x) (cval x).
Proof. exact (fun R CR => CanonicalP.cp_full_spec). Qed.
Print Assumptions c15_full.
Theorem c15_add_sub : forall R (CR : CRing R) (x y : cp R), cwf x -> cwf y -> cdims x = cdims y ->
  (exists z, cp_add x y = Some z /\ cwf z /\ cdims z = cdims x /\ forall is, cval z is = radd (cval x is) (cval y is)) /\
  (exists z, cp_sub x y = Some z /\ cwf z /\ cdims z = cdims x /\ forall is, cval z is = rsub (cval x is) (cval y is)) /\
  (exists z, cp_rsub x y = Some z /\ cwf z /\ cdims z = cdims x /\ forall is, cval z is = rsub (cval y is) (cval x is)).
Proof.
  exact (fun R CR x y H1 H2 H3 => conj (CanonicalP.cp_add_spec x y H1 H2 H3) (conj (CanonicalP.cp_sub_spec x y H1 H2 H3) (CanonicalP.cp_rsub_spec x y H1 H2 H3))).
Qed.
Print Assumptions c15_add_sub.
Theorem c15_neg : forall R (CR : CRing R) (x : cp R), cwf x ->
  cwf (cp_neg x) /\ cdims (cp_neg x) = cdims x /\ forall is, cval (cp_neg x) is = ropp (cval x is).
Proof. exact (fun R CR => CanonicalP.cp_neg_spec). Qed.
Print Assumptions c15_neg.
Theorem c15_tensor_matrix_product : forall R (CR : CRing R) (x : cp R) Ms dims, cwf x ->
  NoDup dims -> Forall (fun k => k < cp_order x) dims -> length Ms = length dims ->
  (forall k, k < length dims -> exists m, shape (nth k Ms (scalar r0)) = [m; nth (nth k dims 0) (cdims x) 0]) ->
  exists y, cp_tensor_matrix_product x Ms (Some dims) = Some y /\ cwf y /\
    cdims y = put dims (map (fun M => nth 0 (shape M) 0) Ms) (cdims x) /\
    forall is, valid (cdims y) is -> cval y is =
      bsum (sel 0 (cdims x) dims) (fun js => rmul (cval x (put dims js is)) (factors Ms (sel 0 is dims) js)).
Proof. exact (fun R CR => CanonicalP.cp_tmp_spec). Qed.
Print Assumptions c15_tensor_matrix_product.
Theorem c15_tensor_vector_product : forall R (CR : CRing R) (x : cp R) vs dims, cwf x ->
  NoDup dims -> Forall (fun k => k < cp_order x) dims -> length vs = length dims -> length dims < cp_order x ->
  (forall k, k < length dims -> shape (nth k vs (scalar r0)) = [nth (nth k dims 0) (cdims x) 0]) ->
  exists y, cp_tensor_vector_product x vs (Some dims) = Some (inr y) /\ cwf y /\
    cdims y = sel 0 (cdims x) (compl (cp_order x) dims) /\
    forall is, valid (cdims y) is -> cval y is =
      bsum (sel 0 (cdims x) dims) (fun js => rmul (cval x (asm (cp_order x) dims js is)) (vfactors vs js)).
Proof. exact (fun R CR => CanonicalP2.cp_tvp_spec). Qed.
Print Assumptions c15_tensor_vector_product.
Theorem c15_tensor_vector_product_all : forall R (CR : CRing R) (x : cp R) vs, cwf x -> length vs = cp_order x ->
  (forall k, k < cp_order x -> shape (nth k vs (scalar r0)) = [nth k (cdims x) 0]) ->
  exists G, cp_tensor_vector_product x vs None = Some (inl G) /\
    tensor_is G [] (fun _ => bsum (cdims x) (fun js => rmul (cval x js) (vfactors vs js))).
Proof. exact (fun R CR => CanonicalP2.cp_tvp_all). Qed.
Print Assumptions c15_tensor_vector_product_all.
Theorem c15_reduce_sum : forall R (CR : CRing R) (x : cp R) dims, cwf x -> NoDup dims -> Forall (fun k => k < cp_order x) dims ->
  length dims < cp_order x ->
  exists y, cp_reduce_sum x (Some dims) = Some (inr y) /\ cwf y /\
    cdims y = sel 0 (cdims x) (compl (cp_order x) dims) /\
    forall is, valid (cdims y) is -> cval y is = bsum (sel 0 (cdims x) dims) (fun js => cval x (asm (cp_order x) dims js is)).
Proof. exact (fun R CR => CanonicalP2.cp_reduce_sum_spec). Qed.
Print Assumptions c15_reduce_sum.
Theorem c15_squeeze : forall R (CR : CRing R) (x : cp R) dims, cwf x -> NoDup dims -> Forall (fun d => d < cp_order x) dims ->
  (forall d, In d dims -> nth d (cdims x) 0 = 1) -> length dims < cp_order x ->
  exists y, cp_squeeze x (Some dims) = Some (inr y) /\ cwf y /\ cdims y = sel 0 (cdims x) (compl (cp_order x) dims) /\
    forall is, length is = length (compl (cp_order x) dims) ->
      cval y is = cval x (asm (cp_order x) dims (repeat 0 (length dims)) is).
Proof. exact (fun R CR => CanonicalP2.cp_squeeze_some). Qed.
Print Assumptions c15_squeeze.
Theorem c15_eval_diag : forall R (CR : CRing R) (x : cp R) n, cwf x -> cdims x = repeat n (cp_order x) ->
  exists v x', cp_eval_diag x = Some (v, x') /\
    tensor_is v [n] (fun is => cval x (repeat (nth 0 is 0) (cp_order x))).
Proof. exact (fun R CR => CanonicalP2.cp_eval_diag_spec). Qed.
Print Assumptions c15_eval_diag.
(** evaluating the diagonal changes the tensor: a second evaluation gives other values *)
Theorem c15_eval_diag_twice_refuted : exists (x x' x'' : cp Z) v v', cwf x /\ cp_eval_diag x = Some (v, x') /\
  cp_eval_diag x' = Some (v', x'') /\ to_list v <> to_list v'.
Proof.
  exists (CP [1]%Z [of_list 0%Z [2;1] [1;2]%Z; of_list 0%Z [2;1] [3;5]%Z]). do 4 eexists.
  split; [split; [discriminate|repeat constructor; eexists; reflexivity]|].
  split; [reflexivity|]. split; [reflexivity|]. vm_compute. discriminate.
Qed.
Print Assumptions c15_eval_diag_twice_refuted.
Theorem c15_tensor_matrix_product_eval_diag : forall R (CR : CRing R) (x : cp R) Ms n, cwf x -> length Ms = cp_order x ->
  (forall k, k < cp_order x -> shape (nth k Ms (scalar r0)) = [n; nth k (cdims x) 0]) ->
  returns (cp_tensor_matrix_product_eval_diag x Ms) [n]
    (fun is => bsum (cdims x) (fun js => rmul (cval x js) (factors Ms (repeat (nth 0 is 0) (cp_order x)) js))).
Proof. exact (fun R CR => CanonicalP2.cp_tmp_eval_diag_spec). Qed.
Print Assumptions c15_tensor_matrix_product_eval_diag.
Theorem c15_storage : forall R (CR : CRing R) (x : cp R), cwf x ->
  cp_storage x = length (cp_core x) + length (cp_core x) * sumn (cdims x).
Proof. exact (fun R CR => CanonicalP2.cp_storage_spec). Qed.
Print Assumptions c15_storage.
Example c15_ex : cwf CX /\ cwf CY /\ cdims CX = cdims CY /\ cp_order CX = 2 /\
  option_map to_list (cp_full CX) = Some ([2;3], [2;4;2;19;4;11]%Z) /\
  option_map to_list (match cp_add CX CY with Some z => cp_full z | None => None end) = Some ([2;3], [-14;-10;-2;15;0;7]%Z) /\
  match cp_reduce_sum CX None with Some (inl g) => to_list g = ([], [42]%Z) | _ => False end.
Proof.
  split; [split; [discriminate|repeat constructor; eexists; reflexivity]|].
  split; [split; [discriminate|repeat constructor; eexists; reflexivity]|].
  vm_compute. repeat split.
Qed.

(** ** C16: inner product of canonical tensors *)
(** right when the two weight vectors are equal (in particular for norms) ... *)
Theorem c16_dot_equal_weights_partial : forall R (CR : CRing R) (x y : cp R), cwf x -> cwf y -> cdims x = cdims y ->
  cp_core x = cp_core y ->
  cp_dot x y = Some (bsum (cdims x) (fun is => rmul (cval x is) (cval y is))).
Proof. exact (fun R CR => CanonicalP2.cp_dot_same_core). Qed.
Print Assumptions c16_dot_equal_weights_partial.
(** ... or one of the tensors has rank one ... *)
Theorem c16_dot_rank_one_partial : forall R (CR : CRing R) (x y : cp R), cwf x -> cwf y -> cdims x = cdims y ->
  length (cp_core x) = 1 \/ length (cp_core y) = 1 ->
  cp_dot x y = Some (bsum (cdims x) (fun is => rmul (cval x is) (cval y is))).
Proof.
  exact (fun R CR x y H1 H2 H3 H => match H with or_introl h => CanonicalP2.cp_dot_rank_one_l x y H1 H2 H3 h | or_intror h => CanonicalP2.cp_dot_rank_one_r x y H1 H2 H3 h end).
Qed.
Print Assumptions c16_dot_rank_one_partial.
(** ... or each tensor has constant weights *)
Theorem c16_dot_constant_weights_partial : forall R (CR : CRing R) (x y : cp R) u v, cwf x -> cwf y -> cdims x = cdims y ->
  Forall (fun c => c = u) (cp_core x) -> Forall (fun c => c = v) (cp_core y) ->
  cp_dot x y = Some (bsum (cdims x) (fun is => rmul (cval x is) (cval y is))).
Proof. exact (fun R CR => CanonicalP2.cp_dot_const). Qed.
Print Assumptions c16_dot_constant_weights_partial.
(** in general not *)
Theorem c16_dot_refuted : exists (x y : cp Z) v, cwf x /\ cwf y /\ cdims x = cdims y /\ cp_dot x y = Some v /\
  v <> bsum (cdims x) (fun is => rmul (cval x is) (cval y is)).
Proof.
  exists CX, CY. eexists.
  split; [split; [discriminate|repeat constructor; eexists; reflexivity]|].
  split; [split; [discriminate|repeat constructor; eexists; reflexivity]|].
  split; [reflexivity|]. split; [reflexivity|]. vm_compute. discriminate.
Qed.
Print Assumptions c16_dot_refuted.
Example c16_ex : let y := CP [2;3]%Z (cp_space CY) in cwf y /\ cdims CX = cdims y /\ cp_core CX = cp_core y /\
  cp_dot CX y = Some (bsum (cdims CX) (fun is => Z.mul (cval CX is) (cval y is))).
Proof. split; [split; [discriminate|repeat constructor; eexists; reflexivity]|]. vm_compute. repeat split. Qed.
