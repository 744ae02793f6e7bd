(** Properties C09-C12: dense tensors (tensap/tensor_algebra/tensors/full_tensor.py).
    Entries in any commutative ring; the vocabulary is in Spec/TensorSpec.v. *)
From Coq Require Import List Arith ZArith Lia Bool Permutation.
From Verif.Base Require Import ListAux CRing Index.
From Verif.Model Require Import Numpy FullTensor.
From Verif.Spec Require Import TensorSpec.
From Verif.Proofs Require NumpyP FullTensorP FullTensorP2 FullTensorP3 EinsumP3.
Import ListNotations.

Definition T23 : nd Z := of_list 0%Z [2;3] [1;2;3;4;5;6]%Z.
Definition S23 : nd Z := of_list 0%Z [2;3] [10;0;-1;7;2;3]%Z.
Definition T222 : nd Z := of_list 0%Z [2;2;2] [1;2;3;4;5;6;7;8]%Z.

(** ** C09 *)
Theorem c09_add_sub_mul_entries : forall R (CR : CRing R) (A B : nd R), shape A = shape B ->
  returns (ft_add A B) (shape A) (fun is => radd (get A is) (get B is)) /\
  returns (ft_sub A B) (shape A) (fun is => rsub (get A is) (get B is)) /\
  returns (ft_mul A B) (shape A) (fun is => rmul (get A is) (get B is)) /\
  returns (ft_hadamard A B) (shape A) (fun is => rmul (get A is) (get B is)) /\
  returns (ft_rsub A B) (shape A) (fun is => rsub (get B is) (get A is)) /\
  tensor_is (ft_neg A) (shape A) (fun is => ropp (get A is)).
Proof.
  exact (fun R CR A B H => conj (NumpyP.np_binop_same radd A B H) (conj (NumpyP.np_binop_same rsub A B H)
    (conj (NumpyP.np_binop_same rmul A B H) (conj (NumpyP.np_binop_same rmul A B H)
    (conj (FullTensorP3.ft_rsub_same A B H) (conj eq_refl (fun is _ => eq_refl))))))).
Qed.
Print Assumptions c09_add_sub_mul_entries.
Theorem c09_scalar_entries : forall R (CR : CRing R) (A : nd R) (c : R),
  returns (ft_add A (scalar c)) (shape A) (fun is => radd (get A is) c) /\
  returns (ft_sub A (scalar c)) (shape A) (fun is => rsub (get A is) c) /\
  returns (ft_mul A (scalar c)) (shape A) (fun is => rmul (get A is) c) /\
  returns (ft_rsub A (scalar c)) (shape A) (fun is => rsub c (get A is)).
Proof.
  exact (fun R CR A c => conj (FullTensorP3.np_binop_scalar_r radd A c) (conj (FullTensorP3.np_binop_scalar_r rsub A c)
    (conj (FullTensorP3.np_binop_scalar_r rmul A c) (FullTensorP3.ft_rsub_scalar A c)))).
Qed.
Print Assumptions c09_scalar_entries.
(** different sizes (none of them 1) along a dimension: refused *)
Theorem c09_mismatch_error : forall R (CR : CRing R) (A B : nd R) k,
  ndim A = ndim B -> k < ndim A -> nth k (shape A) 0 <> nth k (shape B) 0 ->
  nth k (shape A) 0 <> 1 -> nth k (shape B) 0 <> 1 ->
  ft_add A B = None /\ ft_sub A B = None /\ ft_mul A B = None.
Proof.
  exact (fun R CR A B k H1 H2 H3 H4 H5 => conj (FullTensorP3.np_binop_mismatch radd A B k H1 H2 H3 H4 H5)
    (conj (FullTensorP3.np_binop_mismatch rsub A B k H1 H2 H3 H4 H5) (FullTensorP3.np_binop_mismatch rmul A B k H1 H2 H3 H4 H5))).
Qed.
Print Assumptions c09_mismatch_error.
Example c09_ex : shape T23 = shape S23 /\
  option_map to_list (ft_add T23 S23) = Some ([2;3], [11;2;2;11;7;9]%Z) /\
  option_map to_list (ft_rsub T23 S23) = Some ([2;3], [9;-2;-4;3;-3;-3]%Z) /\
  option_map to_list (ft_mul T23 (scalar 3%Z)) = Some ([2;3], [3;6;9;12;15;18]%Z) /\
  ft_add T23 (of_list 0%Z [2;2] []) = None.
Proof. vm_compute. repeat split. Qed.

(** ** C10 *)
(** transpose(p): axis p[k] of the input is axis k of the output *)
Theorem c10_transpose_moves_axes : forall R (CR : CRing R) (A : nd R) p, Permutation p (seq 0 (ndim A)) ->
  exists B, ft_transpose A p = Some B /\ shape B = sel 0 (shape A) p /\
    forall is, valid (shape A) is -> get B (sel 0 is p) = get A is.
Proof.
  exact (fun R CR A p Hp => let (B, H) := FullTensorP.ft_transpose_spec A p Hp in
    ex_intro _ B (conj (proj1 H) (conj (proj1 (proj2 H)) (proj1 (proj2 (proj2 H)))))).
Qed.
Print Assumptions c10_transpose_moves_axes.
Theorem c10_transpose_error : forall R (CR : CRing R) (A : nd R) p,
  ~ Permutation p (seq 0 (ndim A)) -> ft_transpose A p = None.
Proof. exact (fun R CR => FullTensorP.ft_transpose_none). Qed.
Print Assumptions c10_transpose_error.
Theorem c10_itranspose_undoes_transpose : forall R (CR : CRing R) (A : nd R) p B,
  Permutation p (seq 0 (ndim A)) -> ft_transpose A p = Some B ->
  exists C, ft_itranspose B p = Some C /\ teq C A.
Proof. exact (fun R CR => FullTensorP.ft_itranspose_transpose). Qed.
Print Assumptions c10_itranspose_undoes_transpose.
Theorem c10_transpose_undoes_itranspose : forall R (CR : CRing R) (A : nd R) p B,
  Permutation p (seq 0 (ndim A)) -> ft_itranspose A p = Some B ->
  exists C, ft_transpose B p = Some C /\ teq C A.
Proof. exact (fun R CR => FullTensorP.ft_transpose_itranspose). Qed.
Print Assumptions c10_transpose_undoes_itranspose.
Theorem c10_reshape_column_major : forall R (CR : CRing R) (A : nd R) s,
  (prodn s = prodn (shape A) -> exists B, ft_reshape A s = Some B /\ shape B = s /\
     forall is js, valid s is -> valid (shape A) js -> sub2indF s is = sub2indF (shape A) js -> get B is = get A js) /\
  (prodn s <> prodn (shape A) -> ft_reshape A s = None).
Proof. exact (fun R CR A s => conj (FullTensorP.ft_reshape_spec A s) (FullTensorP.ft_reshape_none A s)). Qed.
Print Assumptions c10_reshape_column_major.
Theorem c10_matricize_layout : forall R (CR : CRing R) (A : nd R) d1 d2, Permutation (d1 ++ d2) (seq 0 (ndim A)) ->
  exists M, ft_matricize A d1 (Some d2) = Some M /\
    shape M = [prodn (sel 0 (shape A) d1); prodn (sel 0 (shape A) d2)] /\
    forall is, valid (shape A) is ->
      get M [sub2indF (sel 0 (shape A) d1) (sel 0 is d1); sub2indF (sel 0 (shape A) d2) (sel 0 is d2)] = get A is.
Proof. exact (fun R CR => FullTensorP.ft_matricize_spec). Qed.
Print Assumptions c10_matricize_layout.
(** the default second group is the remaining dimensions in increasing order *)
Theorem c10_matricize_default : forall R (CR : CRing R) (A : nd R) d1,
  ft_matricize A d1 None = ft_matricize A d1 (Some (filter (fun k => negb (existsb (Nat.eqb k) d1)) (seq 0 (ndim A)))).
Proof. exact (fun R CR => FullTensorP.ft_matricize_default). Qed.
Print Assumptions c10_matricize_default.
Example c10_ex : Permutation [1;2;0] (seq 0 (ndim T222)) /\
  option_map to_list (ft_transpose T222 [1;2;0]) = Some ([2;2;2], [1;3;5;7;2;4;6;8]%Z) /\
  option_map to_list (ft_itranspose T222 [1;2;0]) = Some ([2;2;2], [1;5;2;6;3;7;4;8]%Z) /\
  option_map to_list (ft_matricize T222 [2;0] None) = Some ([4;2], [1;5;2;6;3;7;4;8]%Z) /\
  option_map to_list (ft_reshape T23 [3;2]) = Some ([3;2], [1;2;3;4;5;6]%Z).
Proof.
  split; [|vm_compute; repeat split].
  change (Permutation [1;2;0] [0;1;2]). apply Permutation_sym. apply (Permutation_middle [1;2] [] 0).
Qed.

(** ** C11 *)
Theorem c11_tensordot_is_contraction : forall R (CR : CRing R) (A B : nd R) d1 d2, NoDup d1 -> NoDup d2 ->
  Forall (fun k => k < ndim A) d1 -> Forall (fun k => k < ndim B) d2 ->
  sel 0 (shape A) d1 = sel 0 (shape B) d2 ->
  exists C, ft_tensordot A B d1 d2 = Some C /\
    shape C = sel 0 (shape A) (compl (ndim A) d1) ++ sel 0 (shape B) (compl (ndim B) d2) /\
    forall is js, valid (sel 0 (shape A) (compl (ndim A) d1)) is -> valid (sel 0 (shape B) (compl (ndim B) d2)) js ->
      get C (is ++ js) = bsum (sel 0 (shape A) d1)
               (fun ks => rmul (get A (asm (ndim A) d1 ks is)) (get B (asm (ndim B) d2 ks js))).
Proof. exact (fun R CR => FullTensorP3.ft_tensordot_spec). Qed.
Print Assumptions c11_tensordot_is_contraction.
Theorem c11_tensordot_errors : forall R (CR : CRing R) (A B C : nd R) d1 d2, ft_tensordot A B d1 d2 = Some C ->
  NoDup d1 /\ NoDup d2 /\ Forall (fun k => k < ndim A) d1 /\ Forall (fun k => k < ndim B) d2 /\
  sel 0 (shape A) d1 = sel 0 (shape B) d2.
Proof. exact (fun R CR A B C d1 d2 => FullTensorP.np_tensordot_some A B d1 d2 C). Qed.
Print Assumptions c11_tensordot_errors.
(** M_k acts along dimension dims[k]; dimensions keep their place (dims in any order) *)
Theorem c11_tensor_matrix_product : forall R (CR : CRing R) (A : nd R) Ms dims,
  NoDup dims -> Forall (fun k => k < ndim A) dims -> length Ms = length dims ->
  (forall k, k < length dims -> exists m, shape (nth k Ms (scalar r0)) = [m; nth (nth k dims 0) (shape A) 0]) ->
  returns (ft_tensor_matrix_product A Ms (Some dims))
    (put dims (map (fun M => nth 0 (shape M) 0) Ms) (shape A))
    (fun is => bsum (sel 0 (shape A) dims) (fun js => rmul (get A (put dims js is)) (factors Ms (sel 0 is dims) js))).
Proof. exact (fun R CR => FullTensorP.ft_tensor_matrix_product_spec). Qed.
Print Assumptions c11_tensor_matrix_product.
Theorem c11_tensor_matrix_product_default : forall R (CR : CRing R) (A : nd R) Ms,
  ft_tensor_matrix_product A Ms None = ft_tensor_matrix_product A Ms (Some (seq 0 (ndim A))).
Proof. exact (fun R CR => FullTensorP.ft_tensor_matrix_product_default). Qed.
Print Assumptions c11_tensor_matrix_product_default.
Theorem c11_tensor_vector_product : forall R (CR : CRing R) (A : nd R) vs dims,
  NoDup dims -> Forall (fun k => k < ndim A) dims -> length vs = length dims ->
  (forall k, k < length dims -> shape (nth k vs (scalar r0)) = [nth (nth k dims 0) (shape A) 0]) ->
  returns (ft_tensor_vector_product A vs (Some dims))
    (sel 0 (shape A) (compl (ndim A) dims))
    (fun is => bsum (sel 0 (shape A) dims) (fun js => rmul (get A (asm (ndim A) dims js is)) (vfactors vs js))).
Proof. exact (fun R CR => FullTensorP.ft_tensor_vector_product_spec). Qed.
Print Assumptions c11_tensor_vector_product.
Theorem c11_tensor_diagonal_matrix_product : forall R (CR : CRing R) (A : nd R) vs dims,
  NoDup dims -> Forall (fun k => k < ndim A) dims -> length vs = length dims ->
  (forall k, k < length dims -> shape (nth k vs (scalar r0)) = [nth (nth k dims 0) (shape A) 0]) ->
  returns (ft_tensor_diagonal_matrix_product A vs (Some dims)) (shape A)
    (fun is => rmul (get A is) (vfactors_at vs dims is)).
Proof. exact (fun R CR => FullTensorP3.ft_tdmp_spec). Qed.
Print Assumptions c11_tensor_diagonal_matrix_product.
Theorem c11_dot_inner_product : forall R (CR : CRing R) (A B : nd R), shape A = shape B ->
  ft_dot A B = Some (bsum (shape A) (fun is => rmul (get A is) (get B is))).
Proof. exact (fun R CR => FullTensorP.ft_dot_spec). Qed.
Print Assumptions c11_dot_inner_product.
Theorem c11_reduce_sum : forall R (CR : CRing R) (A : nd R) dims, NoDup dims -> Forall (fun k => k < ndim A) dims ->
  returns (ft_reduce_sum A (Some dims)) (put dims (repeat 1 (length dims)) (shape A))
    (fun is => bsum (sel 0 (shape A) dims) (fun js => get A (put dims js is))).
Proof. exact (fun R CR => FullTensorP3.ft_reduce_sum_spec). Qed.
Print Assumptions c11_reduce_sum.
Example c11_ex :
  let M := of_list 0%Z [3;2] [1;0;2;0;1;-1]%Z in let N := of_list 0%Z [1;2] [1;10]%Z in
  (NoDup [2;0] /\ Forall (fun k => k < ndim T222) [2;0]) /\
  option_map to_list (ft_tensor_matrix_product T222 [M; N] (Some [2;0])) =
    Some ([1;2;3], [21;43;65;87;-23;-1]%Z) /\
  option_map to_list (ft_tensordot T23 S23 [0] [0]) = Some ([3;3], [10;30;50;13;25;37;8;18;28]%Z) /\
  option_map to_list (ft_tensor_vector_product T222 [of_list 0%Z [2] [1;10]%Z] (Some [1])) = Some ([2;2], [31;42;75;86]%Z) /\
  option_map to_list (ft_tensor_diagonal_matrix_product T23 [of_list 0%Z [3] [1;2;3]%Z] (Some [1])) = Some ([2;3], [1;2;6;8;15;18]%Z) /\
  option_map to_list (ft_reduce_sum T23 (Some [0])) = Some ([1;3], [3;7;11]%Z) /\
  ft_dot T23 S23 = Some 63%Z.
Proof.
  cbv zeta. split.
  - split; [repeat constructor; simpl; lia|]. repeat constructor; vm_compute; lia.
  - vm_compute. repeat split.
Qed.

(** ** C12 *)
Theorem c12_cat_block : forall R (CR : CRing R) (A B : nd R) dims, ndim A = ndim B -> Forall (fun k => k < ndim A) dims ->
  (forall k, k < ndim A -> ~ In k dims -> nth k (shape A) 0 = nth k (shape B) 0) ->
  returns (ft_cat A B (Some dims)) (cat_shape dims (shape A) (shape B)) (cat_entry dims A B).
Proof. exact (fun R CR => FullTensorP2.ft_cat_spec). Qed.
Print Assumptions c12_cat_block.
Theorem c12_kron_entries : forall R (CR : CRing R) (A B : nd R), ndim A = ndim B ->
  returns (ft_kron A B) (map (fun p => fst p * snd p) (combine (shape A) (shape B)))
    (fun is => rmul (get A (map (fun p => fst p / snd p) (combine is (shape B))))
                    (get B (map (fun p => fst p mod snd p) (combine is (shape B))))).
Proof. exact (fun R CR => FullTensorP2.ft_kron_spec). Qed.
Print Assumptions c12_kron_entries.
Theorem c12_sub_tensor : forall R (CR : CRing R) (A : nd R) (sl : list slice), length sl = ndim A ->
  (forall j, j < ndim A -> slice_ok (nth j (shape A) 0) (nth j sl All)) ->
  returns (ft_sub_tensor A sl)
    (map (fun p => slice_len (fst p) (snd p)) (combine (shape A) sl))
    (fun is => get A (map (fun p => slice_idx (fst p) (snd p)) (combine sl is))).
Proof. exact (fun R CR => FullTensorP2.ft_sub_tensor_spec). Qed.
Print Assumptions c12_sub_tensor.
Theorem c12_eval_diag_all : forall R (CR : CRing R) (A : nd R) n, 0 < ndim A -> shape A = repeat n (ndim A) ->
  returns (ft_eval_diag A None) [n] (fun is => get A (repeat (nth 0 is 0) (ndim A))).
Proof. exact (fun R CR => FullTensorP3.ft_eval_diag_all). Qed.
Print Assumptions c12_eval_diag_all.
(** diagonal over a subset of the dimensions (in any order): the diagonal index takes the place of
    the smallest of them *)
Theorem c12_eval_diag_some_dims : forall R (CR : CRing R) (A : nd R) n dims m0,
  NoDup dims -> Forall (fun k => k < ndim A) dims ->
  1 < length dims < ndim A -> 0 < n -> (forall k, In k dims -> nth k (shape A) 0 = n) ->
  In m0 dims -> (forall k, In k dims -> m0 <= k) ->
  exists B, ft_eval_diag A (Some dims) = Some B /\
    shape B = ins m0 n (sel 0 (shape A) (compl (ndim A) dims)) /\
    forall i is, i < n -> valid (sel 0 (shape A) (compl (ndim A) dims)) is ->
      get B (ins m0 i is) = get A (asm (ndim A) dims (repeat i (length dims)) is).
Proof. exact (fun R CR => FullTensorP3.ft_eval_diag_sub). Qed.
Print Assumptions c12_eval_diag_some_dims.
Theorem c12_eval_diag_error : forall R (CR : CRing R) (A : nd R) d0 d1 dims,
  In d1 dims -> nth d1 (shape A) 0 <> nth d0 (shape A) 0 -> ft_eval_diag A (Some (d0 :: dims)) = None.
Proof. exact (fun R CR => FullTensorP3.ft_eval_diag_mismatch). Qed.
Print Assumptions c12_eval_diag_error.
(** eval_at_indices with all the dimensions, listed in any order *)
Theorem c12_eval_at_indices_all_dims : forall R (CR : CRing R) (A : nd R) dims rows,
  Permutation dims (seq 0 (ndim A)) -> Forall (fun r => valid (sel 0 (shape A) dims) r) rows ->
  returns (ft_eval_at_indices A (ndim A) rows (Some dims)) [length rows]
    (fun is => get A (asm (ndim A) dims (nth (nth 0 is 0) rows []) [])).
Proof. exact (fun R CR => FullTensorP3.ft_eval_all_some). Qed.
Print Assumptions c12_eval_at_indices_all_dims.
Theorem c12_eval_at_indices_default : forall R (CR : CRing R) (A : nd R) rows, Forall (valid (shape A)) rows ->
  returns (ft_eval_at_indices A (ndim A) rows None) [length rows] (fun is => get A (nth (nth 0 is 0) rows [])).
Proof. exact (fun R CR => FullTensorP3.ft_eval_all_none). Qed.
Print Assumptions c12_eval_at_indices_default.
Theorem c12_eval_at_indices_one_dim : forall R (CR : CRing R) (A : nd R) d ks, d < ndim A -> 1 < ndim A ->
  Forall (fun k => k < nth d (shape A) 0) ks ->
  returns (ft_eval_at_indices A 1 (map (fun k => [k]) ks) (Some [d])) (upd d (length ks) (shape A))
    (fun is => get A (upd d (nth (nth d is 0) ks 0) is)).
Proof. exact (fun R CR => FullTensorP3.ft_eval_single). Qed.
Print Assumptions c12_eval_at_indices_one_dim.
(** FINDING: with several but not all dimensions the entries returned are not the requested ones
    (row-major linear index into a column-major matricisation).  Requesting entry (0,1) of the
    first two dimensions of a 2x2x2 tensor returns the entries (1,0,:). *)
Theorem c12_eval_at_indices_some_dims_refuted :
  exists (A B : nd Z) (is : list nat), shape A = [2;2;2] /\
    ft_eval_at_indices A 2 [[0;1]] (Some [0;1]) = Some B /\ shape B = [1;2] /\ valid [1;2] is /\
    get B is <> get A [0; 1; nth 1 is 0].
Proof.
  refine (let B := match ft_eval_at_indices T222 2 [[0;1]] (Some [0;1]) with Some B => B | None => T222 end in
          ex_intro _ T222 (ex_intro _ B (ex_intro _ [0;0] (conj eq_refl (conj eq_refl (conj eq_refl (conj _ _))))))).
  - repeat constructor.
  - vm_compute. discriminate.
Qed.
Print Assumptions c12_eval_at_indices_some_dims_refuted.
(** it returns the requested entries when the row-major and column-major positions agree *)
Theorem c12_eval_at_indices_some_dims_partial : forall R (CR : CRing R) (A : nd R) dims rows m0,
  NoDup dims -> Forall (fun k => k < ndim A) dims -> 1 < length dims < ndim A -> rows <> [] ->
  Forall (fun r => valid (sel 0 (shape A) dims) r) rows ->
  In m0 dims -> (forall k, In k dims -> m0 <= k) ->
  Forall (fun r => sub2indC (sel 0 (shape A) (sel 0 dims (np_argsort dims))) (sel 0 r (np_argsort dims))
                 = sub2indF (sel 0 (shape A) (sel 0 dims (np_argsort dims))) (sel 0 r (np_argsort dims))) rows ->
  exists B, ft_eval_at_indices A (length dims) rows (Some dims) = Some B /\
    shape B = ins m0 (length rows) (sel 0 (shape A) (compl (ndim A) dims)) /\
    forall t is, t < length rows -> valid (sel 0 (shape A) (compl (ndim A) dims)) is ->
      get B (ins m0 t is) = get A (asm (ndim A) dims (nth t rows []) is).
Proof. exact (fun R CR => FullTensorP3.ft_eval_sub). Qed.
Print Assumptions c12_eval_at_indices_some_dims_partial.
(** tensor_matrix_product_eval_diag(Ms, dims): the new first index i selects the i-th rows of all the matrices *)
Theorem c12_tensor_matrix_product_eval_diag : forall R (CR : CRing R) (A : nd R) Ms dims q,
  Forall (fun k => k < ndim A) dims -> NoDup dims -> dims <> [] -> length Ms = length dims ->
  (forall i, i < length dims -> shape (nth i Ms (scalar r0)) = [q; nth (nth i dims 0) (shape A) 0]) ->
  exists C, ft_tmp_eval_diag A Ms (Some dims) = Some C /\ shape C = q :: sel 0 (shape A) (compl (ndim A) dims) /\
    forall i a, i < q -> valid (sel 0 (shape A) (compl (ndim A) dims)) a ->
      get C (i :: a) = bsum (sel 0 (shape A) dims) (fun ks => rmul (get A (asm (ndim A) dims ks a)) (factors Ms (repeat i (length dims)) ks)).
Proof. intros R CR A Ms dims q HF ND NE LM HM. exact (EinsumP3.ft_tmp_eval_diag_ok A Ms dims q HF ND HM LM NE). Qed.
Print Assumptions c12_tensor_matrix_product_eval_diag.
Example c12_ex_tmp_eval_diag : option_map to_list (ft_tmp_eval_diag T222 [of_list 0%Z [2;2] [1;1;0;2]%Z; of_list 0%Z [2;2] [3;0;1;1]%Z] (Some [2;0])) = Some ([2;2], [5;14;13;20]%Z).
Proof. vm_compute. reflexivity. Qed.
Example c12_ex :
  option_map to_list (ft_cat T23 S23 (Some [1])) = Some ([2;6], [1;2;3;4;5;6;10;0;-1;7;2;3]%Z) /\
  option_map to_list (ft_cat T23 (of_list 0%Z [1;1] [9]%Z) (Some [0;1])) = Some ([3;4], [1;2;0;3;4;0;5;6;0;0;0;9]%Z) /\
  option_map to_list (ft_kron (of_list 0%Z [2;1] [1;10]%Z) T23) = Some ([4;3], [1;2;10;20;3;4;30;40;5;6;50;60]%Z) /\
  option_map to_list (ft_sub_tensor T23 [Pick [1]; Pick [2;0]]) = Some ([1;2], [6;2]%Z) /\
  option_map to_list (ft_eval_diag T222 None) = Some ([2], [1;8]%Z) /\
  option_map to_list (ft_eval_diag T222 (Some [2;0])) = Some ([2;2], [1;6;3;8]%Z) /\
  option_map to_list (ft_eval_at_indices T23 2 [[2;0];[1;1]] (Some [1;0])) = Some ([2], [5;4]%Z).
Proof. vm_compute. repeat split. Qed.
