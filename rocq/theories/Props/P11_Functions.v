(** Properties C32, C33, C38, C50, C51: functions on trees, evaluation cache, grids, partial evaluation,
    tensor-product quadrature. *)
From Coq Require Import List Arith Bool ZArith Lia Sorted.
From Verif.Base Require Import ListAux CRing Index.
From Verif.Model Require Import Sorting MultiIndices Numpy FullTensor Canonical Sparse DimensionTree Functions.
From Verif.Spec Require Import MultiIndicesSpec TensorSpec TreeSpec FunctionSpec.
From Verif.Proofs Require Import DimTreeP2 FunctionsP FunctionsP2 FunctionsP3.
Import ListNotations.

(** C32: CompositionalModelFunction.eval returns the value at the root of the composition along the tree
    (V is the type of the columns; a callable is given at every internal node) *)
Theorem c32_eval : forall (V : Type) t r, dim_tree t r -> forall f (g : nat -> list V -> V) x v0,
  length (d2i t) <= length x ->
  (forall n, node t n -> (exists c, edge t n c) -> f n = Some (g n)) ->
  exists v, cm_eval t f x = Some v /\ composition t g (fun mu => nth mu x v0) r v.
Proof.
  intros V t r HV f g x v0 Hl Hf. apply cm_eval_ok; auto. intros n Hn E. apply Hf; auto.
  destruct (children t n) as [|c cs] eqn:Ec.
  - exfalso. apply (DimTreeP.leaf_children t r HV n Hn) in Ec. congruence.
  - exists c. apply DimTreeP.in_children; auto. rewrite Ec. simpl. auto.
Qed.
Print Assumptions c32_eval.
(** that value is unique *)
Theorem c32_unique : forall (V : Type) t r, dim_tree t r -> forall (g : nat -> list V -> V) x v w,
  composition t g x r v -> composition t g x r w -> v = w.
Proof. intros V t r HV g x v w. apply (composition_unique t r HV). apply (proj1 HV). Qed.
Print Assumptions c32_unique.
(** at every sample: if the node functions act sample by sample (entry s of the result is g' of the entries s of
    the arguments), so does the result: its entry s is the composition at the s-th point *)
Theorem c32_pointwise : forall (A : Type) t r, dim_tree t r -> forall f g (g' : nat -> list A -> A) (x : list (list A)) a0 s,
  length (d2i t) <= length x ->
  (forall n, node t n -> (exists c, edge t n c) -> f n = Some (g n)) ->
  (forall n cols, nth s (g n cols) a0 = g' n (map (fun c => nth s c a0) cols)) ->
  exists out, cm_eval t f x = Some out /\ composition t g' (fun mu => nth s (nth mu x []) a0) r (nth s out a0).
Proof.
  intros A t r HV f g g' x a0 s Hl Hf Hg. destruct (c32_eval (list A) t r HV f g x [] Hl Hf) as [v [E C]]. exists v. split; auto.
  apply (composition_hom t r HV (fun c => nth s c a0) g g' (fun mu => nth mu x [])); auto. apply (proj1 HV).
Qed.
Print Assumptions c32_pointwise.
(** a single function is used at every internal node *)
Theorem c32_single_function : forall (V : Type) t r, dim_tree t r -> forall (g : list V -> V) x v0, length (d2i t) <= length x ->
  exists v, cm_eval t (cm_single t g) x = Some v /\ composition t (fun _ => g) (fun mu => nth mu x v0) r v.
Proof.
  intros V t r HV g x v0 Hl. apply cm_eval_ok; auto. intros n Hn E. unfold cm_single.
  replace (inb n (internal_nodes t)) with true; auto. symmetry. apply NumpyP.inb_spec. unfold internal_nodes. apply filter_In.
  split; [apply DimTreeP.in_nodes; auto|]. rewrite E. auto.
Qed.
Print Assumptions c32_single_function.
Example c32_ex : dim_tree (dt_balanced 3 [2;0;1]) 1 /\
  cm_eval (dt_balanced 3 [2;0;1]) (cm_single (dt_balanced 3 [2;0;1]) (fun l => 100 + fold_left (fun a b => 2 * a + b) l 0)) [1;2;5] = Some 313 /\
  cm_eval (dt_balanced 3 [2;0;1]) (cm_single (dt_balanced 3 [2;0;1]) (fun l => 100 + fold_left (fun a b => 2 * a + b) l 0)) [1;2] = None.
Proof.
  split; [apply dt_balanced_ok; [lia|]|]; [|split; vm_compute; reflexivity].
  apply Permutation.NoDup_Permutation; [repeat constructor; simpl; intuition lia|apply seq_NoDup|]. simpl. intuition lia.
Qed.

(** C33: for a function with scalar or vector values (at most one output axis of length other than 1), any sequence
    of calls to store_eval on the same object returns at each call the values of the function at the requested
    points; the points passed to eval are exactly those requested in no earlier call *)
Theorem c33_history_partial : forall (A B : Type) (eqA : forall a b : A, {a = b} + {a <> b}) (b0 : B) os (f : list A -> list B) d calls,
  length (filter (fun n => negb (n =? 1)) os) <= 1 -> 0 < prodn os -> 0 < d ->
  (forall p, length p = d -> length (f p) = prodn os) -> Forall (Forall (fun p => length p = d)) calls ->
  forall store,
  length (run_calls eqA b0 os (row_eval f) (Cache store [] []) calls) = length calls /\
  forall k, k < length calls -> nth k (run_calls eqA b0 os (row_eval f) (Cache store [] []) calls) ([], []) =
    (map f (nth k calls []),
     filter (fun p => if in_dec (list_eq_dec eqA) p (concat (firstn k calls)) then false else true) (nth k calls [])).
Proof. intros A B eqA b0 os f d calls. exact (run_calls_ok eqA b0 os f d calls). Qed.
Print Assumptions c33_history_partial.
Example c33_ex : run_calls Nat.eq_dec 0 [2] (row_eval (fun p => [nth 0 p 0 + nth 1 p 0; nth 0 p 0 * nth 1 p 0])) (Cache false [] [])
    [[[1;2];[3;4]]; [[3;4];[5;6];[1;2]]; [[5;6]]]
  = [([[3;2];[7;12]], [[1;2];[3;4]]); ([[7;12];[11;30];[3;2]], [[5;6]]); ([[11;30]], [])].
Proof. reflexivity. Qed.
(** with matrix values, the values at new points are scrambled from the second call on *)
Theorem c33_matrix_values_refuted : exists (f : list nat -> list nat) calls,
  (forall p, length p = 1 -> length (f p) = 4) /\
  map fst (run_calls Nat.eq_dec 0 [2;2] (row_eval f) (Cache false [] []) calls) <> map (map f) calls.
Proof.
  exists (fun p => [nth 0 p 0; 10 + nth 0 p 0; 20 + nth 0 p 0; 30 + nth 0 p 0]), [[[1]]; [[2]]].
  split; [reflexivity|]. vm_compute. discriminate.
Qed.
Print Assumptions c33_matrix_values_refuted.

(** C38: the rows of FullTensorGrid.array() are the points of the grid, the first index varying fastest *)
Theorem c38_array : forall (A : Type) (G : list (list (list A))), G <> [] -> Forall (fun g => g <> []) G ->
  exists X, g_array G = Some X /\ length X = prodn (map (@length _) G) /\ g_size G = length X /\
    forall is, valid (map (@length _) G) is -> nth (sub2indF (map (@length _) G) is) X [] = grid_point G is.
Proof.
  intros A G Hn HG. exists (map (grid_point G) (boxF (g_shape G))). split; [apply g_array_ok; auto|].
  rewrite map_length, boxF_length. split; auto. split; auto. intros is V.
  rewrite (map_nth_in _ _ _ []) by (rewrite boxF_length; apply sub2indF_lt; auto).
  rewrite nth_boxF by (apply sub2indF_lt; auto). rewrite ind2subF_sub2indF by auto. auto.
Qed.
Print Assumptions c38_array.
(** arrays at given multi-indices: FullTensorGrid.eval_at_indices, SparseTensorGrid.array *)
Theorem c38_array_at : forall (A : Type) (G : list (list (list A))) ind l, G <> [] -> mi_dim ind = length G ->
  mi_rows ind = map (map Z.of_nat) l -> Forall (valid (map (@length _) G)) l ->
  g_array_at G ind = Some (map (grid_point G) l) /\ sg_array G ind = Some (map (grid_point G) l).
Proof. intros A G ind l Hn Hd Hr HF. split; [apply g_array_at_ok; auto|apply sg_array_ok; auto]. Qed.
Print Assumptions c38_array_at.
(** an empty grid raises *)
Theorem c38_empty : forall (A : Type) (G : list (list (list A))), In [] G -> g_array G = None.
Proof. exact @g_array_empty. Qed.
Print Assumptions c38_empty.
(** eval_on_tensor_grid of a scalar function: the entry is of the tensor is the value at the is-th point *)
Theorem c38_eval_scalar : forall R (CR : CRing R) (A : Type) os (f : list A -> list R) dim (G : list (list (list A))),
  G <> [] -> Forall (fun g => g <> []) G -> forallb (fun n => n =? 1) os = true ->
  returns (eval_on_full_grid os f dim G) (map (@length _) G) (fun is => nth 0 (f (grid_point G is)) r0).
Proof. intros R CR A. exact eval_full_grid_scalar. Qed.
Print Assumptions c38_eval_scalar.
(** ... of a function with array values of shape os: the entry (is, js) is the entry js of the value (values are
    listed in C order) *)
Theorem c38_eval_array : forall R (CR : CRing R) (A : Type) os (f : list A -> list R) dim (G : list (list (list A))),
  G <> [] -> Forall (fun g => g <> []) G -> forallb (fun n => n =? 1) os = false ->
  returns (eval_on_full_grid os f dim G) (map (@length _) G ++ os)
    (fun ks => nth (sub2indC os (skipn (length G) ks)) (f (grid_point G (firstn (length G) ks))) r0).
Proof. intros R CR A. exact eval_full_grid_array. Qed.
Print Assumptions c38_eval_array.
(** ... on a SparseTensorGrid *)
Theorem c38_eval_sparse : forall R (CR : CRing R) (A : Type) (f : list A -> R) (G : list (list (list A))) ind l, G <> [] ->
  mi_dim ind = length G -> mi_rows ind = map (map Z.of_nat) l -> Forall (valid (map (@length _) G)) l -> NoDup l ->
  exists s, eval_on_sparse_grid f G ind = Some s /\ sp_shape s = map (@length _) G /\ sp_ok (sp_rows s) (sp_data s) (sp_shape s) /\
    (forall is, In is l -> sp_val (sp_rows s) (sp_data s) is = f (grid_point G is)) /\
    (forall is, ~ In is l -> sp_val (sp_rows s) (sp_data s) is = r0).
Proof. intros R CR A. exact eval_sparse_grid_ok. Qed.
Print Assumptions c38_eval_sparse.
Example c38_ex : g_array [[[1;2];[3;4]]; [[5];[6];[7]]] = Some [[1;2;5];[3;4;5];[1;2;6];[3;4;6];[1;2;7];[3;4;7]] /\
  option_map to_list (eval_on_full_grid [1] (fun p => [Z.of_nat (10 * nth 0 p 0 + nth 2 p 0)]) 3 [[[1;2];[3;4]]; [[5];[6];[7]]])
    = Some ([2;3], [15;35;16;36;17;37]%Z) /\
  sg_array [[[1;2];[3;4]]; [[5];[6];[7]]] (MI 2 [[1;0];[0;2]]%Z) = Some [[3;4;5];[1;2;7]].
Proof. repeat split. Qed.

(** C50: partial_evaluation(not_alpha, x_not_alpha): the returned function of x_alpha evaluates f at the points whose
    coordinates in alpha (the other dimensions, increasing) are those of x_alpha and whose coordinates in not_alpha
    are those of x_not_alpha; the values are listed with the index of x_alpha varying fastest *)
Theorem c50_partial_evaluation : forall (A B : Type) dim not_alpha alpha (f : list A -> B) xn xa,
  NoDup not_alpha -> Forall (fun k => k < dim) not_alpha ->
  StronglySorted lt alpha -> (forall k, In k alpha <-> k < dim /\ ~ In k not_alpha) ->
  xa <> [] -> xn <> [] -> Forall (fun p => length p = length alpha) xa -> Forall (fun p => length p = length not_alpha) xn ->
  exists ps, pe_fun dim not_alpha f xn xa = Some (map f ps) /\ length ps = length xa * length xn /\
    forall i j, i < length xa -> j < length xn ->
      length (nth (i + length xa * j) ps []) = dim /\
      (forall k, k < length alpha -> nth_error (nth (i + length xa * j) ps []) (nth k alpha 0) = nth_error (nth i xa []) k) /\
      (forall k, k < length not_alpha -> nth_error (nth (i + length xa * j) ps []) (nth k not_alpha 0) = nth_error (nth j xn []) k).
Proof. intros A B. exact pe_fun_ok. Qed.
Print Assumptions c50_partial_evaluation.
Example c50_ex : pe_fun 4 [3;1] (fun p => p) [[30;10]] [[0;20];[5;25]] = Some [[0;10;20;30];[5;10;25;30]].
Proof. reflexivity. Qed.

(** C51: tensor-product quadrature: the weights on the grid are the products of the weights, in the order of the
    points, and integrate returns the weighted sum of the values at the points of the grid *)
Theorem c51_weights : forall R (CR : CRing R) (W : list (list R)), W <> [] ->
  exists w, weights_on_grid W = Some w /\ length w = prodn (map (@length R) W) /\
    forall is, valid (map (@length R) W) is -> nth (sub2indF (map (@length R) W) is) w r0 = lfactors W is.
Proof.
  intros R CR W Hn. eexists. split; [apply weights_ok; auto|]. rewrite map_length, boxF_length. split; auto. intros is V.
  rewrite (map_nth_in _ _ _ []) by (rewrite boxF_length; apply sub2indF_lt; auto).
  rewrite nth_boxF by (apply sub2indF_lt; auto). rewrite ind2subF_sub2indF by auto. reflexivity.
Qed.
Print Assumptions c51_weights.
Theorem c51_integrate : forall R (CR : CRing R) (A : Type) (G : list (list (list A))) (W : list (list R)) f,
  G <> [] -> Forall (fun g => g <> []) G -> map (@length R) W = map (@length _) G ->
  tp_integrate G W f = Some (bsum (map (@length _) G) (fun is => rmul (f (grid_point G is)) (lfactors W is))).
Proof. intros R CR A. exact tp_integrate_ok. Qed.
Print Assumptions c51_integrate.
(** if the one-dimensional rules integrate the functions phi j k exactly (value v j k), then the tensor rule integrates
    exactly every sum of products  sum_j c_j prod_k phi_jk(x_k): it returns sum_j c_j prod_k v_jk *)
Theorem c51_exact : forall R (CR : CRing R) (A : Type) (G : list (list (list A))) (W : list (list R)) f m c phi v,
  G <> [] -> Forall (fun g => g <> []) G -> map (@length R) W = map (@length _) G ->
  (forall is, valid (map (@length _) G) is -> f (grid_point G is) =
     rsum m (fun j => rmul (c j) (lprod (seq 0 (length G)) (fun k => phi j k (nth (nth k is 0) (nth k G []) []))))) ->
  (forall j k, j < m -> k < length G ->
     rsum (length (nth k G [])) (fun i => rmul (phi j k (nth i (nth k G []) [])) (nth i (nth k W []) r0)) = v j k) ->
  tp_integrate G W f = Some (rsum m (fun j => rmul (c j) (lprod (seq 0 (length G)) (v j)))).
Proof.
  intros R CR A G W f m c phi v Hn HG HW Hf Hv. rewrite (tp_integrate_products G W f m c phi Hn HG HW Hf). f_equal.
  apply rsum_ext. intros j Hj. f_equal. apply lprod_ext. intros k Hk. apply in_seq in Hk. apply Hv; lia.
Qed.
Print Assumptions c51_exact.
Example c51_ex : weights_on_grid [[2;3];[5;7;11]]%Z = Some [10;15;14;21;22;33]%Z /\
  tp_integrate [[[1];[2]]; [[0];[1];[4]]]%Z [[2;3];[5;7;11]]%Z (fun p => nth 0 p 0 * nth 1 p 0)%Z = Some 408%Z.
Proof. split; vm_compute; reflexivity. Qed.
