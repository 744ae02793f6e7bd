(** Properties C39, C54, C55: tensor-product functional bases and functional tensors (approximation/bases/*.py,
    functions/functional_tensor.py).  Vocabulary: Spec/FunctionalSpec.v.  A basis b has [fb_card b] functions of
    [fb_ndim b] variables, [fb_at b p k] is the value of its k-th function at the point p; the points of the arrays
    are lists of rows. *)
From Coq Require Import List Arith ZArith Lia Bool.
From Verif.Base Require Import ListAux CRing Index.
From Verif.Model Require Import MultiIndices Numpy FullTensor Diagonal Canonical Sparse DimensionTree TreeBased Functions FunctionalBases.
From Verif.Spec Require Import MultiIndicesSpec TensorSpec TreeTensorSpec FunctionSpec FunctionalSpec.
From Verif.Proofs Require FunctionalP FunctionalP2 FunctionalP3 FunctionalP4 FunctionalP5 FunctionalP6 FunctionalP7.
Import ListNotations.
Local Open Scope cr_scope.

(** ** evaluation *)
(** SparseTensorProductFunctionalBasis.eval: entry (p, k) is the product function of the k-th multi-index at the
    p-th point *)
Theorem c39_sparse_eval : forall {R} {CR : CRing R} {A V} (bs : list (fbasis R A V)) (I : mi) l x, bs <> [] -> mi_dim I = length bs ->
  mi_rows I = map (map Z.of_nat) l -> Forall (valid (cards bs)) l -> Forall (point_ok bs) x ->
  returns (sb_eval bs I x) [length x; length l] (fun ix => prod_fun bs (nth (nth 1 ix 0%nat) l []) (nth (nth 0 ix 0%nat) x [])).
Proof. intros. apply FunctionalP.sb_eval_ok; auto. Qed.
Print Assumptions c39_sparse_eval.
(** FullTensorProductFunctionalBasis.eval: the column of the multi-index is, in column-major order *)
Theorem c39_full_eval : forall {R} {CR : CRing R} {A V} (bs : list (fbasis R A V)) x, bs <> [] -> Forall (fun b => (0 < fb_card b)%nat) bs -> Forall (point_ok bs) x ->
  exists Y, tp_eval bs x = Some Y /\ shape Y = [length x; prodn (cards bs)] /\
    forall p is, (p < length x)%nat -> valid (cards bs) is -> get Y [p; sub2indF (cards bs) is] = prod_fun bs is (nth p x []).
Proof. intros. apply FunctionalP2.tp_eval_ok; auto. Qed.
Print Assumptions c39_full_eval.
(** FunctionalTensor.eval: the value at the p-th point is the sum over js of T[js] phi_js(x_p), whatever the
    format of the tensor T *)
Theorem c39_eval_full_tensor : forall {R} {CR : CRing R} {A V} (bs : list (fbasis R A V)) x (T : nd R), bs <> [] -> Forall (point_ok bs) x ->
  shape T = cards bs -> returns (fun_eval_full T bs x) [length x] (fun ix => expansion bs (get T) (nth (nth 0 ix 0%nat) x [])).
Proof. intros. apply FunctionalP2.fun_eval_full_ok; auto. Qed.
Print Assumptions c39_eval_full_tensor.
Theorem c39_eval_canonical : forall {R} {CR : CRing R} {A V} (bs : list (fbasis R A V)) x (T : cp R), bs <> [] -> Forall (point_ok bs) x ->
  cp_ok (cp_core T) (cp_space T) -> cp_dims (cp_space T) = cards bs ->
  returns (fun_eval_cp T bs x) [length x] (fun ix => expansion bs (cp_val (cp_core T) (cp_space T)) (nth (nth 0 ix 0%nat) x [])).
Proof. intros. apply FunctionalP2.fun_eval_cp_ok; auto. Qed.
Print Assumptions c39_eval_canonical.
Theorem c39_eval_sparse_tensor : forall {R} {CR : CRing R} {A V} (bs : list (fbasis R A V)) x (T : sp R), bs <> [] -> Forall (point_ok bs) x ->
  sp_ok (sp_rows T) (sp_data T) (sp_shape T) -> sp_zd T = false -> sp_shape T = cards bs ->
  returns (fun_eval_sp T bs x) [length x] (fun ix => expansion bs (sp_val (sp_rows T) (sp_data T)) (nth (nth 0 ix 0%nat) x [])).
Proof. intros. apply FunctionalP2.fun_eval_sp_ok; auto. Qed.
Print Assumptions c39_eval_sparse_tensor.
Theorem c39_eval_diagonal : forall {R} {CR : CRing R} {A V} (bs : list (fbasis R A V)) x (v : list R), bs <> [] -> Forall (point_ok bs) x ->
  cards bs = repeat (length v) (length bs) ->
  returns (fun_eval_dt (dt_make v (length bs)) bs x) [length x] (fun ix => expansion bs (diag_val v) (nth (nth 0 ix 0%nat) x [])).
Proof. intros. apply FunctionalP2.fun_eval_dt_ok; auto. Qed.
Print Assumptions c39_eval_diagonal.
Theorem c39_eval_tree_based : forall {R} {CR : CRing R} {A V} (bs : list (fbasis R A V)) x (T : tbt R) r, bs <> [] -> Forall (point_ok bs) x ->
  tb_ok T r -> (2 <= length bs)%nat -> tb_shape T = cards bs -> x <> [] ->
  exists C, fun_eval_tb T bs x = Some C /\ shape C = length x :: exts T r /\
    forall p e, (p < length x)%nat -> valid (exts T r) e -> get C (p :: e) = expansion bs (fun js => tval T r js e) (nth p x []).
Proof. intros. apply FunctionalP2.fun_eval_tb_ok; auto. Qed.
Print Assumptions c39_eval_tree_based.
(** FunctionalTensor.eval_on_grid *)
Theorem c39_eval_on_grid : forall {R} {CR : CRing R} {A V} (bs : list (fbasis R A V)) (T : nd R) G, shape T = cards bs ->
  Forall2 (fun b g => Forall (fun p => length p = fb_ndim b) g) bs G ->
  returns (fun_grid_full T bs G) (map (@length _) G) (fun is => expansion bs (get T) (grid_point G is)).
Proof. intros. apply FunctionalP5.fun_grid_full_ok; auto. Qed.
Print Assumptions c39_eval_on_grid.

(** ** means and Gram matrices: if the means and Gram matrices of the bases are those of discrete measures (G_k, W_k),
    those of the tensor-product objects are those of the product measure *)
Theorem c54_sparse_mean : forall {R} {CR : CRing R} {A V} (bs : list (fbasis R A V)) (I : mi) l G W, bs <> [] -> mi_dim I = length bs ->
  mi_rows I = map (map Z.of_nat) l -> Forall (valid (cards bs)) l -> (forall b v, In b bs -> length (fb_mean b v) = fb_card b) ->
  each3 mean_ok bs G W -> sb_mean bs I MNone = Some (map (fun is => tmean G W (prod_fun bs is)) l).
Proof.
  intros R CR A V bs I l G W Hn Hd Hr HF HL H. rewrite (FunctionalP3.sb_mean_ok bs I l MNone Hn Hd Hr HF Logic.I HL). f_equal. apply map_ext_in. intros is Hi.
  rewrite Forall_forall in HF. rewrite (FunctionalP3.tmean_prod bs is G W (HF is Hi) H). f_equal. cbn [FunctionalP3.measure_args].
  clear. induction bs as [|b bs IH]; [reflexivity|]. cbn. f_equal. exact IH.
Qed.
Print Assumptions c54_sparse_mean.
Theorem c54_sparse_gram : forall {R} {CR : CRing R} {A V} (bs : list (fbasis R A V)) (I : mi) l G W, bs <> [] -> mi_dim I = length bs ->
  mi_rows I = map (map Z.of_nat) l -> Forall (valid (cards bs)) l -> NoDup l -> each3 gram_ok bs G W ->
  returns (sb_gram bs I) [length l; length l] (fun ix => tmean G W (fun p => prod_fun bs (nth (nth 0 ix 0%nat) l []) p * prod_fun bs (nth (nth 1 ix 0%nat) l []) p)).
Proof. intros. apply FunctionalP3.sb_gram_ok; auto. Qed.
Print Assumptions c54_sparse_gram.
(** FullTensorProductFunctionalBasis.mean returns the means in row-major order ... *)
Theorem c54_full_mean_partial : forall {R} {CR : CRing R} {A V} (bs : list (fbasis R A V)) G W, bs <> [] -> each3 mean_ok bs G W ->
  exists v, tp_mean bs MNone = Some v /\ length v = prodn (cards bs) /\
    forall is, valid (cards bs) is -> nth (sub2indC (cards bs) is) v r0 = tmean G W (prod_fun bs is).
Proof. intros. apply FunctionalP5.tp_mean_ok; auto. Qed.
Print Assumptions c54_full_mean_partial.
Theorem c54_mean_full_tensor : forall {R} {CR : CRing R} {A V} (bs : list (fbasis R A V)) (T : nd R) G W, shape T = cards bs -> each3 mean_ok bs G W ->
  returns (fun_mean_full T bs MNone) [] (fun _ => tmean G W (expansion bs (get T))).
Proof. intros. apply FunctionalP5.fun_mean_full_ok; auto. Qed.
Print Assumptions c54_mean_full_tensor.
Theorem c54_mean_canonical : forall {R} {CR : CRing R} {A V} (bs : list (fbasis R A V)) (T : cp R) G W, cp_ok (cp_core T) (cp_space T) ->
  cp_dims (cp_space T) = cards bs -> each3 mean_ok bs G W ->
  exists Y, fun_mean_cp T bs MNone = Some (inl Y) /\ tensor_is Y [] (fun _ => tmean G W (expansion bs (cp_val (cp_core T) (cp_space T)))).
Proof. intros. apply FunctionalP5.fun_mean_cp_ok; auto. Qed.
Print Assumptions c54_mean_canonical.
(** FunctionalTensor.conditional_expectation(dims): the result is a function of the variables dims, in increasing
    order; its value for the values P_k of these variables is the mean over the other variables *)
Theorem c54_conditional_expectation : forall {R} {CR : CRing R} {A V} (T : nd R) (bs : list (fbasis R A V)) dims G W, NoDup dims ->
  Forall (fun k => (k < length bs)%nat) dims -> shape T = cards bs -> each3 mean_ok bs G W ->
  exists t b0, let sorted := filter (fun k => existsb (Nat.eqb k) dims) (seq 0 (length bs)) in
    let bs' := map (fun k => nth k bs b0) sorted in
    fun_cond_full T bs dims MNone = Some (t, bs') /\ shape t = cards bs' /\
    forall P, Forall2 (fun b p => length p = fb_ndim b) bs P ->
      expansion bs' (get t) (concat (map (fun k => nth k P []) sorted)) = tmean (fix_points dims P G) (fix_weights dims W) (expansion bs (get T)).
Proof. intros R CR A V T bs dims G W H1 H2 H3 H4. destruct (FunctionalP7.fun_cond_full_ok T bs dims G W H1 H2 H3 H4) as (t & Ht). exists t. eexists. exact Ht. Qed.
Print Assumptions c54_conditional_expectation.

(** ** one basis: arrays, interpolation, projection, sub-bases *)
(** FunctionalBasisArray(data, basis, 1).eval *)
Theorem c55_basis_array_partial : forall {R} {CR : CRing R} {A V} (b : fbasis R A V) data x, shape data = [fb_card b; 1%nat] ->
  exists d, fba_init (fb_card b) [1%nat] data = Some d /\
    returns (fba_eval b [1%nat] d x) [length x; 1%nat] (fun ix => rsum (fb_card b) (fun k => fb_at b (nth (nth 0 ix 0%nat) x []) k * get data [k; 0%nat])).
Proof. intros. apply FunctionalP4.fba_one; auto. Qed.
Print Assumptions c55_basis_array_partial.
(** interpolate(y, x), one output: the function returned has the values y at the points x *)
Theorem c55_interpolate_partial : forall {R} {CR : CRing R} {A V} (solve : nd R -> nd R -> option (nd R)) (b : fbasis R A V) y x d, solve_contract solve ->
  shape y = [length x; 1%nat] -> fb_interpolate solve b y x = Some d -> returns (fba_eval b [1%nat] d x) [length x; 1%nat] (get y).
Proof. intros R CR A V solve b y x d. apply FunctionalP4.interpolate_ok. Qed.
Print Assumptions c55_interpolate_partial.
Theorem c55_gram_matrix : forall {R} {CR : CRing R} {A V} (b : fbasis R A V) pts w, length w = length pts ->
  returns (fb_gram_matrix b pts w) [fb_card b; fb_card b] (fun ix => dmean pts w (fun p => fb_at b p (nth 0 ix 0%nat) * fb_at b p (nth 1 ix 0%nat))).
Proof. intros. apply FunctionalP4.gram_matrix_ok; auto. Qed.
Print Assumptions c55_gram_matrix.
(** quasi_projection with a rule for which the basis is orthonormal reproduces the functions of its span *)
Theorem c55_quasi_projection : forall {R} {CR : CRing R} {A V} (b : fbasis R A V) pts w y c, length w = length pts -> shape y = [length pts; 1%nat] ->
  identity (fb_card b) (fun i j => dmean pts w (fun p => fb_at b p i * fb_at b p j)) ->
  (forall k, (k < length pts)%nat -> get y [k; 0%nat] = rsum (fb_card b) (fun j => c j * fb_at b (nth k pts []) j)) ->
  exists d, fb_quasi_projection b pts w y = Some d /\ forall x,
    returns (fba_eval b [1%nat] d x) [length x; 1%nat] (fun ix => rsum (fb_card b) (fun j => c j * fb_at b (nth (nth 0 ix 0%nat) x []) j)).
Proof. intros. apply FunctionalP4.quasi_projection_ok; auto. Qed.
Print Assumptions c55_quasi_projection.
(** SubFunctionalBasis: the functions sum_k phi_k B[k, j] *)
Theorem c55_sub_eval : forall {R} {CR : CRing R} {A V} (b : fbasis R A V) (B : nd R) m x, shape B = [fb_card b; m] ->
  returns (sub_eval b B x) [length x; m] (fun ix => rsum (fb_card b) (fun k => fb_at b (nth (nth 0 ix 0%nat) x []) k * get B [k; nth 1 ix 0%nat])).
Proof. intros. apply FunctionalP4.sub_eval_ok; auto. Qed.
Print Assumptions c55_sub_eval.
Theorem c55_sub_mean : forall {R} {CR : CRing R} {A V} (b : fbasis R A V) (B : nd R) m pts w, shape B = [fb_card b; m] -> mean_ok b pts w ->
  returns (sub_mean b B) [1%nat; m] (fun ix => dmean pts w (fun p => rsum (fb_card b) (fun k => fb_at b p k * get B [k; nth 1 ix 0%nat]))).
Proof. intros. apply FunctionalP4.sub_mean_ok; auto. Qed.
Print Assumptions c55_sub_mean.
Theorem c55_sub_gram : forall {R} {CR : CRing R} {A V} (b : fbasis R A V) (B : nd R) m pts w, shape B = [fb_card b; m] -> gram_ok b pts w ->
  returns (sub_gram b B) [m; m] (fun ix => dmean pts w (fun p => rsum (fb_card b) (fun k => fb_at b p k * get B [k; nth 0 ix 0%nat]) * rsum (fb_card b) (fun k => fb_at b p k * get B [k; nth 1 ix 0%nat]))).
Proof. intros. apply FunctionalP4.sub_gram_ok; auto. Qed.
Print Assumptions c55_sub_gram.
(** orthonormalize: the functions psi_j = sum_k phi_k B[k, j] are orthonormal and span the same space *)
Theorem c55_orthonormalize : forall {R} {CR : CRing R} {A V} (chol inv : nd R -> option (nd R)) (b : fbasis R A V) B pts w, chol_contract chol -> inv_contract inv -> gram_ok b pts w ->
  fb_orthonormalize chol inv b = Some B ->
  let psi := fun j p => rsum (fb_card b) (fun k => fb_at b p k * get B [k; j]) in
  shape B = [fb_card b; fb_card b] /\
  identity (fb_card b) (fun i j => dmean pts w (fun p => psi i p * psi j p)) /\
  exists C : nat -> nat -> R, forall i p, (i < fb_card b)%nat -> fb_at b p i = rsum (fb_card b) (fun j => C i j * psi j p).
Proof. intros R CR A V chol inv b B pts w H1 H2 H3 H4 psi. exact (FunctionalP4.orthonormalize_ok chol inv b B pts w H1 H2 H3 H4). Qed.
Print Assumptions c55_orthonormalize.

(** ** tensor-product interpolation and projection *)
Theorem c55_tensor_interpolation : forall {R} {CR : CRing R} {A V} inv (bs : list (fbasis R A V)) f G T, bs <> [] -> inv_contract inv ->
  Forall2 (fun b g => Forall (fun p => length p = fb_ndim b) g) bs G -> Forall (fun g => g <> []) G -> tp_interpolate inv bs f G = Some T ->
  shape T = cards bs /\ forall is, valid (map (@length _) G) is -> expansion bs (get T) (grid_point G is) = f (grid_point G is).
Proof. intros R CR A V inv bs f G T. apply FunctionalP5.tp_interpolate_ok. Qed.
Print Assumptions c55_tensor_interpolation.
(** tensor_product_projection: f minus its projection is orthogonal to the basis for the product rule, and the
    projection of a function of the span is the function *)
Theorem c55_tensor_projection_partial : forall {R} {CR : CRing R} {A V} solve (bs : list (fbasis R A V)) f G W T, bs <> [] -> solve_contract solve ->
  Forall2 (fun b g => Forall (fun p => length p = fb_ndim b) g) bs G -> Forall (fun g => g <> []) G -> map (@length R) W = map (@length _) G ->
  tp_project solve bs f G W = Some T ->
  shape T = cards bs /\
  (forall is, valid (cards bs) is -> tmean G W (fun p => expansion bs (get T) p * prod_fun bs is p) = tmean G W (fun p => f p * prod_fun bs is p)) /\
  (forall C, (forall ks, valid (map (@length _) G) ks -> f (grid_point G ks) = expansion bs C (grid_point G ks)) -> forall is, valid (cards bs) is -> get T is = C is).
Proof.
  intros R CR A V solve bs f G W T H1 H2 H3 H4 H5 H6. destruct (FunctionalP6.project_orth solve bs f G W T H1 H2 H3 H4 H5 H6) as [S1 O1].
  split; auto. split; auto. intros C HC. exact (FunctionalP6.project_exact solve bs f G W T H1 H2 H3 H4 H5 H6 C HC).
Qed.
Print Assumptions c55_tensor_projection_partial.
(** ... but it raises unless all the grids have the same number of points (np.hstack of the grids) *)
Theorem c55_tensor_projection_grids_refuted : forall {R} {CR : CRing R} {A V} solve (bs : list (fbasis R A V)) f G W g h,
  In g G -> In h G -> length g <> length h -> tp_project solve bs f G W = None.
Proof.
  intros R CR A V solve bs f G W g h Hg Hh Hne. unfold tp_project. destruct (eval_on_full_grid _ _ _ _); [|reflexivity]. cbn [bind].
  destruct (hstack_ok G) eqn:E; [|reflexivity]. exfalso. destruct G as [|g0 G]; [destruct Hg|]. cbn [hstack_ok] in E. rewrite forallb_forall in E.
  pose proof (E g Hg) as E1. pose proof (E h Hh) as E2. apply Nat.eqb_eq in E1, E2. congruence.
Qed.
Print Assumptions c55_tensor_projection_grids_refuted.

(** ** counterexamples and examples: monomials 1, x, ..., x^(n-1) over the integers, with the discrete measure of
    points pts and weights w; a "random variable" is here the pair (pts, w) *)
Definition zdmean (pts w : list Z) (f : Z -> Z) : Z := fold_right Z.add 0%Z (map (fun p => (snd p * f (fst p))%Z) (combine pts w)).
Definition mono (n : nat) (pts w : list Z) : fbasis Z Z (list Z * list Z) :=
  FB 1 n (fun p k => (nth 0 p 0 ^ Z.of_nat k)%Z)
     (fun v => map (fun k => match v with None => zdmean pts w (fun x => x ^ Z.of_nat k)%Z | Some (q, u) => zdmean q u (fun x => x ^ Z.of_nat k)%Z end) (seq 0 n))
     (ND [n; n] (fun is => zdmean pts w (fun x => x ^ Z.of_nat (nth 0 is 0%nat) * x ^ Z.of_nat (nth 1 is 0%nat))%Z)) false.
Definition singles (l : list Z) : list (list Z) := map (fun x => [x]) l.

(** FullTensorProductFunctionalBasis.mean does not use the order of eval: the position of the multi-index (1, 0)
    among the columns of eval is 1, and entry 1 of mean is not its mean *)
Theorem c54_full_mean_order_refuted : exists (bs : list (fbasis Z Z (list Z * list Z))) G W v is, each3 mean_ok bs G W /\ valid (cards bs) is /\ tp_mean bs MNone = Some v /\
  nth (sub2indF (cards bs) is) v 0%Z <> tmean G W (prod_fun bs is).
Proof.
  exists [mono 2 [2%Z] [1%Z]; mono 3 [3%Z] [1%Z]], [singles [2%Z]; singles [3%Z]], [[1%Z]; [1%Z]]. eexists. exists [1%nat; 0%nat]. split; [|split; [|split]].
  - cbn [each3]. repeat split; try reflexivity; try (repeat constructor; fail).
    + intros [|[|k]] Hk; try reflexivity. cbn in Hk. lia.
    + intros [|[|[|k]]] Hk; try reflexivity. cbn in Hk. lia.
  - repeat constructor.
  - vm_compute. reflexivity.
  - vm_compute. discriminate.
Qed.
Print Assumptions c54_full_mean_order_refuted.
(** FunctionalBasisArray with two outputs mixes the coefficients of the outputs: interpolation of a function with two
    outputs at the points 0, 1 in the basis 1, x *)
Definition solve2 (M Y : nd Z) : option (nd Z) :=
  match shape M, shape Y with
  | [2%nat; 2%nat], [2%nat; m] =>
      if ((get M [0%nat;0%nat] =? 1) && (get M [0%nat;1%nat] =? 0) && (get M [1%nat;0%nat] =? 1) && (get M [1%nat;1%nat] =? 1))%Z
      then Some (ND [2%nat; m] (fun is => if (nth 0 is 0 =? 0)%nat then get Y [0%nat; nth 1 is 0%nat] else (get Y [1%nat; nth 1 is 0%nat] - get Y [0%nat; nth 1 is 0%nat])%Z)) else None
  | _, _ => None
  end.
Lemma solve2_ok : solve_contract solve2.
Proof.
  intros M Y X. unfold solve2. destruct (shape M) as [|[|[|[|]]] [|[|[|[|]]] [|]]] eqn:EM; try discriminate.
  destruct (shape Y) as [|[|[|[|]]] [|m [|]]] eqn:EY; try discriminate.
  destruct (_ && _)%bool eqn:E; [|discriminate]. apply andb_true_iff in E. destruct E as [E E4]. apply andb_true_iff in E. destruct E as [E E3]. apply andb_true_iff in E. destruct E as [E1 E2].
  apply Z.eqb_eq in E1, E2, E3, E4. intros H. injection H as <-. exists 2%nat, m. split; auto. split; auto. split; auto. split.
  - exists (fun i k => match i, k with O, O => 1 | O, _ => 0 | _, O => -1 | _, _ => 1 end)%Z. intros [|[|i]] [|[|j]] Hi Hj; try lia; cbn; rewrite ?E1, ?E2, ?E3, ?E4; reflexivity.
  - intros [|[|i]] j Hi Hj; try lia; cbn; rewrite ?E1, ?E2, ?E3, ?E4; ring.
Qed.
Theorem c55_interpolate_outputs_refuted : exists (solve : nd Z -> nd Z -> option (nd Z)) (b : fbasis Z Z (list Z * list Z)) y x d C, solve_contract solve /\
  shape y = [length x; 2%nat] /\ fb_interpolate solve b y x = Some d /\ fba_eval b [2%nat] d x = Some C /\ get C [0%nat; 1%nat] <> get y [0%nat; 1%nat].
Proof.
  exists solve2, (mono 2 [] []), (of_list 0%Z [2%nat; 2%nat] [1; 0; 3; 0]%Z), (singles [0; 1]%Z). eexists. eexists. split; [exact solve2_ok|]. split; [reflexivity|]. split; [reflexivity|]. split; [reflexivity|].
  vm_compute. discriminate.
Qed.
Print Assumptions c55_interpolate_outputs_refuted.
(** conditional_expectation(dims, measure) with a RandomVector takes, for the k-th integrated variable, the k-th random
    variable of the vector: integrating out the variable 1 uses the random variable of the variable 0 *)
Theorem c54_conditional_measure_refuted : exists (bs : list (fbasis Z Z (list Z * list Z))) T v0 v1 t b, length bs = 2%nat /\ shape T = cards bs /\
  fun_cond_full T bs [0%nat] (MVec [v0; v1]) = Some (t, b) /\
  get t [0%nat] = rsum 2 (fun k => get T [0%nat; k] * nth k (fb_mean (nth 1 bs (mono 0 [] [])) (Some v0)) 0%Z) /\
  get t [0%nat] <> rsum 2 (fun k => get T [0%nat; k] * nth k (fb_mean (nth 1 bs (mono 0 [] [])) (Some v1)) 0%Z).
Proof.
  exists [mono 1 [] []; mono 2 [] []], (of_list 0%Z [1%nat; 2%nat] [1; 1]%Z), ([5%Z], [1%Z]), ([7%Z], [1%Z]). eexists. eexists. split; [reflexivity|]. split; [reflexivity|]. split; [reflexivity|].
  split; vm_compute; [reflexivity|discriminate].
Qed.
Print Assumptions c54_conditional_measure_refuted.

(** *** examples: the hypotheses are met and the values computed *)
Definition exb : list (fbasis Z Z (list Z * list Z)) := [mono 2 [0; 1]%Z [1; 2]%Z; mono 3 [1; 2]%Z [1; 1]%Z].
Definition exT : nd Z := of_list 0%Z [2%nat; 3%nat] [1; 2; 3; 4; 5; 6]%Z.
Definition exG := [singles [0; 1]%Z; singles [1; 2]%Z].
Definition exW := [[1; 2]%Z; [1; 1]%Z].
Example c54_ex_means : each3 mean_ok exb exG exW.
Proof.
  cbn [each3 exb exG exW]. repeat split; try reflexivity; try (repeat constructor; fail).
  - intros [|[|k]] Hk; try reflexivity. cbn in Hk. lia.
  - intros [|[|[|k]]] Hk; try reflexivity. cbn in Hk. lia.
Qed.
Example c54_ex_grams : each3 gram_ok exb exG exW.
Proof.
  cbn [each3 exb exG exW]. repeat split; try reflexivity; try (repeat constructor; fail); try discriminate.
  - intros [|[|k]] [|[|l]] Hk Hl; cbn in Hk, Hl; try lia; reflexivity.
  - intros [|[|[|k]]] [|[|[|l]]] Hk Hl; cbn in Hk, Hl; try lia; reflexivity.
Qed.
(** (1 + 3 y + 5 y^2) + x (2 + 4 y + 6 y^2) at (2, 3), (1, -1) *)
Example c39_ex_eval : option_map to_list (fun_eval_full exT exb [[2; 3]; [1; -1]]%Z) = Some ([2%nat], [191; 7]%Z).
Proof. vm_compute. reflexivity. Qed.
Example c39_ex_points : Forall (point_ok exb) [[2; 3]; [1; -1]]%Z /\ shape exT = cards exb.
Proof. split; [repeat constructor|reflexivity]. Qed.
Example c54_ex_cond : option_map (fun p => to_list (fst p)) (fun_cond_full exT exb [0%nat] MNone) = Some ([2%nat], [36; 46]%Z).
Proof. vm_compute. reflexivity. Qed.
(** a projection: the rule with points 0, 1 and weights 1 for the basis 1, x (Gram matrix (2 1; 1 1)) *)
Definition solve3 (M Y : nd Z) : option (nd Z) :=
  match shape M, shape Y with
  | [2%nat; 2%nat], [2%nat; m] =>
      if ((get M [0%nat;0%nat] =? 2) && (get M [0%nat;1%nat] =? 1) && (get M [1%nat;0%nat] =? 1) && (get M [1%nat;1%nat] =? 1))%Z
      then Some (ND [2%nat; m] (fun is => if (nth 0 is 0 =? 0)%nat then (get Y [0%nat; nth 1 is 0%nat] - get Y [1%nat; nth 1 is 0%nat])%Z else (get Y [1%nat; nth 1 is 0%nat] + get Y [1%nat; nth 1 is 0%nat] - get Y [0%nat; nth 1 is 0%nat])%Z)) else None
  | _, _ => None
  end.
Example c55_ex_solve : solve_contract solve3.
Proof.
  intros M Y X. unfold solve3. destruct (shape M) as [|[|[|[|]]] [|[|[|[|]]] [|]]] eqn:EM; try discriminate.
  destruct (shape Y) as [|[|[|[|]]] [|m [|]]] eqn:EY; try discriminate.
  destruct (_ && _)%bool eqn:E; [|discriminate]. apply andb_true_iff in E. destruct E as [E E4]. apply andb_true_iff in E. destruct E as [E E3]. apply andb_true_iff in E. destruct E as [E1 E2].
  apply Z.eqb_eq in E1, E2, E3, E4. intros H. injection H as <-. exists 2%nat, m. split; auto. split; auto. split; auto. split.
  - exists (fun i k => match i, k with O, O => 1 | O, _ => -1 | _, O => -1 | _, _ => 2 end)%Z. intros [|[|i]] [|[|j]] Hi Hj; try lia; cbn; rewrite ?E1, ?E2, ?E3, ?E4; reflexivity.
  - intros [|[|i]] j Hi Hj; try lia; cbn; rewrite ?E1, ?E2, ?E3, ?E4; ring.
Qed.
Definition exb2 : list (fbasis Z Z (list Z * list Z)) := [mono 2 [0; 1]%Z [1; 1]%Z; mono 2 [0; 1]%Z [1; 1]%Z].
Example c55_ex_project : option_map to_list (tp_project solve3 exb2 (fun p => (1 + 2 * nth 0 p 0 + 3 * nth 1 p 0 + 4 * nth 0 p 0 * nth 1 p 0)%Z) [singles [0; 1]; singles [0; 1]]%Z [[1; 1]; [1; 1]]%Z)
  = Some ([2%nat; 2%nat], [1; 2; 3; 4]%Z).
Proof. vm_compute. reflexivity. Qed.
(** an interpolation with the points 0, 1: inverse of (1 0; 1 1) *)
Definition inv2 (M : nd Z) : option (nd Z) :=
  match shape M with
  | [2%nat; 2%nat] => if ((get M [0%nat;0%nat] =? 1) && (get M [0%nat;1%nat] =? 0) && (get M [1%nat;0%nat] =? 1) && (get M [1%nat;1%nat] =? 1))%Z
      then Some (ND [2%nat; 2%nat] (fun is => match is with [0%nat; 0%nat] => 1 | [0%nat; _] => 0 | [_; 0%nat] => -1 | _ => 1 end)%Z) else None
  | _ => None
  end.
Example c55_ex_inv : inv_contract inv2.
Proof.
  intros M X. unfold inv2. destruct (shape M) as [|[|[|[|]]] [|[|[|[|]]] [|]]] eqn:EM; try discriminate.
  destruct (_ && _)%bool eqn:E; [|discriminate]. apply andb_true_iff in E. destruct E as [E E4]. apply andb_true_iff in E. destruct E as [E E3]. apply andb_true_iff in E. destruct E as [E1 E2].
  apply Z.eqb_eq in E1, E2, E3, E4. intros H. injection H as <-. exists 2%nat. split; auto. split; auto. split.
  - intros [|[|i]] [|[|j]] Hi Hj; try lia; cbn; rewrite ?E1, ?E2, ?E3, ?E4; reflexivity.
  - intros [|[|i]] [|[|j]] Hi Hj; try lia; cbn; rewrite ?E1, ?E2, ?E3, ?E4; reflexivity.
Qed.
Example c55_ex_interpolation : option_map to_list (tp_interpolate inv2 exb2 (fun p => (1 + 2 * nth 0 p 0 + 3 * nth 1 p 0 + 4 * nth 0 p 0 * nth 1 p 0)%Z) [singles [0; 1]; singles [0; 1]]%Z)
  = Some ([2%nat; 2%nat], [1; 2; 3; 4]%Z).
Proof. vm_compute. reflexivity. Qed.
(** orthonormalisation: functions with Gram matrix (1 0; 0 1) already, with the factor L = Id *)
Definition exo : fbasis Z Z (list Z * list Z) := FB 1 2 (fun p k => (if Nat.eqb k 0 then 1 - nth 0 p 0 else nth 0 p 0)%Z) (fun _ => [1; 1]%Z) (np_eye 2) true.
Example c55_ex_orth : gram_ok exo (singles [0; 1]%Z) [1; 1]%Z.
Proof.
  repeat split; try reflexivity; try (repeat constructor; fail); intros; (destruct k as [|[|k]]; [| |cbn in *; lia]); (destruct l as [|[|l]]; [| |cbn in *; lia]); reflexivity.
Qed.
