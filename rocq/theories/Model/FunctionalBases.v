(** Model of the functional bases of tensap (approximation/bases/functional_basis.py, functional_bases.py,
    functional_basis_array.py, sparse_tensor_product_functional_basis.py, full_tensor_product_functional_basis.py,
    sub_functional_basis.py) and of functions/functional_tensor.py.  Arrays of points are lists of rows; the
    entries of points are of an arbitrary type [A] and the values of functions in a ring.  An exception is [None]. *)
From Coq Require Import List Arith Bool ZArith Lia.
From Verif.Base Require Import ListAux CRing Index.
From Verif.Model Require Import Sorting MultiIndices Numpy FullTensor Diagonal Canonical Sparse DimensionTree TreeBased TreeEval Functions.
Import ListNotations.

Section FB.
  Context {R : Type} {CR : CRing R} {A V : Type}.
  Local Open Scope cr_scope.

  (** functional_basis.py: what an object of a subclass of FunctionalBasis provides: ndim(), cardinal(), the value
      of its k-th function at a point (eval, one row per point), mean() or mean(random variable) (a random variable
      is of type [V]), gram_matrix() and the attribute is_orthonormal *)
  Record fbasis := FB { fb_ndim : nat; fb_card : nat; fb_at : list A -> nat -> R; fb_mean : option V -> list R; fb_gram : nd R; fb_orth : bool }.
  (** eval of a basis on an array of points *)
  Definition fb_eval (b : fbasis) (x : list (list A)) : nd R :=
    ND [length x; fb_card b] (fun is => fb_at b (nth (nth 0 is 0%nat) x []) (nth 1 is 0%nat)).

  (** np.cumsum *)
  Fixpoint np_cumsum (acc : nat) (l : list nat) : list nat := match l with [] => [] | n :: l' => (acc + n)%nat :: np_cumsum (acc + n) l' end.
  (** np.hsplit(x, cuts): columns cuts[i-1] ... cuts[i] - 1; the last piece takes the remaining columns *)
  Definition cut_row (p : nat * option nat) (r : list A) : list A :=
    match snd p with Some b => firstn (b - fst p) (skipn (fst p) r) | None => skipn (fst p) r end.
  Definition np_hsplit (x : list (list A)) (cuts : list nat) : list (list (list A)) :=
    map (fun p => map (cut_row p) x) (combine (0%nat :: cuts) (map Some cuts ++ [None])).
  Definition dims_or {B} (bs : list B) (dims : option (list nat)) : list nat := match dims with Some d => d | None => seq 0 (length bs) end.
  (** functional_bases.py:285-294 eval, x a list of arrays *)
  Definition fbs_eval_list (bs : list fbasis) (dims : option (list nat)) (xs : list (list (list A))) : option (list (nd R)) :=
    let* b := omap (nth_error bs) (dims_or bs dims) in Some (map (fun p => fb_eval (fst p) (snd p)) (combine b xs)).
  (** functional_bases.py:285-294 eval, x an array *)
  Definition fbs_eval (bs : list fbasis) (dims : option (list nat)) (x : list (list A)) : option (list (nd R)) :=
    let* b := omap (nth_error bs) (dims_or bs dims) in
    fbs_eval_list bs dims (np_hsplit x (removelast (np_cumsum 0 (map fb_ndim b)))).
  (** functional_bases.py:508-519 mean(dims, measure): no measure, a RandomVariable or a RandomVector (whose
      random variables are zipped with bases[dims]) *)
  Inductive mmeasure := MNone | MVar (v : V) | MVec (vs : list V).
  Definition fbs_mean (bs : list fbasis) (dims : option (list nat)) (m : mmeasure) : option (list (list R)) :=
    let* b := omap (nth_error bs) (dims_or bs dims) in
    Some (match m with
          | MNone => map (fun x => fb_mean x None) b
          | MVar v => map (fun x => fb_mean x (Some v)) b
          | MVec vs => map (fun p => fb_mean (fst p) (Some (snd p))) (combine b vs) end).

  (** ** SparseTensorProductFunctionalBasis(bases, indices) *)
  (** indices.array[:, j] *)
  Definition mi_col (I : mi) (j : nat) : option (list Z) :=
    if (j <? mi_dim I)%nat then omap (fun r => nth_error r j) (mi_rows I) else None.
  (** M[:, ks] *)
  Definition take_cols (M : nd R) (ks : list Z) : option (nd R) :=
    let* l := omap (py_index (nth 1 (shape M) 0%nat)) ks in
    Some (ND [nth 0 (shape M) 0%nat; length ks] (fun is => get M [nth 0 is 0%nat; nth (nth 1 is 0%nat) l 0%nat])).
  (** y *= t (numpy: the broadcast shape must be the one of y) *)
  Definition np_imul (Y T : nd R) : option (nd R) :=
    let* Z := np_binop rmul Y T in if list_eqb (shape Z) (shape Y) then Some Z else None.
  (** sparse_tensor_product_functional_basis.py:228-232 eval_with_functional_bases_evals *)
  Definition sb_eval_with (I : mi) (Hx : list (nd R)) : option (nd R) :=
    match Hx with
    | [] => None
    | H0 :: _ =>
        let* k0 := mi_col I 0 in let* y := take_cols H0 k0 in
        ofold (fun y i => let* k := mi_col I i in let* t := take_cols (nth i Hx (scalar r0)) k in np_imul y t)
              (seq 1 (length Hx - 1)) y
    end.
  (** sparse_tensor_product_functional_basis.py:224-226 eval *)
  Definition sb_eval (bs : list fbasis) (I : mi) (x : list (list A)) : option (nd R) :=
    let* Hx := fbs_eval bs None x in sb_eval_with I Hx.
  (** v[ks] *)
  Definition take_vec (v : list R) (ks : list Z) : option (list R) :=
    omap (fun k => let* i := py_index (length v) k in nth_error v i) ks.
  Definition vec_imul (a b : list R) : option (list R) := if (length b =? length a)%nat then Some (map (fun p => fst p * snd p) (combine a b)) else None.
  (** sparse_tensor_product_functional_basis.py:168-173 mean; also the product of 186-188 *)
  Definition sb_mean_with (I : mi) (dims : list nat) (M : list (list R)) : option (list R) :=
    match M with
    | [] => None
    | M0 :: _ =>
        let* k0 := mi_col I (nth 0 dims 0%nat) in let* y := take_vec M0 k0 in
        ofold (fun y i => let* k := mi_col I (nth i dims 0%nat) in let* t := take_vec (nth i M []) k in vec_imul y t)
              (seq 1 (length M - 1)) y
    end.
  Definition sb_mean (bs : list fbasis) (I : mi) (m : mmeasure) : option (list R) :=
    let* M := fbs_mean bs None m in sb_mean_with I (seq 0 (length M)) M.
  (** G[np.ix_(ks, ks)] *)
  Definition take_ix (M : nd R) (ks : list Z) : option (nd R) :=
    let* l := omap (py_index (nth 0 (shape M) 0%nat)) ks in let* l' := omap (py_index (nth 1 (shape M) 0%nat)) ks in
    Some (ND [length ks; length ks] (fun is => get M [nth (nth 0 is 0%nat) l 0%nat; nth (nth 1 is 0%nat) l' 0%nat])).
  (** sparse_tensor_product_functional_basis.py:279-287 gram_matrix (70: is_orthonormal when all the bases are) *)
  Definition sb_gram (bs : list fbasis) (I : mi) : option (nd R) :=
    if forallb fb_orth bs then Some (np_eye (length (mi_rows I)))
    else match bs with
    | [] => None
    | b0 :: _ =>
        let* k0 := mi_col I 0 in let* M := take_ix (fb_gram b0) k0 in
        ofold (fun M i => let* k := mi_col I i in let* b := nth_error bs i in let* t := take_ix (fb_gram b) k in np_imul M t)
              (seq 1 (mi_dim I - 1)) M
    end.

  (** ** FullTensorProductFunctionalBasis(bases) *)
  (** full_tensor_product_functional_basis.py:88-89, 179 cardinal and the multi-indices used by eval *)
  Definition tp_card (bs : list fbasis) : nat := prodn (map fb_card bs).
  Definition tp_indices (bs : list fbasis) : option mi := bounded_by (map (fun b => Z.of_nat (fb_card b) - 1)%Z bs) 0.
  (** full_tensor_product_functional_basis.py:177-183 eval *)
  Definition tp_eval (bs : list fbasis) (x : list (list A)) : option (nd R) :=
    let* Hx := fbs_eval bs None x in let* I := tp_indices bs in sb_eval_with I Hx.
  (** np.ravel of an array (C order) *)
  Definition ravelC (T : nd R) : list R := map (fun k => get T (ind2subC (shape T) k)) (seq 0 (np_size T)).
  (** full_tensor_product_functional_basis.py:167-170 mean *)
  Definition tp_mean (bs : list fbasis) (m : mmeasure) : option (list R) :=
    let* H := fbs_mean bs None m in option_map ravelC (cp_full (CP [r1] (map col_of H))).

  (** ** FunctionalBasisArray(data, basis, shape) *)
  (** functional_basis_array.py:72-78 the array data kept by the object: np.ravel(data, order="F") reshaped, in the
      order of np.reshape (C), to (cardinal, shape) *)
  Definition fba_init (card : nat) (s : list nat) (data : nd R) : option (nd R) :=
    let* v := np_reshapeF data [np_size data] in np_reshapeC v (card :: s).
  (** functional_basis_array.py:407-435 eval, eval_with_bases_evals on the array H of the values of the basis *)
  Definition fba_eval_with (card : nat) (s : list nat) (data H : nd R) : option (nd R) :=
    let* d := np_reshapeF data [card; prodn s] in
    let* y := np_matmul H d in
    np_reshapeF y (nth 0 (shape H) 0%nat :: s).
  Definition fba_eval (b : fbasis) (s : list nat) (data : nd R) (x : list (list A)) : option (nd R) := fba_eval_with (fb_card b) s data (fb_eval b x).
  (** functional_basis.py:137-151 interpolate(y, x) for y an array of values at the points x, given as a matrix with
      one column per output (a vector is reshaped to one column); [solve] is np.linalg.solve.  Returns the shape and
      the data of the FunctionalBasisArray. *)
  Definition fb_interpolate (solve : nd R -> nd R -> option (nd R)) (b : fbasis) (y : nd R) (x : list (list A)) : option (nd R) :=
    let* d := solve (fb_eval b x) y in fba_init (fb_card b) [nth 1 (shape y) 0%nat] d.
  (** scipy.sparse.diags(w).dot(M) *)
  Definition row_scale (w : list R) (M : nd R) : nd R := ND (shape M) (fun is => nth (nth 0 is 0%nat) w r0 * get M is).
  (** functional_basis.py:239-241 gram_matrix(G): G.points and G.weights *)
  Definition fb_gram_matrix (b : fbasis) (pts : list (list A)) (w : list R) : option (nd R) :=
    if (length pts =? length w)%nat then np_matmul (np_T (fb_eval b pts)) (row_scale w (fb_eval b pts)) else None.
  (** functional_basis.py:327-338 quasi_projection; y = fun(G.points) as a matrix with one column per output (a
      vector y gives a vector u that is then reshaped to one column: same as starting from one column) *)
  Definition fb_quasi_projection (b : fbasis) (pts : list (list A)) (w : list R) (y : nd R) : option (nd R) :=
    if (length pts =? length w)%nat then
      let* u := np_matmul (np_T (fb_eval b pts)) (row_scale w y) in
      fba_init (fb_card b) [nth 1 (shape u) 0%nat] u
    else None.

  (** ** SubFunctionalBasis(underlying_basis, basis) *)
  (** sub_functional_basis.py:117-121, 186-190 eval, mean, gram_matrix *)
  Definition sub_eval (b : fbasis) (B : nd R) (x : list (list A)) : option (nd R) := np_matmul (fb_eval b x) B.
  Definition vec_of (v : list R) : nd R := ND [length v] (fun is => nth (nth 0 is 0%nat) v r0).
  Definition row_mat (v : list R) : nd R := ND [1%nat; length v] (fun is => nth (nth 1 is 0%nat) v r0).
  (** (np.matmul of a vector and a matrix: a 1 x n matrix here) *)
  Definition sub_mean (b : fbasis) (B : nd R) : option (nd R) := np_matmul (row_mat (fb_mean b None)) B.
  Definition sub_gram (b : fbasis) (B : nd R) : option (nd R) :=
    let* T := np_matmul (np_T B) (fb_gram b) in np_matmul T B.
  (** functional_basis.py:446-452 orthonormalize: the matrix of the SubFunctionalBasis that is returned when the Gram
      matrix is not the identity; [chol], [inv]: np.linalg.cholesky, np.linalg.inv *)
  Definition fb_orthonormalize (chol inv : nd R -> option (nd R)) (b : fbasis) : option (nd R) :=
    let* L := chol (fb_gram b) in let* Ai := inv L in Some (np_T Ai).

  (** ** FunctionalTensor(tensor, bases) *)
  (** functional_tensor.py:393-397, 877-882 eval, eval_with_bases_evals: all the dimensions are evaluated; the tensor
      is given by its order and its method tensor_matrix_product_eval_diag *)
  Definition fun_eval (order : nat) (tmped : list (nd R) -> option (nd R)) (bs : list fbasis) (x : list (list A)) : option (nd R) :=
    let* H := fbs_eval bs None x in
    if (length bs =? order)%nat then tmped H else None.
  Definition fun_eval_full (T : nd R) := fun_eval (ndim T) (fun Ms => ft_tmp_eval_diag T Ms None).
  Definition fun_eval_cp (x : cp R) := fun_eval (cp_order x) (cp_tensor_matrix_product_eval_diag x).
  Definition fun_eval_sp (x : sp R) := fun_eval (sp_order x) (sp_tensor_matrix_product_eval_diag x).
  Definition fun_eval_dt (x : dt R) := fun_eval (dt_order x) (fun Ms => dt_tensor_matrix_product_eval_diag x Ms None).
  Definition fun_eval_tb (x : tbt R) := fun_eval (tb_order x) (tb_tmp_eval_diag x).
  (** functional_tensor.py:136-137 mean, tensor a FullTensor or a CanonicalTensor *)
  Definition fun_mean_full (T : nd R) (bs : list fbasis) (m : mmeasure) : option (nd R) :=
    let* M := fbs_mean bs None m in ft_tensor_vector_product T (map vec_of M) (Some (seq 0 (length bs))).
  Definition fun_mean_cp (x : cp R) (bs : list fbasis) (m : mmeasure) : option (nd R + cp R) :=
    let* M := fbs_mean bs None m in cp_tensor_vector_product x (map vec_of M) (Some (seq 0 (length bs))).
  (** functional_tensor.py:308-335 conditional_expectation(dims), tensor a FullTensor, dims not empty: the new tensor
      and bases *)
  Definition fun_cond_full (T : nd R) (bs : list fbasis) (dims : list nat) (m : mmeasure) : option (nd R * list fbasis) :=
    let dims := sel 0%nat dims (np_argsort dims) in
    if (ndim T =? length bs)%nat then
      let dims_C := compl (length bs) dims in
      match dims_C with
      | [] => Some (T, bs)
      | _ => let* H := fbs_mean bs (Some dims_C) m in
             let* t := ft_tensor_vector_product T (map vec_of H) (Some dims_C) in
             let* b := omap (nth_error bs) dims in Some (t, b)
      end
    else None.
  (** functional_tensor.py:799-804 eval_on_grid(x), all the dimensions, tensor a FullTensor *)
  Definition fun_grid_full (T : nd R) (bs : list fbasis) (xs : list (list (list A))) : option (nd R) :=
    let* H := fbs_eval_list bs None xs in
    if (length bs =? ndim T)%nat then ft_tensor_matrix_product T H (Some (seq 0 (length bs))) else None.

  (** full_tensor_product_functional_basis.py:294-319 tensor_product_interpolation(fun, grid) from the grid returned by
      interpolation_points (295: one array of points per basis): the tensor of the FunctionalTensor; [inv] is
      np.linalg.inv *)
  Definition tp_interpolate (inv : nd R -> option (nd R)) (bs : list fbasis) (f : list A -> R) (G : list (list (list A))) : option (nd R) :=
    let* xs := g_array G in
    let* y := np_reshapeF (ND [length xs] (fun is => f (nth (nth 0 is 0%nat) xs []))) (g_shape G) in
    let* B := fbs_eval_list bs None G in
    let* Bi := omap inv B in
    ft_tensor_matrix_product y Bi None.
  (** full_tensor_product_functional_basis.py:236-250 tensor_product_projection(fun, I0) for the product rule with
      points G and weights W (u = fun.eval_on_tensor_grid, scalar function); [solve] is np.linalg.solve.  In the code
      Hx = self.bases.eval(np.hstack(I0.points.grids)), where np.hstack needs grids with the same number of points. *)
  Definition hstack_ok (G : list (list (list A))) : bool := match G with [] => false | g :: _ => forallb (fun h => length h =? length g)%nat G end.
  Definition tp_project (solve : nd R -> nd R -> option (nd R)) (bs : list fbasis) (f : list A -> R) (G : list (list (list A))) (W : list (list R)) : option (nd R) :=
    let* u := eval_on_full_grid [1%nat] (fun p => [f p]) (length G) G in
    if hstack_ok G then
      let* H := fbs_eval bs None (map (fun i => concat (map (fun g => nth i g []) G)) (seq 0 (length (hd [] G)))) in
      let* HW := omap (fun p => let H := fst p in let w := snd p in
                        let* M := np_matmul (np_T H) (row_scale w H) in
                        solve M (ND [nth 1 (shape H) 0%nat; nth 0 (shape H) 0%nat] (fun is => get H [nth 1 is 0%nat; nth 0 is 0%nat] * nth (nth 1 is 0%nat) w r0)))
                      (combine H W) in
      ft_tensor_matrix_product u HW (Some (seq 0 (length HW)))
    else None.
End FB.
Arguments fbasis R A V : clear implicits.
Arguments mmeasure V : clear implicits.
