(** Model of approximation/bases/functional_basis_array.py:80-369: algebra and statistics of a FunctionalBasisArray.
    The object is given by its basis [b], its attribute shape [s] (np.atleast_1d(shape)) and the array [d] it keeps
    in its attribute data, of shape cardinal :: s (the constructor is [fba_init], Model/FunctionalBases.v).
    An exception is [None]. *)
From Coq Require Import List Arith Bool ZArith.
From Verif.Base Require Import ListAux CRing Index.
From Verif.Model Require Import MultiIndices Numpy FullTensor FunctionalBases.
Import ListNotations.

Section BA.
  Context {R : Type} {CR : CRing R} {A V : Type}.
  Local Open Scope cr_scope.
  Notation fb := (fbasis R A V).

  (** functional_basis_array.py:80-81 __add__, 83-84 __neg__, 86-87 __sub__: the data of the new object; the constructor
      is called again on the array of data *)
  Definition fba_add (b : fb) (s : list nat) (f g : nd R) : option (nd R) := let* d := np_binop radd f g in fba_init (fb_card b) s d.
  Definition fba_neg (b : fb) (s : list nat) (f : nd R) : option (nd R) := fba_init (fb_card b) s (np_map ropp f).
  Definition fba_sub (b : fb) (s : list nat) (f g : nd R) : option (nd R) := let* d := np_binop (fun x y => x - y) f g in fba_init (fb_card b) s d.
  (** functional_basis_array.py:89-92 __mul__ by a FunctionalBasisArray (or an array), and by a number (an array of
      shape []) *)
  Definition fba_mul (b : fb) (s : list nat) (f g : nd R) : option (nd R) := let* d := np_binop rmul f g in fba_init (fb_card b) s d.
  Definition fba_scale (b : fb) (s : list nat) (f : nd R) (c : R) : option (nd R) := fba_mul b s f (scalar c).
  (** functional_basis_array.py:109-110 matmul(v), data and v of order 2: the shape of the new object is data.shape[1:] *)
  Definition fba_matmul (b : fb) (f v : nd R) : option (list nat * nd R) :=
    let* d := np_matmul f v in let* d' := fba_init (fb_card b) (tl (shape d)) d in Some (tl (shape d), d').
  (** functional_basis_array.py:151 dot(g, dim); dim=None sums over all the axes *)
  Definition fba_dot (f g : nd R) (dim : option nat) : option (nd R) :=
    let* d := np_binop rmul f g in np_sum_keep d (match dim with Some k => [k] | None => seq 0 (ndim d) end).
  (** functional_basis_array.py:207-210, 232 mean(measure) = expectation(measure): np.tile(ravel(M), shape ++ [1]) has the
      shape shape ++ [size of M] and the transposition puts the last axis first *)
  Definition fba_tile (M : list R) (s : list nat) : nd R := ND (length M :: s) (fun is => nth (hd 0%nat is) M r0).
  Definition fba_mean (b : fb) (s : list nat) (d : nd R) (m : option V) : option (nd R) :=
    let* y := np_binop rmul d (fba_tile (fb_mean b m) s) in np_sum_keep y [0%nat].
  (** functional_basis_array.py:310-315 dot_product_expectation(g, dims, measure): dims and measure are not used;
      [same] is the value of self.basis == g.basis *)
  Definition fba_dot_expectation (same : bool) (b : fb) (f g : nd R) : option (nd R) :=
    if same && fb_orth b then fba_dot f g (Some 0%nat) else None.
  (** functional_basis_array.py:254-255 variance(measure) *)
  Definition fba_variance (same : bool) (b : fb) (s : list nat) (d : nd R) (m : option V) : option (nd R) :=
    let* e := fba_mean b s d m in let* v := fba_dot_expectation same b d d in np_binop (fun x y => x - y) v (np_map (fun x => x * x) e).
  (** functional_basis_array.py:572 storage, 585 sparse_storage ([nz]: the test x <> 0) *)
  Definition fba_storage (d : nd R) : nat := np_size d.
  Definition fba_sparse_storage (nz : R -> bool) (d : nd R) : nat :=
    length (filter (fun k => nz (get d (ind2subF (shape d) k))) (seq 0 (np_size d))).

  (** sparse_tensor_product_functional_basis.py:175-204 conditional_expectation(dims) for dims not empty and different from
      the list of all the dimensions, no measure: the multi-indices of the basis of the FunctionalBasisArray that is
      returned, and its data *)
  Definition sb_cond (bs : list fb) (I : mi) (dims : list nat) : option (mi * nd R) :=
    let dims_C := compl (length bs) dims in
    let* M := fbs_mean bs (Some dims_C) MNone in
    let* J := keep_dims I dims in
    let* m := sb_mean_with I dims_C M in
    let n := length (mi_rows J) in let N := length (mi_rows I) in
    let row := fun c => map (fun k => nth k (nth c (mi_rows I) []) 0%Z) dims in
    let D := ND [n; N] (fun ix => let j := nth 0 ix 0%nat in let c := nth 1 ix 0%nat in
                                  if list_eq_dec Z.eq_dec (nth j (mi_rows J) []) (row c) then nth c m r0 else r0) in
    let* D' := fba_init n [N] D in
    Some (J, D').
  (** functional_basis_array.py:359-369 conditional_expectation(dims) of a FunctionalBasisArray of shape [1] on the basis
      SparseTensorProductFunctionalBasis(bs, I) (when numpy accepts the array f.shape inside the tuple of line 367) *)
  Definition fba_cond (bs : list fb) (I : mi) (d : nd R) (dims : list nat) : option (mi * nd R) :=
    let* h := sb_cond bs I dims in
    let* d' := np_reshapeF d [length (mi_rows I); 1%nat] in
    let* y := np_matmul (snd h) d' in
    Some (fst h, y).
End BA.
