(** Model of tensap/tensor_algebra/tensors/sparse_tensor.py (class SparseTensor), and of
    FullTensor.sparse, DiagonalTensor.sparse.  Exceptions are [None]. *)
From Coq Require Import List Arith Lia Bool ZArith.
From Verif.Base Require Import ListAux CRing Index.
From Verif.Model Require Import Sorting MultiIndices Numpy FullTensor Diagonal.
Import ListNotations.

(** the test [x != 0] *)
Class ZeroTest (R : Type) {CR : CRing R} := { isz : R -> bool; isz_ok : forall a, isz a = true <-> a = r0 }.

Section Sparse.
  Context {R : Type} {CR : CRing R} {ZT : ZeroTest R}.
  Local Open Scope cr_scope.

  (** [sp_zd]: the data array is 0-dimensional.  The constructor applies np.squeeze to the data, so
      this happens when there is exactly one stored entry.  The shape is also squeezed: it is 0-dimensional
      (and cannot be subscripted) for order 1.  The order is the length of the shape. *)
  Record sp := SP { sp_data : list R; sp_zd : bool; sp_ind : mi; sp_shape : list nat }.
  Definition sp_rows (x : sp) : list row := mi_rows (sp_ind x).
  Definition sp_order (x : sp) : nat := length (sp_shape x).

  (** sparse_tensor.py:97-112 __init__(data, indices, shape) *)
  Definition sp_make (data : list R) (ind : mi) (shp : list nat) : option sp :=
    if length data =? length (mi_rows ind) then Some (SP data (length data =? 1) ind shp) else None.

  (** sparse_tensor.py:127-162 storage, sparse_storage, count_non_zero *)
  Definition sp_storage (x : sp) : nat := length (sp_rows x).

  Definition zrow (is : list nat) : row := map Z.of_nat is.
  Definition nrow (r : row) : list nat := map Z.to_nat r.

  (** sparse_tensor.py:177-190 full: assignment [y.data[ind] = data] (the last one wins on duplicates;
      IndexError when out of range) *)
  Definition sp_full (x : sp) : option (nd R) :=
    if forallb (row_in_shape (sp_shape x)) (sp_rows x) && (length (sp_data x) =? length (sp_rows x))
    then Some (fold_left (fun D p => np_set D (nrow (fst p)) (snd p)) (combine (sp_rows x) (sp_data x)) (np_zeros (sp_shape x)))
    else None.

  (** full_tensor.py:154-167 sparse *)
  Definition ft_sparse (A : nd R) : option sp :=
    let ind := filter (fun k => negb (isz (get A (ind2subF (shape A) k)))) (seq 0 (np_size A)) in
    let* I := ind2sub (shape A) ind in
    sp_make (map (fun k => get A (ind2subF (shape A) k)) ind) I (shape A).
  (** diagonal_tensor.py:420-435 sparse *)
  Definition dt_sparse (x : dt R) : option sp :=
    let ind := filter (fun k => negb (isz (nth k (dt_data x) r0))) (seq 0 (length (dt_data x))) in
    sp_make (filter (fun a => negb (isz a)) (dt_data x))
            (MI (dt_order x) (map (fun i => repeat (Z.of_nat i) (dt_order x)) ind)) (dt_shape x).

  (** [data[rep] += v] (repeated positions: buffered, the last one wins) *)
  Definition add_at (data : list R) (rep : list nat) (v : list R) : option (list R) :=
    if length rep =? length v
    then Some (fold_left (fun d p => upd (fst p) (nth (fst p) data r0 + snd p) d) (combine rep v) data) else None.
  (** sparse_tensor.py:269-276 __add__ *)
  Definition sp_add (x y : sp) : option sp :=
    let ind := add_indices (sp_ind x) (sp_ind y) in
    let rep_x := snd (fst (intersect_indices ind (sp_ind x))) in
    let rep_y := snd (fst (intersect_indices ind (sp_ind y))) in
    let data := repeat r0 (length (mi_rows ind)) in
    let* data := add_at data rep_x (sp_data x) in
    let* data := add_at data rep_y (sp_data y) in
    sp_make data ind (sp_shape x).

  (** [data[ind]]: IndexError on a 0-d array *)
  Definition sp_take (x : sp) (ind : list nat) : option (list R) :=
    if sp_zd x then None else Some (map (fun k => nth k (sp_data x) r0) ind).
  (** sparse_tensor.py:538-561 dot *)
  Definition sp_dot (x y : sp) : option R :=
    let '(_, ind_x, ind_y) := intersect_indices (sp_ind x) (sp_ind y) in
    let* a := sp_take x ind_x in let* b := sp_take y ind_y in
    Some (lsum (combine a b) (fun p => fst p * snd p)).
  (** sparse_tensor.py:563-574 __mul__ *)
  Definition sp_mul (x y : sp) : option sp :=
    let '(_, ind_x, ind_y) := intersect_indices (sp_ind x) (sp_ind y) in
    let* a := sp_take x ind_x in let* b := sp_take y ind_y in
    Some (SP (map (fun p => fst p * snd p) (combine a b)) false
             (MI (mi_dim (sp_ind x)) (sel [] (sp_rows x) ind_x)) (sp_shape x)).

  (** sparse_tensor.py:438-475 transpose, itranspose (the shape of an order-1 tensor is 0-d: IndexError) *)
  Definition sp_transpose (x : sp) (dims : list nat) : option sp :=
    if sp_order x <=? 1 then None else
    if forallb (fun k => k <? sp_order x) dims
    then Some (SP (sp_data x) (sp_zd x) (MI (length dims) (map (fun r => sel 0%Z r dims) (sp_rows x)))
                  (sel 0%nat (sp_shape x) dims)) else None.
  Definition sp_itranspose (x : sp) (dims : list nat) : option sp := sp_transpose x (np_argsort dims).

  (** sparse_tensor.py:477-498 reshape: nothing checks the total size; ind2sub raises only when a
      stored linear index is out of range *)
  Definition sp_reshape (x : sp) (shp : list nat) : option sp :=
    let* ind := sub2ind (sp_ind x) (sp_shape x) in
    let* I := ind2sub shp ind in
    Some (SP (sp_data x) (sp_zd x) I shp).

  (** sparse_tensor.py:210-249 eval_at_indices(ind): the row [ind_i] gets data_j for the last j with
      the same multi-index, 0 if there is none *)
  Definition sp_eval_at_indices (x : sp) (rows : list row) : option (list R) :=
    if sp_zd x then None else
    Some (map (fun r => fold_left (fun acc p => if row_eqb r (fst p) then snd p else acc)
                                  (combine (sp_rows x) (sp_data x)) r0) rows).

  (** sparse_tensor.py:417-436 tensor_matrix_product_eval_diag *)
  Definition sp_tensor_matrix_product_eval_diag (x : sp) (Ms : list (nd R)) : option (nd R) :=
    if sp_zd x then None else
    let n := nth 0 (shape (nth 0 Ms (scalar r0))) 0%nat in
    if forallb (fun k => let M := nth k Ms (scalar r0) in
                         (ndim M =? 2) && (nth 0 (shape M) 0%nat =? n) &&
                         forallb (fun r => (0 <=? nth k r 0%Z)%Z && (nth k r 0%Z <? Z.of_nat (nth 1 (shape M) 0%nat))%Z) (sp_rows x))
               (seq 0 (sp_order x)) && (0 <? sp_order x) && (length (sp_data x) =? length (sp_rows x))
    then Some (ND [n] (fun is => lsum (combine (sp_rows x) (sp_data x)) (fun p =>
                 lprod (seq 0 (sp_order x)) (fun k => get (nth k Ms (scalar r0)) [nth 0 is 0%nat; Z.to_nat (nth k (fst p) 0%Z)])
                 * snd p)))
    else None.

  (** [np.unique(array, axis=0, return_inverse=True)]: the distinct rows in lexicographic order, and the
      position of each row *)
  Fixpoint row_ltb (a b : row) : bool :=
    match a, b with
    | x :: a', y :: b' => (x <? y)%Z || ((x =? y)%Z && row_ltb a' b')
    | [], _ :: _ => true
    | _, _ => false
    end.
  Fixpoint uinsert (r : row) (l : list row) : list row :=
    match l with
    | [] => [r]
    | s :: l' => if row_eqb r s then l else if row_ltb r s then r :: l else s :: uinsert r l'
    end.
  Definition np_unique_rows (l : list row) : list row := fold_right uinsert [] l.
  Fixpoint pos_of (r : row) (l : list row) : nat :=
    match l with [] => 0%nat | s :: l' => if row_eqb r s then 0%nat else S (pos_of r l') end.
  (** [np.bincount(ind, weights=a)] where the positions reach [n - 1] *)
  Definition bincount (n : nat) (ind : list nat) (a : list R) : list R :=
    map (fun k => lsum (combine ind a) (fun p => if fst p =? k then snd p else r0)) (seq 0 n).

  (** sparse_tensor.py:284-348 tensor_vector_product: one pass of the loop, on (data, rows, number of
      columns); [d] is the current column of the contracted dimension.  When no row or no column remains
      (size 0) the data array is left as it was. *)
  Definition tvp_step (st : list R * list row * nat) (v : list R) (d : nat) : option (list R * list row * nat) :=
    let '(data, rows, nc) := st in
    if negb (forallb (fun r : row => (0 <=? nth d r 0%Z)%Z && (nth d r 0%Z <? Z.of_nat (length v))%Z) rows) then None else
    let* a := vop rmul data (map (fun r => nth (Z.to_nat (nth d r 0%Z)) v r0) rows) in
    let keep := filter (fun k => negb (k =? d)) (seq 0 nc) in
    let rows1 := map (fun r => sel 0%Z r keep) rows in
    let nz := filter (fun p => negb (isz (snd p))) (combine rows1 a) in
    let rows2 := map fst nz in
    let nc2 := length keep in
    if negb (length rows2 * nc2 =? 0)
    then let u := np_unique_rows rows2 in
         Some (bincount (length u) (map (fun r => pos_of r u) rows2) (map snd nz), u, nc2)
    else Some (data, rows2, nc2).
  Fixpoint tvp_loop (st : list R * list row * nat) (vs : list (list R)) (dims : list nat) : option (list R * list row * nat) :=
    match vs, dims with
    | v :: vs', d :: dims' =>
      let* st' := tvp_step st v d in
      tvp_loop st' vs' (map (fun e => if d <? e then (e - 1)%nat else e) dims')
    | _, _ => Some st
    end.
  (** the data array when no dimension remains ([inl]), a SparseTensor otherwise ([inr]) *)
  Definition sp_tensor_vector_product (x : sp) (vs : list (list R)) (dims : option (list nat)) : option (list R + sp) :=
    let dims := match dims with None => seq 0 (sp_order x) | Some d => d end in
    if negb (length vs =? length dims) then None else
    let not_dims := compl (sp_order x) dims in
    if negb (length not_dims =? 0) && (sp_order x <=? 1) then None else
    let* st := tvp_loop (sp_data x, sp_rows x, sp_order x) vs dims in
    let '(data, rows, nc) := st in
    match not_dims with
    | [] => Some (inl data)
    | _ => Some (inr (SP data (sp_zd x && match vs with [] => true | _ => false end) (MI nc rows) (sel 0%nat (sp_shape x) not_dims)))
    end.

  (** sparse_tensor.py:350-415 tensor_matrix_product, one dimension [mu].  [a] is the product of the
      matrix with the matricization restricted to the nonempty columns [x2u]. *)
  Definition np_unique_nat (l : list nat) : list nat := fold_right (fun x acc => if inb x acc then acc else
     filter (fun y => y <? x) acc ++ x :: filter (fun y => x <? y) acc) [] l.
  Definition sp_tmp_step (x : sp) (mu : nat) (M : nd R) : option sp :=
    let perm := mu :: compl (sp_order x) [mu] in
    let* t := sp_transpose x perm in
    if sp_zd t then None else
    let nz := filter (fun p => negb (isz (snd p))) (combine (sp_rows t) (sp_data t)) in
    let* ind := sub2ind (MI (mi_dim (sp_ind t)) (map fst nz)) (sp_shape t) in
    let n0 := nth 0 (sp_shape t) 0%nat in let rest := prodn (tl (sp_shape t)) in
    let x1 := map (fun k => nth 0 (ind2subF [n0; rest] k) 0%nat) ind in
    let x2 := map (fun k => nth 1 (ind2subF [n0; rest] k) 0%nat) ind in
    let x2u := np_unique_nat x2 in
    match x2u with
    | [] => None
    | _ =>
      if negb ((ndim M =? 2) && (nth 1 (shape M) 0%nat =? n0)) then None else
      let m := nth 0 (shape M) 0%nat in
      let a := fun i c => lsum (combine (combine x1 x2) (map snd nz)) (fun p =>
                 if snd (fst p) =? nth c x2u 0%nat then get M [i; fst (fst p)] * snd p else r0) in
      let ents := filter (fun ic => negb (isz (a (fst ic) (snd ic))))
                         (concat (map (fun i => map (fun c => (i, c)) (seq 0 (length x2u))) (seq 0 m))) in
      let shp := m :: tl (sp_shape t) in
      let* I := ind2sub shp (map (fun ic => sub2indF [m; rest] [fst ic; nth (snd ic) x2u 0%nat]) ents) in
      sp_itranspose (SP (map (fun ic => a (fst ic) (snd ic)) ents) false I shp) perm
    end.
  Definition sp_tensor_matrix_product (x : sp) (Ms : list (nd R)) (dims : option (list nat)) : option sp :=
    let dims := match dims with None => seq 0 (sp_order x) | Some d => d end in
    if negb (length Ms =? length dims) then None
    else ofold (fun y p => sp_tmp_step y (fst p) (snd p)) (combine dims Ms) x.
  (** sparse_tensor.py:654-678 dot_with_rank_one_metric *)
  Definition sp_dot_with_rank_one_metric (x y : sp) (Ms : list (nd R)) : option R :=
    let* s := sp_tensor_matrix_product y Ms None in sp_dot x s.
End Sparse.
Arguments sp R : clear implicits.
