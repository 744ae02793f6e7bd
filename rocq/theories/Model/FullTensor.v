(** Model of tensap/tensor_algebra/tensors/full_tensor.py (class FullTensor).
    A FullTensor is its [data] array; the flags is_orth/orth_dim (set by [orth] only, reset by every
    constructor call) are returned by [ft_orth] next to the tensor. *)
From Coq Require Import List Arith Lia Bool ZArith.
From Verif.Base Require Import ListAux CRing Index.
From Verif.Model Require Import Sorting Numpy.
Import ListNotations.

Definition bind {A B} (o : option A) (f : A -> option B) : option B :=
  match o with Some a => f a | None => None end.
Notation "'let*' x ':=' a 'in' b" := (bind a (fun x => b)) (at level 200, x name, a at level 100, b at level 200).

(** an argument of [sub_tensor]: ":" or a list of indices *)
Inductive slice := All | Pick (ks : list nat).

Section FullTensor.
  Context {R : Type} {CR : CRing R}.
  Local Open Scope cr_scope.

  (** full_tensor.py:192-226 [__add__], [__sub__], [__neg__], [__mul__] (numpy broadcasting; a scalar
      argument is a 0-d array), [__radd__], [__rsub__] (-self + arg), [__rmul__];
      hadamard_product 228-245 *)
  Definition ft_add (A B : nd R) : option (nd R) := np_binop radd A B.
  Definition ft_sub (A B : nd R) : option (nd R) := np_binop rsub A B.
  Definition ft_neg (A : nd R) : nd R := np_map ropp A.
  Definition ft_mul (A B : nd R) : option (nd R) := np_binop rmul A B.
  Definition ft_rsub (A B : nd R) : option (nd R) := ft_add (ft_neg A) B.
  Definition ft_hadamard (A B : nd R) : option (nd R) := ft_mul A B.

  (** full_tensor.py:247-257 storage *)
  Definition ft_storage (A : nd R) : nat := np_size A.
  (** full_tensor.py:259-269 sparse_storage ([np.count_nonzero]); [eqb0] decides x = 0 *)
  Definition ft_sparse_storage (eqb0 : R -> bool) (A : nd R) : nat :=
    length (filter (fun is => negb (eqb0 (get A is))) (boxF (shape A))).

  (** full_tensor.py:51-84 constructor with [order]: trailing axes of size 1 are appended *)
  Definition ft_of (A : nd R) (order : nat) : nd R :=
    fold_left np_expand_dims (seq (ndim A) (order - ndim A)) A.

  (** full_tensor.py:389-406 reshape *)
  Definition ft_reshape (A : nd R) (s : list nat) : option (nd R) := np_reshapeF A s.
  (** full_tensor.py:408-425 transpose *)
  Definition ft_transpose (A : nd R) (dims : list nat) : option (nd R) := np_transpose A dims.
  (** full_tensor.py:427-443 itranspose *)
  Definition ft_itranspose (A : nd R) (dims : list nat) : option (nd R) := ft_transpose A (np_argsort dims).
  (** full_tensor.py:445-468 squeeze *)
  Definition ft_squeeze (A : nd R) (dims : option (list nat)) : option (nd R) :=
    match dims with None => np_squeeze_all A | Some d => np_squeeze A d end.

  (** full_tensor.py:470-485 dot: [np.sum(np.multiply(., .))] *)
  Definition ft_dot (A B : nd R) : option R :=
    match np_binop rmul A B with Some C => Some (np_sum C) | None => None end.

  (** full_tensor.py:511-544 sub_tensor: one [np.take] per dimension that is not ":" *)
  Definition ft_sub_tensor (A : nd R) (indices : list slice) : option (nd R) :=
    if length indices <? ndim A then None
    else
      ofold (fun (D : nd R) dim =>
               match nth dim indices All with
               | All => Some D
               | Pick ks => np_take D ks dim
               end) (seq 0 (ndim A)) A.

  (** full_tensor.py:546-597 cat *)
  Definition ft_cat (A B : nd R) (dims : option (list nat)) : option (nd R) :=
    if negb (ndim A =? ndim B) then None
    else
      let dims := match dims with None => seq 0 (ndim A) | Some d => d end in
      let dims_not := compl (ndim A) dims in
      if negb (list_eqb (sel 0%nat (shape A) dims_not) (sel 0%nat (shape B) dims_not)) then None
      else
        match dims with
        | [d] => np_concatenate A B d
        | _ =>
          if negb (forallb (fun k => k <? ndim A) dims) then None
          else
            let shape_out := map (fun k => if inb k dims then (nth k (shape A) 0 + nth k (shape B) 0)%nat
                                           else nth k (shape A) 0%nat) (seq 0 (ndim A)) in
            let zeros := repeat 0%nat (ndim A) in
            let diff := fun s => map (fun p => (fst p - snd p)%nat) (combine shape_out s) in
            ft_add (np_pad A zeros (diff (shape A))) (np_pad B (diff (shape B)) zeros)
        end.

  (** full_tensor.py:599-617 reduce_sum *)
  Definition ft_reduce_sum (A : nd R) (dims : option (list nat)) : option (nd R) :=
    np_sum_keep A (match dims with None => seq 0 (ndim A) | Some d => d end).

  (** full_tensor.py:639-678 kron.  [self.shape * tensor2.shape] is a product of two 1-D arrays
      (it raises when the orders differ and none is 1). *)
  Definition vmul (a b : list nat) : option (list nat) :=
    if length a =? length b then Some (map (fun p => (fst p * snd p)%nat) (combine a b))
    else match a, b with
         | [x], _ => Some (map (fun y => (x * y)%nat) b)
         | _, [y] => Some (map (fun x => (x * y)%nat) a)
         | _, _ => None
         end.
  (** [np.reshape(np.transpose(np.reshape(np.arange(2m), [2, m])), 2m)]: 0, m, 1, m+1, ... *)
  Definition kron_perm (m : nat) : list nat := concat (map (fun k => [k; (m + k)%nat]) (seq 0 m)).
  Definition ft_kron (A B : nd R) : option (nd R) :=
    let m := Nat.max (ndim A) (ndim B) in
    let shape1 := shape A ++ repeat 1%nat (m - ndim A) in
    let shape2 := shape B ++ repeat 1%nat (m - ndim B) in
    let* data1 := np_reshapeC A [np_size A; 1%nat] in
    let* data2 := np_reshapeC B [1%nat; np_size B] in
    let* P := np_matmul data1 data2 in
    let* P4 := np_reshapeC P (shape1 ++ shape2) in
    let* Pt := np_transpose P4 (kron_perm m) in
    let* D := np_reshapeC Pt (map (fun p => (fst p * snd p)%nat) (combine shape1 shape2)) in
    let* s := vmul (shape A) (shape B) in
    np_reshapeF D s.

  (** full_tensor.py:787-820 tensordot.  [dims1 == 0] with [dims2 = None] is the outer product. *)
  Definition ft_outer (A B : nd R) : option (nd R) := np_tensordot A B [] [].
  Definition ft_tensordot (A B : nd R) (dims1 dims2 : list nat) : option (nd R) :=
    if forallb (fun p => nth (fst p) (shape A) 0%nat =? nth (snd p) (shape B) 0%nat) (combine dims1 dims2)
    then np_tensordot A B dims1 dims2 else None.

  (** full_tensor.py:822-899 tensordot_eval_diag.  [lab_upd l ks vs] is [l[ks] = vs] on label arrays. *)
  Definition lab_upd (l : list nat) (ks vs : list nat) : list nat :=
    fold_left (fun l p => upd (fst p) (snd p) l) (combine ks vs) l.
  Definition ft_tensordot_eval_diag (A B : nd R) (dims1 dims2 diag1 diag2 : list nat) (diag : bool) : option (nd R) :=
    let ind1 := seq 0 (ndim A) in
    let ind2 := seq (ndim A) (ndim B) in
    let ok := forallb (fun k => k <? ndim A) (dims1 ++ diag1) && forallb (fun k => k <? ndim B) (dims2 ++ diag2) in
    if negb ok then None else
    let* i12 :=
      (if diag then
         if negb (length diag1 =? 0) && negb (length diag2 =? 0) then
           if length diag1 =? length diag2 then Some (ind1, lab_upd ind2 diag2 (sel 0%nat ind1 diag1)) else None
         else Some (ind1, ind2)
       else
         match diag1 with
         | [] => None (* diag_dims1[0]: IndexError *)
         | d0 :: _ =>
           let ind1' := lab_upd ind1 diag1 (repeat (nth d0 ind1 0%nat) (length diag1)) in
           Some (ind1', lab_upd ind2 diag2 (repeat (nth d0 ind1' 0%nat) (length diag2)))
         end) in
    let ind1 := fst i12 in
    let* ind2 := (if negb (length dims1 =? 0) && negb (length dims2 =? 0) then
                    if length dims1 =? length dims2 then Some (lab_upd (snd i12) dims2 (sel 0%nat ind1 dims1)) else None
                  else Some (snd i12)) in
    let ind_out := filter (fun i => negb (inb i dims1)) (nubn (ind1 ++ ind2)) in
    np_einsum A ind1 B ind2 ind_out.
  (** full_tensor.py:1116-1141 outer_product_eval_diag *)
  Definition ft_outer_eval_diag (A B : nd R) (dims1 dims2 : list nat) (diag : bool) : option (nd R) :=
    ft_tensordot_eval_diag A B [] [] dims1 dims2 diag.

  (** full_tensor.py:901-963 tensor_matrix_product: contraction of axis [dim] with axis 1 of the
      matrix, then the new axis is moved back to its place *)
  Definition ft_tmp_step (T : nd R) (p : nat * nd R) : option (nd R) :=
    let* C := ft_tensordot T (snd p) [fst p] [1%nat] in
    ft_itranspose C (compl (ndim T) [fst p] ++ [fst p]).
  Definition ft_tensor_matrix_product (A : nd R) (matrices : list (nd R)) (dims : option (list nat)) : option (nd R) :=
    let dims := match dims with None => seq 0 (ndim A) | Some d => d end in
    if negb (length matrices =? length dims) then None
    else ofold ft_tmp_step (combine dims matrices) A.

  (** full_tensor.py:965-998 tensor_vector_product: each vector becomes a 1 x n matrix *)
  Definition row_of_vector (v : nd R) : nd R := ND [1%nat; np_size v] (fun is => get v (ind2subF (shape v) (nth 1 is 0%nat))).
  Definition ft_tensor_vector_product (A : nd R) (vectors : list (nd R)) (dims : option (list nat)) : option (nd R) :=
    let dims := match dims with None => seq 0 (ndim A) | Some d => d end in
    if negb (length vectors =? length dims) then None
    else
      let* T := ft_tensor_matrix_product A (map row_of_vector vectors) (Some dims) in
      ft_squeeze T (Some dims).

  (** full_tensor.py:1045-1079 tensor_diagonal_matrix_product *)
  Definition ft_tensor_diagonal_matrix_product (A : nd R) (vectors : list (nd R)) (dims : option (list nat)) : option (nd R) :=
    let dims := match dims with None => seq 0 (ndim A) | Some d => d end in
    if negb (length vectors =? length dims) then None
    else ft_tensor_matrix_product A (map (fun v => np_diag (ND [np_size v] (fun is => get v (ind2subC (shape v) (nth 0 is 0%nat))))) vectors) (Some dims).

  (** full_tensor.py:1000-1043 tensor_matrix_product_eval_diag *)
  Definition ft_tmp_eval_diag (A : nd R) (matrices : list (nd R)) (dims : option (list nat)) : option (nd R) :=
    let dims := match dims with None => seq 0 (ndim A) | Some d => d end in
    if negb (length matrices =? length dims) then None
    else
      let ind := rev (np_argsort dims) in
      match ind with
      | [] => None (* ind[0]: IndexError *)
      | i0 :: ind' =>
        let m := fun i => nth i matrices (scalar r0) in
        let* out := ft_tensordot (m i0) A [1%nat] [nth i0 dims 0%nat] in
        ofold (fun out i => ft_tensordot_eval_diag (m i) out [1%nat] [(nth i dims 0 + 1)%nat] [0%nat] [0%nat] false) ind' out
      end.

  (** full_tensor.py:1081-1114 matricize *)
  Definition ft_matricize (A : nd R) (dims1 : list nat) (dims2 : option (list nat)) : option (nd R) :=
    let dims2 := match dims2 with None => compl (ndim A) dims1 | Some d => d end in
    if negb (forallb (fun k => k <? ndim A) (dims1 ++ dims2)) then None else
    let* T := ft_transpose A (dims1 ++ dims2) in
    ft_reshape T [prodn (sel 0%nat (shape A) dims1); prodn (sel 0%nat (shape A) dims2)].

  (** full_tensor.py:729-752 dot_with_rank_one_metric *)
  Definition ft_dot_with_rank_one_metric (A B : nd R) (matrices : list (nd R)) : option R :=
    let* T := ft_tensor_matrix_product B matrices None in ft_dot A T.

  (** full_tensor.py:754-785 tensordot_matrix_product_except_dim *)
  Definition ft_tdmp_except_dim (A B : nd R) (matrices : list (nd R)) (dim : nat) : option (nd R) :=
    if negb (length matrices =? ndim A) then None else
    let dims := compl (ndim A) [dim] in
    let* T := ft_tensor_matrix_product B (map (fun i => nth i matrices (scalar r0)) dims) (Some dims) in
    ft_tensordot A T dims dims.

  (** full_tensor.py:283-350 eval_at_indices(indices, dims): [indices] is a nonempty list of rows of
      [ncols] entries.  The result is a 1-D array when all dimensions are given. *)
  Definition rows_transpose (ncols : nat) (rows : list (list nat)) : list (list nat) :=
    map (fun j => map (fun r => nth j r 0%nat) rows) (seq 0 ncols).
  Definition ft_eval_at_indices (A : nd R) (ncols : nat) (rows : list (list nat)) (dims : option (list nat)) : option (nd R) :=
    let* dr :=
      (match dims with
       | None => Some (seq 0 (ndim A), rows, ncols)
       | Some dims =>
         let rows' := if ncols =? length dims then rows else rows_transpose ncols rows in
         let ncols' := if ncols =? length dims then ncols else length rows in
         if negb (length dims =? ncols') then None
         else let s := np_argsort dims in Some (sel 0%nat dims s, map (fun r => sel 0%nat r s) rows', ncols')
       end) in
    let '(dims, rows, ncols) := dr in
    if negb (length dims =? ncols) then None
    else if length dims =? ndim A then
      if forallb (validb (shape A)) rows
      then Some (ND [length rows] (fun is => get A (nth (nth 0 is 0%nat) rows []))) else None
    else if length dims =? 1 then
      let d := nth 0 dims 0%nat in
      if d <? ndim A then
        ft_sub_tensor A (upd d (Pick (map (fun r => nth 0 r 0%nat) rows)) (repeat All (ndim A)))
      else None
    else
      let no_dims := compl (ndim A) dims in
      let sh := sel 0%nat (shape A) dims in
      if negb (forallb (validb sh) rows) then None
      else
        let lin := map (sub2indC sh) rows in   (* np.ravel_multi_index without order: C order *)
        let* M := ft_matricize A dims None in
        let* E := ft_sub_tensor M [Pick lin; All] in
        let* E := ft_reshape E (length rows :: sel 0%nat (shape A) no_dims) in
        let left := nth 0 dims 0%nat in
        ft_transpose E (seq 1 left ++ [0%nat] ++ seq (left + 1) (ndim A - length dims - left)).

  (** full_tensor.py:352-387 eval_diag *)
  Definition ft_eval_diag (A : nd R) (dims : option (list nat)) : option (nd R) :=
    let dims := match dims with None => seq 0 (ndim A) | Some d => d end in
    if length dims =? 1 then Some A
    else
      match dims with
      | [] => None
      | d0 :: _ =>
        if forallb (fun x => nth x (shape A) 0%nat =? nth d0 (shape A) 0%nat) dims
        then ft_eval_at_indices A (length dims)
               (map (fun i => repeat i (length dims)) (seq 0 (nth d0 (shape A) 0%nat))) (Some dims)
        else None
      end.

  (** full_tensor.py:680-727 orth(dim); [qr] is the (reduced) QR routine of numpy/tensorflow.
      Second component: r_matrix. *)
  Definition ft_orth (qr : nd R -> nd R * nd R) (A : nd R) (dim : nat) : option (nd R * nd R) :=
    let dims := seq 0 dim ++ seq (dim + 1) (ndim A - dim - 1) ++ [dim] in
    let* T := ft_transpose A dims in
    let shape0 := shape T in
    let* M := ft_reshape T [prodn (removelast shape0); last shape0 0%nat] in
    let '(Q, r_matrix) := qr M in
    let shape0 := removelast shape0 ++ [nth 0 (shape r_matrix) 0%nat] in
    let* Q := ft_reshape Q shape0 in
    let* Q := ft_itranspose Q dims in
    Some (Q, r_matrix).

  (** full_tensor.py:1325-1352 diag(diag, order): zeros, then [data[tuple(ind * ones)] = diag_ind] *)
  Definition np_set (A : nd R) (idx : list nat) (v : R) : nd R :=
    ND (shape A) (fun is => if list_eqb is idx then v else get A is).
  Definition ft_diag (v : list R) (order : nat) : nd R :=
    fold_left (fun D p => np_set D (repeat (fst p) order) (snd p)) (combine (seq 0 (length v)) v)
              (np_zeros (repeat (length v) order)).
End FullTensor.
