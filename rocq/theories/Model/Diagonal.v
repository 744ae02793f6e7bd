(** Model of tensap/tensor_algebra/tensors/diagonal_tensor.py (class DiagonalTensor).
    The data array is 1-D: a list.  The flag is_orth (always True) is not modelled. *)
From Coq Require Import List Arith Lia Bool ZArith.
From Verif.Base Require Import ListAux CRing Index.
From Verif.Model Require Import Sorting Numpy FullTensor.
Import ListNotations.

Section Diagonal.
  Context {R : Type} {CR : CRing R}.
  Local Open Scope cr_scope.

  Record dt := DT { dt_data : list R; dt_order : nat; dt_shape : list nat }.

  (** diagonal_tensor.py:45-76 __init__(data, order) *)
  Definition dt_make (data : list R) (order : nat) : dt := DT data order (repeat (length data) order).

  (** element-wise operation on 1-D arrays, with numpy's broadcasting of size 1 *)
  Definition vop (f : R -> R -> R) (a b : list R) : option (list R) :=
    if length a =? length b then Some (map (fun p => f (fst p) (snd p)) (combine a b))
    else match a, b with
         | [x], _ => Some (map (fun y => f x y) b)
         | _, [y] => Some (map (fun x => f x y) a)
         | _, _ => None
         end.

  (** diagonal_tensor.py:152-174 storage, sparse_storage *)
  Definition dt_storage (x : dt) : nat := length (dt_data x).

  (** diagonal_tensor.py:176-186 __add__, __neg__, __sub__, __mul__ *)
  Definition dt_add (x y : dt) : option dt := let* d := vop radd (dt_data x) (dt_data y) in Some (dt_make d (dt_order x)).
  Definition dt_neg (x : dt) : dt := dt_make (map ropp (dt_data x)) (dt_order x).
  Definition dt_sub (x y : dt) : option dt := let* d := vop rsub (dt_data x) (dt_data y) in Some (dt_make d (dt_order x)).
  Definition dt_mul (x y : dt) : option dt := let* d := vop rmul (dt_data x) (dt_data y) in Some (dt_make d (dt_order x)).

  (** diagonal_tensor.py:396-406 full *)
  Definition dt_full (x : dt) : nd R := ft_diag (dt_data x) (dt_order x).

  (** [np.hstack([np.reshape(v, [-1, 1]) ...])] then [np.prod(., 1)]: the vectors must have equal
      lengths; with no vector hstack raises *)
  Definition rows_prod (vectors : list (list R)) : option (list R) :=
    match vectors with
    | [] => None
    | v :: vs =>
      if forallb (fun w => length w =? length v) vs
      then Some (map (fun i => lprod vectors (fun w => nth i w r0)) (seq 0 (length v))) else None
    end.
  (** diagonal_tensor.py:240-265 tensor_vector_product(vectors): a number when as many vectors as
      dimensions are given ([inl]), a DiagonalTensor otherwise ([inr]); more vectors: np.full raises *)
  Definition dt_tensor_vector_product (x : dt) (vectors : list (list R)) : option (R + dt) :=
    let* p := rows_prod vectors in
    let* data := vop rmul (dt_data x) p in
    if length vectors =? dt_order x then Some (inl (lsum data (fun a => a)))
    else if length vectors <? dt_order x then Some (inr (dt_make data (dt_order x - length vectors))) else None.
  (** diagonal_tensor.py:318-338 tensor_diagonal_matrix_product *)
  Definition dt_tensor_diagonal_matrix_product (x : dt) (vectors : list (list R)) : option dt :=
    let* p := rows_prod vectors in
    let* data := vop rmul p (dt_data x) in Some (dt_make data (dt_order x)).

  (** diagonal_tensor.py:207-227, 267-316, 340-365: through the dense tensor *)
  Definition dt_sub_tensor (x : dt) (sl : list slice) : option (nd R) := ft_sub_tensor (dt_full x) sl.
  Definition dt_tensor_matrix_product (x : dt) (Ms : list (nd R)) (dims : option (list nat)) : option (nd R) :=
    ft_tensor_matrix_product (dt_full x) Ms dims.
  Definition dt_tensor_matrix_product_eval_diag (x : dt) (Ms : list (nd R)) (dims : option (list nat)) : option (nd R) :=
    let* T := dt_tensor_matrix_product x Ms dims in ft_eval_diag T dims.
  Definition dt_tensordot (x y : dt) (d1 d2 : list nat) : option (nd R) :=
    ft_tensordot (dt_full x) (dt_full y) d1 d2.

  (** diagonal_tensor.py:367-382 dot *)
  Definition dt_dot (x y : dt) : option R := let* d := vop rmul (dt_data x) (dt_data y) in Some (lsum d (fun a => a)).

  (** diagonal_tensor.py:437-459 cat *)
  Definition dt_cat (x y : dt) : dt := dt_make (dt_data x ++ dt_data y) (dt_order x).
  (** diagonal_tensor.py:461-479 kron: [np.reshape(np.outer(y, x), -1, order="F")] *)
  Definition dt_kron (x y : dt) : dt :=
    let nx := length (dt_data x) in let ny := length (dt_data y) in
    dt_make (map (fun k => let is := ind2subF [ny; nx] k in
                           nth (nth 0 is 0%nat) (dt_data y) r0 * nth (nth 1 is 0%nat) (dt_data x) r0) (seq 0 (ny * nx)))
            (dt_order x).

  (** diagonal_tensor.py:481-511 dot_with_rank_one_metric(y, matrix): each matrix is flattened in row-major
      order, the columns are stacked, and the result is reshaped in column-major order *)
  Definition dt_metric (ms : list (nd R)) (n1 n2 order : nat) : option (nat -> nat -> R) :=
    match ms with
    | [] => None
    | M :: ms' =>
      if negb (forallb (fun N => np_size N =? np_size M) ms') then None else
      let stacked := ND [np_size M; 1%nat; length ms]
                        (fun is => let N := nth (nth 2 is 0%nat) ms (scalar r0) in
                                   get N (ind2subC (shape N) (nth 0 is 0%nat))) in
      let* T := np_reshapeF stacked [n1; n2; order] in
      Some (fun i j => lprod (seq 0 order) (fun k => get T [i; j; k]))
    end.
  Definition dt_dot_with_rank_one_metric (x y : dt) (ms : list (nd R)) : option R :=
    let n1 := nth 0 (dt_shape x) 0%nat in let n2 := nth 0 (dt_shape y) 0%nat in
    let* P := dt_metric ms n1 n2 (dt_order x) in
    if (n1 =? length (dt_data x)) && (n2 =? length (dt_data y))
    then Some (rsum n1 (fun i => nth i (dt_data x) r0 * rsum n2 (fun j => P i j * nth j (dt_data y) r0))) else None.

  (** diagonal_tensor.py:513-545 tensordot_matrix_product_except_dim(y, matrices, dim): the matrices of
      the other dimensions are put side by side (np.hstack of 2-D arrays with [m] rows), an axis is
      inserted, and the result is reshaped in column-major order *)
  Definition dt_tdmp_except_dim (x y : dt) (ms : list (nd R)) (dim : nat) : option (nd R) :=
    let ind := compl (dt_order x) [dim] in
    let n1 := nth 0 (dt_shape x) 0%nat in let n2 := nth 0 (dt_shape y) 0%nat in
    match map (fun k => nth k ms (scalar r0)) ind with
    | [] => None
    | M :: Ms' =>
      let* H := ofold (fun H N => np_concatenate H N 1) Ms' M in
      let* T := np_reshapeF (ND [nth 0 (shape H) 0%nat; 1%nat; nth 1 (shape H) 0%nat]
                              (fun is => get H [nth 0 is 0%nat; nth 2 is 0%nat])) [n1; n2; length ind] in
      Some (ND [n1; n2] (fun is => lprod (seq 0 (length ind)) (fun k => get T [nth 0 is 0%nat; nth 1 is 0%nat; k])
                                   * (nth (nth 0 is 0%nat) (dt_data x) r0 * nth (nth 1 is 0%nat) (dt_data y) r0)))
    end.

  (** diagonal_tensor.py:559-586 eval_diag: all dimensions: the data array ([inl]); otherwise a
      DiagonalTensor with the dimensions strictly between (and the last of) the extreme ones removed *)
  Definition dt_eval_diag (x : dt) (dims : option (list nat)) : option (list R + dt) :=
    match dims with
    | None => Some (inl (dt_data x))
    | Some d =>
      if length d =? dt_order x then Some (inl (dt_data x))
      else match d with
           | [] => None
           | _ =>
             let s := sel 0%nat d (np_argsort d) in
             let rep := seq 0 (nth 0 s 0 + 1)%nat ++ seq (last s 0 + 1) (dt_order x - (last s 0 + 1)) in
             Some (inr (DT (dt_data x) (length rep) (sel 0%nat (dt_shape x) rep)))
           end
    end.

  (** diagonal_tensor.py:588-626 eval_at_indices(ind): rows of indices (IndexError when a row on the
      diagonal is out of range) *)
  Definition dt_eval_at_indices (x : dt) (rows : list (list nat)) : option (list R) :=
    omap (fun r => let i := nth 0 r 0%nat in
                   if forallb (fun j => j =? i) r
                   then if i <? length (dt_data x) then Some (nth i (dt_data x) r0) else None
                   else Some r0) rows.

  (** diagonal_tensor.py:628-663 transpose, itranspose: only the shape is permuted *)
  Definition dt_transpose (x : dt) (p : list nat) : dt := DT (dt_data x) (dt_order x) (sel 0%nat (dt_shape x) p).
End Diagonal.
Arguments dt R : clear implicits.
