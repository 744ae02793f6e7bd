(** Model of tensap/tensor_algebra/tools/truncator.py: Truncator.hsvd of a FullTensor (lines 285-390) and
    Truncator.ttsvd (lines 468-488), over the reals.  [svd] is np.linalg.svd (contract: Spec/TruncatorSpec.v). *)
From Coq Require Import List Arith Lia Bool Reals.
From Verif.Base Require Import ListAux CRing Index RealAux.
From Verif.Model Require Import Sorting Numpy FullTensor Diagonal Canonical DimensionTree TreeBased Truncator.
Import ListNotations.
Local Open Scope R_scope.

Section HSVD.
  Variable svd : nd R -> nd R * list R * nd R.

  (** [np.nonzero(np.isin(nodes_x, x))[0][0]]: the first position of x in nodes_x (IndexError: None) *)
  Definition find_pos (l : list nat) (x : nat) : option nat := if inb x l then Some (index_of x l) else None.
  (** [np.diag(v)] *)
  Definition np_diag (v : list R) : nd R := ND [length v; length v] (fun is => if (nth 0 is 0 =? nth 1 is 0)%nat then nth (nth 0 is 0%nat) v 0 else 0).
  (** truncator.py:352-379: the part of the loop body that does not depend on the tree: Y is the current tensor
      (variable tensor), m its number of axes that correspond to nodes (nodes_x.size), rep the positions to be merged;
      returns the core of the node and the new tensor.  The variable shape always equals tensor.shape. *)
  Definition hsvd_split (t : truncator) (rrg1 : bool) (ltol : R) (Y : nd R) (m : nat) (rep : list nat) : option (nd R * nd R) :=
    let rep_c := compl m rep ++ (if rrg1 then [(ndim Y - 1)%nat] else []) in
    let* M := ft_matricize Y rep None in
    let* c := trunc_svd svd t M (Some ltol) (Pw 2) in
    let U := nth 0 (cp_space c) (scalar 0) in
    let k := nth 1 (shape U) 0%nat in
    let* C := np_reshapeF U (sel 0%nat (shape Y) rep ++ [k]) in
    let* W := np_matmul (nth 1 (cp_space c) (scalar 0)) (np_diag (cp_core c)) in
    let* Y1 := np_reshapeF W (sel 0%nat (shape Y) rep_c ++ [k]) in
    let* Y2 := if rrg1 then ft_transpose Y1 (seq 0 (ndim Y1 - 2) ++ [(ndim Y1 - 1)%nat; (ndim Y1 - 2)%nat]) else Some Y1 in
    Some (C, Y2).
  (** the variables of the loop: the truncator, tensor, nodes_x, tensors *)
  Record hstate := HS { hs_t : truncator; hs_Y : nd R; hs_nx : list nat; hs_c : list (nd R) }.
  (** truncator.py:344-383: the body of the loop for the node [n] *)
  Definition hsvd_step (tr : dtree) (act : list bool) (mr : list (option nat)) (rrg1 : bool) (ltol : R) (st : hstate) (n : nat) : option hstate :=
    if nth (n - 1) act false then
      let* rep := omap (find_pos (hs_nx st)) (if is_leaf tr n then [n] else children tr n) in
      let* m := nth_error mr (n - 1) in
      let t := set_max_rank (hs_t st) m in
      let* CY := hsvd_split t rrg1 ltol (hs_Y st) (length (hs_nx st)) rep in
      Some (HS t (snd CY) (sel 0%nat (hs_nx st) (compl (length (hs_nx st)) rep) ++ [n]) (setc n (fst CY) (hs_c st)))
    else Some (HS (hs_t st) (hs_Y st) (hs_nx st) (setc n no_core (hs_c st))).
  (** truncator.py:342-343: the order of the loop *)
  Definition hsvd_nodes (tr : dtree) : list nat := flat_map (nodes_with_level tr) (rev (seq 1 (max_level tr))).
  (** truncator.py:327-330 *)
  Definition hsvd_max_rank (t : truncator) (tr : dtree) : list (option nat) :=
    match max_rank t with [m] => upd (root tr - 1) (Some 1%nat) (repeat m (nbn tr)) | l => l end.
  (** truncator.py:332 *)
  Definition hsvd_tol (t : truncator) (act : list bool) : R := tolerance t / sqrt (INR (count_occ bool_dec act true - 1)).
  (** truncator.py:315-390 for a FullTensor.  [act] = None: is_active_node is None.  The second component is the
      truncator after the call (the attribute max_rank is overwritten). *)
  Definition hsvd (t : truncator) (A : nd R) (tr : dtree) (act : option (list bool)) : option (tbt R * truncator) :=
    let act := match act with None => repeat true (nbn tr) | Some a => a end in
    let mr := hsvd_max_rank t tr in
    let ltol := hsvd_tol t act in
    let rrg1 := (ndim A =? length (d2i tr) + 1)%nat in
    let* st := ofold (hsvd_step tr act mr rrg1 ltol) (hsvd_nodes tr) (HS t A (d2i tr) (repeat no_core (nbn tr))) in
    let* rep := omap (find_pos (hs_nx st)) (children tr (root tr)) in
    let* C := ft_transpose (hs_Y st) (rep ++ (if rrg1 then [(ndim (hs_Y st) - 1)%nat] else [])) in
    let* X := tb_make (setc (root tr) C (hs_c st)) tr in
    Some (X, hs_t st).
  (** truncator.py:468-488 ttsvd *)
  Definition ttsvd (t : truncator) (A : nd R) : option (tbt R * truncator) :=
    let tr := dt_linear (ndim A) (seq 0 (ndim A)) in
    hsvd t A tr (Some (fold_left (fun a n => upd (n - 1) false a) (tl (d2i tr)) (repeat true (nbn tr)))).
End HSVD.
