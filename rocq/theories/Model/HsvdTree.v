(** Model of the parts of tensap that work on the Gramians of a tree-based tensor: tree_based_tensor.py:1683-1749
    (gramians) and truncator.py:315-332, 391-466 (Truncator.hsvd of a TreeBasedTensor, for the two values of the attribute
    _hsvd_type; the default is 2), over the reals.  [svd] is np.linalg.svd and [qr] np.linalg.qr (contracts:
    Spec/TruncatorSpec.v, Spec/TensorSpec.v). *)
From Coq Require Import List Arith Lia Bool Reals.
From Verif.Base Require Import ListAux CRing Index RealAux.
From Verif.Model Require Import Sorting Numpy FullTensor Diagonal Canonical DimensionTree TreeBased Truncator HSVD.
Import ListNotations.
Local Open Scope R_scope.

Section HsvdTree.
  Variable svd : nd R -> nd R * list R * nd R.
  Variable qr : nd R -> nd R * nd R.

  (** tree_based_tensor.py:1729-1743: the body of the loop of gramians for the node [n] ([ln] is list_nodes, [g] the array
      gram; None is an entry that has not been written).  The leaves are skipped (line 1727).  The order of the children in
      fast_intersect is immaterial: each one writes its own entry. *)
  Definition gram_step (X : tbt R) (ln : list nat) (g : list (option (nd R))) (n : nat) : option (list (option (nd R))) :=
    let t := ttree X in
    if inb n ln && negb (is_leaf t n) then
      let C := core X n in
      let* tmp := if (n =? root t)%nat then Some C
                  else let* G := nth (n - 1) g None in ft_tensor_matrix_product C [G] (Some [(ndim C - 1)%nat]) in
      ofold (fun g c => let cl := compl (ndim C) [(child_number t c - 1)%nat] in
                        let* G := ft_tensordot C tmp cl cl in Some (upd (c - 1) (Some G) g))
            (filter (fun c => inb c ln) (children t n)) g
    else Some g.
  (** [for level in range(max_level + 1): for nod in nodes_with_level(level)] *)
  Definition top_down (t : dtree) (ml : nat) : list nat := flat_map (nodes_with_level t) (seq 0 (S ml)).
  (** tree_based_tensor.py:1683-1749 gramians.  [is_orth]: the flag of X (with orth_node equal to the root).  [alpha] = None: all the
      nodes; otherwise the entries of the nodes of alpha are returned (lines 1744-1748). *)
  Definition tb_gramians (is_orth : bool) (X : tbt R) (alpha : option (list nat)) : option (list (option (nd R)) * tbt R) :=
    let t := ttree X in
    let* Z := if is_orth then Some X else tb_orth qr X in
    let an := filter (active Z) (nodes t) in
    let ml := match alpha with None => max_level t | Some al => list_max (map (level t) al) end in
    let ln := match alpha with None => an | Some al => filter (fun n => inb n (flat_map (ascendants t) al ++ al)) an end in
    let g0 := upd (root t - 1) (Some (ND [1%nat; 1%nat] (fun _ => 1))) (repeat None (nbn t)) in
    let* g := ofold (gram_step Z ln) (top_down t ml) g0 in
    Some (match alpha with None => g | Some al => map (fun n => nth (n - 1) g None) al end, Z).

  (** truncator.py:447-449 / 401-404: space[0] of the truncated svd of the Gramian of the node [n]; the truncator after it *)
  Definition hsvd_frame (t : truncator) (mr : list (option nat)) (ltol : R) (g : list (option (nd R))) (n : nat) : option (truncator * nd R) :=
    let* m := nth_error mr (n - 1) in
    let* G := nth (n - 1) g None in
    let t := set_max_rank t m in
    let* c := trunc_svd svd t G (Some (ltol * ltol)) (Pw 1) in
    Some (t, nth 0 (cp_space c) (scalar 0)).
  (** truncator.py:450-458 / 412-420 / 425-433: multiply the core of n and the core of its parent by the transpose of U *)
  Definition hsvd_mult (tr : dtree) (U : nd R) (l : list (nd R)) (n : nat) : option (list (nd R)) :=
    let* Ut := np_transpose U [1%nat; 0%nat] in
    let* C := ft_tensor_matrix_product (nthc l n) [Ut] (Some [(ndim (nthc l n) - 1)%nat]) in
    let l := setc n C l in
    let p := parent tr n in
    let* P := ft_tensor_matrix_product (nthc l p) [Ut] (Some [(child_number tr n - 1)%nat]) in
    Some (setc p P l).
  (** truncator.py:396-404: the array mat (None: no Gramian) and the truncator after the loop *)
  Definition hsvd_mats (t : truncator) (tr : dtree) (mr : list (option nat)) (ltol : R) (g : list (option (nd R))) : option (truncator * list (option (nd R))) :=
    ofold (fun st n => match nth (n - 1) g None with
                       | None => Some (fst st, snd st ++ [None])
                       | Some _ => let* f := hsvd_frame (fst st) mr ltol g n in Some (fst f, snd st ++ [Some (snd f)])
                       end) (nodes tr) (t, []).
  (** truncator.py:391-463.  [ty] is _hsvd_type.  The components of the result: the tensor, its flag is_orth (orth_node is the
      root), the truncator after the call (the attribute max_rank is overwritten). *)
  Definition hsvd_tb (ty : nat) (t : truncator) (X : tbt R) : option (tbt R * bool * truncator) :=
    let tr := ttree X in
    let mr := hsvd_max_rank t tr in
    let ltol := hsvd_tol t (map (active X) (nodes tr)) in
    let* Z := tb_orth qr X in
    let* gZ := tb_gramians true Z None in
    let g := fst gZ in
    match ty with
    | 1%nat =>
      let* m := hsvd_mats t tr mr ltol g in
      let ints := filter (fun n => negb (is_leaf tr n)) (flat_map (nodes_with_level tr) (seq 1 (max_level tr - 1))) in
      let lvs := filter (active Z) (d2i tr) in
      let* l := ofold (fun l n => let* U := nth (n - 1) (snd m) None in hsvd_mult tr U l n) (ints ++ lvs) (cores Z) in
      let* Y := tb_make l tr in Some (Y, false, fst m)
    | 2%nat =>
      let* s := ofold (fun s n => let* f := hsvd_frame (fst s) mr ltol g n in
                                  let* l := hsvd_mult tr (snd f) (snd s) n in Some (fst f, l))
                      (filter (active Z) (hsvd_nodes tr)) (t, cores Z) in
      let* Y := tb_make (snd s) tr in Some (Y, true, fst s)
    | _ => None
    end.
End HsvdTree.
