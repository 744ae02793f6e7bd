(** Model of TreeBasedTensor.orth_at_node, tree_based_tensor.py:1792-1849, over the reals.  [svd], [qr], [mrank], [pinv], [inv]
    are np.linalg.svd, qr, matrix_rank, pinv, inv (contracts: Spec/TruncatorSpec.v, Spec/TensorSpec.v, Spec/OrthNodeSpec.v;
    matrix_rank is the exact rank: the tolerance it uses in floating point is not modelled). *)
From Coq Require Import List Arith Lia Bool Reals.
From Verif.Base Require Import ListAux CRing Index RealAux.
From Verif.Model Require Import Sorting Numpy FullTensor Diagonal Canonical DimensionTree TreeBased Truncator HSVD HsvdTree.
Import ListNotations.
Local Open Scope R_scope.

Section OrthNode.
  Variable svd : nd R -> nd R * list R * nd R.
  Variable qr : nd R -> nd R * nd R.
  Variable mrank : nd R -> nat.
  Variable pinv : nd R -> nd R.
  Variable inv : nd R -> option (nd R).

  (** tree_based_tensor.py:1821-1833: the matrices l_svd and s_svd of the Gramian [G]; None when the rank is 0 (1826) *)
  Definition orth_factors (G : nd R) : option (option (nd R * nd R)) :=
    let '(U, s, _) := svd G in
    let* L := np_matmul U (np_diag (map (fun x => sqrt (Rabs x)) s)) in
    let rep := mrank L in
    if (rep =? 0)%nat then Some None
    else if negb (rep =? nth 0 (shape G) 0)%nat
         then let L' := take_cols L rep in Some (Some (L', pinv L'))
         else let* Si := inv L in Some (Some (L, Si)).
  (** tree_based_tensor.py:1792-1849 orth_at_node; [is_orth] is the flag of X (with orth_node equal to the root).  The flags of
      the result (orth_node = nod, is_orth = False) are not modelled.  ValueError (inactive node): None. *)
  Definition orth_at_node (is_orth : bool) (X : tbt R) (n : nat) : option (tbt R) :=
    let tr := ttree X in
    if (n =? root tr)%nat then tb_orth qr X
    else if active X n then
      let* gZ := tb_gramians qr is_orth X (Some [n]) in
      let Z := snd gZ in
      let* G := nth 0 (fst gZ) None in
      let* LS := orth_factors G in
      match LS with
      | None => Some Z
      | Some (L, Si) =>
        let* Lt := np_transpose L [1%nat; 0%nat] in
        let* C := ft_tensor_matrix_product (core Z n) [Lt] (Some [(ndim (core Z n) - 1)%nat]) in
        let l := setc n C (cores Z) in
        let p := parent tr n in
        let* P := ft_tensor_matrix_product (nthc l p) [Si] (Some [(child_number tr n - 1)%nat]) in
        tb_make (setc p P l) tr
      end
    else None.
End OrthNode.
