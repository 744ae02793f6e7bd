(** Model of TreeBasedTensor.change_root, tensap/tensor_algebra/tensors/tree_based_tensor.py:573-645. *)
From Coq Require Import List Arith Lia Bool.
From Verif.Base Require Import ListAux CRing Index.
From Verif.Model Require Import Sorting Numpy FullTensor DimensionTree TreeBased.
Import ListNotations.

Section TreeRoot.
  Context {R : Type} {CR : CRing R}.
  Local Open Scope cr_scope.

  (** tree_based_tensor.py:620-623, 624-627: the children of node k followed by its parent (dimension_tree.py:145-171 parent, 0 at the root) *)
  Definition chp (t : dtree) (k : nat) : list nat := children t k ++ filter (fun p => negb (p =? 0)%nat) [parent t k].
  (** tree_based_tensor.py:628, 641: [np.concatenate([np.where(a == l0)[0] for l0 in b])] *)
  Definition where_cat (a b : list nat) : list nat := flat_map (fun l0 => filter (fun i => (nth i a 0 =? l0)%nat) (seq 0 (length a))) b.
  (** tree_based_tensor.py:573-645 change_root.  AssertionError (608): None; 610-614: [x.tree.addChild] does not exist (the method is
      add_child, dimension_tree.py:209), AttributeError: None *)
  Definition tb_change_root (X : tbt R) (nod : nat) : option (tbt R) :=
    let t := ttree X in
    if (nod =? root t)%nat then Some X
    else if active X nod then
      if (1 <? tb_rank X (root t))%nat then None
      else
        let t' := dt_change_root t nod in
        let* l := omap (fun k => if inb k (dt_modified t nod) && (active X k && negb (is_leaf t k))
                                 then ft_transpose (core X k) (where_cat (chp t k) (chp t' k)) else Some (core X k)) (nodes t) in
        if is_leaf t nod then
          let* A := ft_transpose (nthc l nod) (where_cat ((nbn t + 1)%nat :: filter (fun p => negb (p =? 0)%nat) [parent t nod]) (children t' nod)) in
          tb_make (setc nod A (l ++ [no_core])) t'
        else tb_make l t'
    else None.
End TreeRoot.
