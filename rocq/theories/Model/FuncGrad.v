(** Model of FunctionalTensor.parameter_gradient_eval (tensap/functions/functional_tensor.py:427-606) for a TreeBasedTensor. *)
From Coq Require Import List Arith Lia Bool.
From Verif.Base Require Import ListAux CRing Index.
From Verif.Model Require Import Sorting Utils Numpy FullTensor DimensionTree TreeBased TreeEval TreeReduce HsvdTree TreeGrad.
Import ListNotations.

Section FuncGrad.
  Context {R : Type} {CR : CRing R}.
  Local Open Scope cr_scope.

  (** functional_tensor.py:462-478: the dimensions whose basis is contracted with the tensor before the gradient is computed *)
  Definition fg_dims (X : tbt R) (alpha : nat) : list nat :=
    let t := ttree X in
    let dims := seq 0 (tb_order X) in
    if is_leaf t alpha then filter (fun mu => negb (nth mu (d2i t) 0 =? alpha)%nat) dims
    else let ind := filter (fun c => negb (active X c)) (children t alpha) in
         filter (fun mu => negb (inb (nth mu (d2i t) 0%nat) ind)) dims.
  (** functional_tensor.py:576-604: the permutation that puts the axes of the gradient in the order of the axes of the core
      ([H] is fH, [X] is self.tensor) *)
  Definition fg_perm (X H : tbt R) (alpha : nat) (G : nd R) : list nat :=
    let t := ttree X in
    let ch := children t alpha in
    let perm_1 := np_argsort (act_of H ch ++ inact_of H ch) in
    let perm_2 := if (alpha =? root t)%nat then [] else [ndim (core H alpha)] in
    let perm_3 := if negb (alpha =? root t)%nat && (1 <? tb_rank X (root t))%nat then [(ndim G - 1)%nat] else [] in
    0%nat :: map S perm_1 ++ perm_2 ++ perm_3.
  (** functional_tensor.py:485-568: the tensor contracted with the bases of the dimensions [dims] when some nodes are inactive.
      489-499: the active leaves; 501-552: the parents of the inactive leaves (np.unique: increasing), each core being read in
      self.tensor.  Only the parents with one such leaf (544-552) are modelled: the branch 513-543, which merges several leaves into
      one, is not, and the model returns None there.  No leaf is then removed (554-567): the tree is the same, and
      remove_unique_children (568) rebuilds the same tensor, since no node is an only child (the other trees are not modelled). *)
  Definition fg_inactive (X : tbt R) (Bs : list (nd R)) (dims : list nat) : option (tbt R) :=
    let t := ttree X in
    let B := fun n => nth (index_of n (d2i t)) Bs (scalar r0) in
    let leaves := map (fun mu => nth mu (d2i t) 0%nat) dims in
    let* l1 := ofold (fun l n => let* A := ft_tensor_matrix_product (core X n) [B n] (Some [0%nat]) in Some (setc n A l))
                     (filter (fun n => inb n leaves) (active_nodes X)) (cores X) in
    let inl := filter (fun n => negb (active X n)) leaves in
    let* l2 := ofold (fun l p => match filter (fun c => inb c inl) (children t p) with
                                 | [c] => let* A := ft_tensor_matrix_product (core X p) [B c] (Some [(child_number t c - 1)%nat]) in Some (setc p A l)
                                 | _ => None
                                 end)
                     (filter (fun p => inb p (map (parent t) inl)) (nodes t)) l1 in
    tb_make l2 t.
  (** functional_tensor.py:427-606 parameter_gradient_eval(alpha) with the evaluations [Bs] of the bases (evaluated_bases, or
      bases.eval(x)), one matrix per dimension.  480-569: the contracted tensor fH.  Not modelled (None): tensors with inactive
      nodes on a tree with an only child, or with several inactive leaves merged (see fg_inactive). *)
  Definition ften_param_grad (X : tbt R) (Bs : list (nd R)) (alpha : nat) : option (nd R) :=
    let t := ttree X in
    let dims := fg_dims X alpha in
    let* H := if forallb (active X) (nodes t) then tb_tmp X (map (fun mu => nth mu Bs (scalar r0)) dims) (Some dims)
              else match unique_children t with [] => fg_inactive X Bs dims | _ => None end in
    let* G := tb_param_grad H alpha (Some Bs) in
    if is_leaf t alpha then Some G else ft_transpose G (fg_perm X H alpha G).
End FuncGrad.
