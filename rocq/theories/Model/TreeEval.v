(** Model of tensap/tensor_algebra/tensors/tree_based_tensor.py: evaluation of a tree-based tensor
    against one matrix per dimension (tensor_matrix_product_eval_diag). *)
From Coq Require Import List Arith Lia Bool ZArith.
From Verif.Base Require Import ListAux CRing Index.
From Verif.Model Require Import Sorting Utils Numpy FullTensor DimensionTree TreeBased.
Import ListNotations.

Section TreeEval.
  Context {R : Type} {CR : CRing R}.
  Local Open Scope cr_scope.

  (** tree_based_tensor.py:1499-1503, 1511-1516: [tmp = T_0; tmp = tmp.outer_product_eval_diag(T_k, 0, 0)] *)
  Definition ed_acc (Ts : list (nd R)) : option (nd R) :=
    match Ts with
    | [] => None
    | T :: Ts' => ofold (fun tmp U => ft_outer_eval_diag tmp U [0%nat] [0%nat] false) Ts' T
    end.
  (** tree_based_tensor.py:1490-1531 body of the loop over the internal nodes; [ts] is the list [tensors] *)
  Definition ed_node (X : tbt R) (Ms : list (nd R)) (ts : list (nd R)) (n : nat) : option (nd R) :=
    let t := ttree X in
    if is_leaf t n then Some (nthc ts n) else
    let ch := children t n in
    let act := fast_intersect ch (active_nodes X) in
    let inact := filter (fun c => negb (active X c)) ch in
    let mat := fun c => nth (index_of c (d2i t)) Ms (scalar r0) in
    let* T := match act with
              | [] => Some (nthc ts n)
              | _ => let* tmp := ed_acc (map (nthc ts) act) in
                     ft_tensordot tmp (nthc ts n) (seq 1 (ndim tmp - 1)) (map (fun c => (child_number t c - 1)%nat) act)
              end in
    match inact with
    | [] => Some T
    | _ => let* tmp := ed_acc (map mat inact) in
           match act with
           | [] => ft_tensordot tmp T (seq 1 (ndim tmp - 1)) (map (fun c => (child_number t c - 1)%nat) inact)
           | _ => ft_tensordot_eval_diag tmp T (seq 1 (ndim tmp - 1)) (seq 1 (ndim tmp - 1)) [0%nat] [0%nat] false
           end
    end.
  (** tree_based_tensor.py:1478-1532 tensor_matrix_product_eval_diag(matrices) (dims=None).  The loop goes
      over the internal nodes, all active, by decreasing level. *)
  Definition tb_tmp_eval_diag (X : tbt R) (Ms : list (nd R)) : option (nd R) :=
    let t := ttree X in
    let ind := active_dims X in
    let* Y := tb_tmp X (map (fun i => nth i Ms (scalar r0)) ind) (Some ind) in
    let* ts := ofold (fun ts n => match ed_node X Ms ts n with Some a => Some (upd (n - 1) a ts) | None => None end)
                     (bottom_up t) (cores Y) in
    Some (nthc ts (root t)).

  (** tree_based_tensor.py:1222-1253 body of the loop over the internal nodes in eval_diag (dims=None).  The reset of
      the tensors of the children to None (1252-1253) has no effect on the result and is not modelled. *)
  Definition diag_node (X : tbt R) (ts : list (nd R)) (n : nat) : option (nd R) :=
    let t := ttree X in
    if is_leaf t n then Some (nthc ts n) else
    let ch := children t n in
    let ind_active := filter (fun k => active X (nth k ch 0%nat)) (seq 0 (length ch)) in
    let ind_inactive := filter (fun k => negb (active X (nth k ch 0%nat))) (seq 0 (length ch)) in
    match ind_active with
    | [] => ft_eval_diag (nthc ts n) (Some (seq 0 (length ch)))
    | _ => let* tmp := ed_acc (map (fun k => nthc ts (nth k ch 0%nat)) ind_active) in
           match ind_inactive with
           | [] => ft_tensordot tmp (nthc ts n) (seq 1 (ndim tmp - 1)) ind_active
           | _ => ft_tensordot_eval_diag tmp (nthc ts n) (seq 1 (ndim tmp - 1)) ind_active [0%nat] ind_inactive false
           end
    end.
  (** tree_based_tensor.py:1217-1257 eval_diag() (the conversion of the result to a numpy array is not modelled) *)
  Definition tb_eval_diag (X : tbt R) : option (nd R) :=
    let t := ttree X in
    let* ts := ofold (fun ts n => match diag_node X ts n with Some a => Some (upd (n - 1) a ts) | None => None end)
                     (bottom_up t) (cores X) in
    Some (nthc ts (root t)).
End TreeEval.
