(** Model of tensap/tensor_algebra/tensors/tree_based_tensor.py: the operations that remove dimensions of a
    tree-based tensor (squeeze, remove_unique_children, tensor_vector_product, eval_diag(dims), eval_at_indices). *)
From Coq Require Import List Arith Lia Bool ZArith.
From Verif.Base Require Import ListAux CRing Index.
From Verif.Model Require Import Sorting Utils Numpy FullTensor DimensionTree TreeBased TreeEval.
Import ListNotations.

(** [adj[np.ix_(keep_ind, keep_ind)]] and
    [dim2ind = [np.nonzero(x == keep_ind + 1)[0][0] + 1 for x in dim2ind]], as at tree_based_tensor.py:1276-1287,
    1599-1604, 1642-1646; [K] lists the kept nodes (keep_ind + 1).  (IndexError when some x is not kept: in the
    three callers the entries of dim2ind are kept, see the proofs; the model then returns a tree with an index out
    of range.) *)
Definition dt_restrict (K d : list nat) (A : nat -> nat -> bool) : dtree :=
  DT (length K) (map (fun x => S (index_of x K)) d) (fun i j => A (nth (i - 1) K 0) (nth (j - 1) K 0)).

Section TreeReduce.
  Context {R : Type} {CR : CRing R}.
  Local Open Scope cr_scope.

  (** tree_based_tensor.py:1582-1589 body of the loop over the children of the node [n] in squeeze; [p] = (num, child) *)
  Definition sq_child (X : tbt R) (n : nat) (ind : list nat) (ts : list (nd R)) (p : nat * nat) : option (list (nd R)) :=
    let (num, c) := p in
    if active X c && inb c ind then
      let* M := (if ndim (nthc ts c) =? 1 then ft_reshape (nthc ts c) [1%nat; np_size (nthc ts c)] else Some (nthc ts c)) in
      let* A := ft_tensor_matrix_product (nthc ts n) [M] (Some [num]) in
      Some (setc c no_core (setc n A ts))
    else Some ts.
  (** tree_based_tensor.py:1579-1595 body of the loop over the internal nodes in squeeze; the state is (tensors, ind) *)
  Definition sq_node (X : tbt R) (st : list (nd R) * list nat) (n : nat) : option (list (nd R) * list nat) :=
    let t := ttree X in
    if is_leaf t n then Some st else
    let (ts, ind) := st in
    let ch := children t n in
    let* ts1 := ofold (sq_child X n ind) (combine (seq 0 (length ch)) ch) ts in
    let axes := filter (fun k => inb (nth k ch 0%nat) ind) (seq 0 (length ch)) in
    let* ts2 := match axes with
                | [] => Some ts1
                | _ => let* A := ft_squeeze (nthc ts1 n) (Some axes) in Some (setc n A ts1)
                end in
    Some (ts2, if forallb (fun c => inb c ind) ch then n :: ind else ind).
  (** tree_based_tensor.py:1622-1623 unique_children *)
  Definition unique_children (t : dtree) : list nat :=
    flat_map (fun p => match children t p with [c] => [c] | _ => [] end) (nodes t).
  (** tree_based_tensor.py:1631-1640 body of the loop in remove_unique_children; the state is (tensors, adj, dim2ind) *)
  Definition ruc_step (X : tbt R) (st : list (nd R) * (nat -> nat -> bool) * list nat) (nod : nat)
    : option (list (nd R) * (nat -> nat -> bool) * list nat) :=
    let '(ts, A, d) := st in
    if inb nod (unique_children (ttree X)) then
      match filter (fun p => A p nod) (nodes (ttree X)) with
      | [] => None
      | p :: _ =>
        let d' := map (fun x => if x =? nod then p else x) d in
        if active X nod then
          let* T := ft_tensordot (nthc ts nod) (nthc ts p) [(ndim (nthc ts nod) - 1)%nat] [0%nat] in
          Some (setc nod no_core (setc p T ts),
                (fun i j => if i =? nod then false else if i =? p then A nod j else A i j), d')
        else Some (setc nod no_core ts, A, d')
      end
    else Some st.
  (** tree_based_tensor.py:1609-1647 remove_unique_children.  (The code works in place on self.tensors and on the
      adjacency matrix of self.tree: not modelled here, the callers of this model pass fresh objects.) *)
  Definition tb_remove_unique (X : tbt R) : option (tbt R) :=
    let t := ttree X in
    if arity t =? 0 then None (* [tree._children[0, ...]]: IndexError *) else
    match ofold (ruc_step X) (bottom_up t) (cores X, adj t, d2i t) with
    | None => None
    | Some (ts, A, d) =>
      let K := filter (fun n => negb (inb n (unique_children t))) (nodes t) in
      tb_make (map (nthc ts) K) (dt_restrict K d A)
    end.
  (** tree_based_tensor.py:1543-1607 squeeze.  Result: [inl] an array (all the dimensions are removed) or [inr] a
      tree-based tensor *)
  Definition tb_squeeze (X : tbt R) (dims : option (list nat)) : option (nd R + tbt R) :=
    let t := ttree X in
    let dims := match dims with None => filter (fun k => nth k (tb_shape X) 0%nat =? 1) (seq 0 (tb_order X)) | Some d => d end in
    let rem := compl (tb_order X) dims in
    match rem with
    | [] => let* A := tb_full X in let* B := ft_squeeze A None in Some (inl B)
    | _ =>
      match ofold (sq_node X) (bottom_up t) (cores X, sel 0%nat (d2i t) dims) with
      | None => None
      | Some (ts, ind) =>
        let K := filter (fun n => negb (inb n ind)) (nodes t) in
        let* Z := tb_make (map (nthc ts) K) (dt_restrict K (sel 0%nat (d2i t) rem) (adj t)) in
        let* Z' := tb_remove_unique Z in Some (inr Z')
      end
    end.
  (** tree_based_tensor.py:1419-1453 tensor_vector_product; the vectors are one-dimensional arrays or row/column matrices *)
  Definition tb_tensor_vector_product (X : tbt R) (vs : list (nd R)) (dims : option (list nat)) : option (nd R + tbt R) :=
    let dims := match dims with None => seq 0 (tb_order X) | Some d => d end in
    if length vs =? length dims then
      let* Ms := omap (fun v => np_reshapeC v [1%nat; np_size v]) vs in
      let* Y := tb_tmp X Ms (Some dims) in
      tb_squeeze Y (Some dims)
    else None.

  (** tree_based_tensor.py:1259-1288 eval_diag(dims): the result and the operand after the call
      ([self.tensors[alpha - 1] = xs]; the attributes of self are not updated) *)
  Definition tb_eval_diag_dims (X : tbt R) (ds : list nat) : option (tbt R * tbt R) :=
    let t := ttree X in
    match node_with_dims t ds with
    | [] => None
    | alpha :: _ =>
      let (sub, nod) := dt_sub t alpha in
      let* xs := tb_make (map (nthc (cores X)) nod) sub in
      let* B := tb_eval_diag xs in
      let self := TB t (setc alpha B (cores X)) in
      let K := filter (fun n => negb (inb n (descendants t alpha))) (nodes t) in
      let rem := compl (tb_order X) (dims t alpha) in
      let* Z := tb_make (map (nthc (cores self)) K) (dt_restrict K (alpha :: sel 0%nat (d2i t) rem) (adj t)) in
      Some (Z, self)
    end.
  (** tree_based_tensor.py:1146-1197 eval_at_indices; [rows] is the array of the indices ([w] columns, [w] is only
      needed when there is no row) *)
  Definition column (rows : list (list nat)) (k : nat) : list nat := map (fun r => nth k r 0%nat) rows.
  Definition transpose_rows (w : nat) (rows : list (list nat)) : list (list nat) := map (column rows) (seq 0 w).
  Definition tb_eval_at_indices (X : tbt R) (w : nat) (rows : list (list nat)) (dims : option (list nat)) : option (nd R + tbt R) :=
    match dims with
    | None =>
      let rows' := if w =? tb_order X then rows else transpose_rows w rows in
      if (w =? tb_order X) || (length rows =? tb_order X) then
        let* Y := tb_sub_tensor X (map (fun k => Pick (column rows' k)) (seq 0 (tb_order X))) in
        let* B := tb_eval_diag Y in Some (inl B)
      else None
    | Some ds =>
      if w =? length ds then
        let* Y := tb_sub_tensor X (fold_left (fun l p => upd (snd p) (Pick (column rows (fst p))) l)
                                             (combine (seq 0 (length ds)) ds) (repeat All (tb_order X))) in
        if 1 <? length ds then
          if length rows =? 1 then tb_squeeze Y None
          else match tb_eval_diag_dims Y ds with Some (Z, _) => Some (inr Z) | None => None end
        else Some (inr Y)
      else None
    end.
End TreeReduce.
