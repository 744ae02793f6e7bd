(** Model of tensap/tensor_algebra/tensors/tree_based_tensor.py (class TreeBasedTensor).
    A tree-based tensor is a dimension tree and one core per node, [core X n] being the core of node n
    (numbered from 1).  An empty core ([FullTensor([])], shape [0]) marks an inactive node.  The
    attributes ranks, shape, is_active_node are functions of the tree and the cores (they are recomputed
    by update_attributes at each construction).  The flags is_orth, orth_node are not modelled here.
    The entries of the (object) array of cores are modelled as a list of arrays: numpy's treatment of
    an assignment [tensors[k] = ...] into an object array is out of the model. *)
From Coq Require Import List Arith Lia Bool ZArith.
From Verif.Base Require Import ListAux CRing Index.
From Verif.Model Require Import Sorting Numpy FullTensor DimensionTree.
Import ListNotations.

Record tbt (R : Type) := TB { ttree : dtree; cores : list (nd R) }.
Arguments TB {R} _ _.
Arguments ttree {R} _.
Arguments cores {R} _.

Section TreeBased.
  Context {R : Type} {CR : CRing R}.
  Local Open Scope cr_scope.

  (** [tensap.FullTensor([])] *)
  Definition no_core : nd R := ND [0%nat] (fun _ => r0).
  Definition nthc (l : list (nd R)) (n : nat) : nd R := nth (n - 1) l no_core.
  Definition setc (n : nat) (A : nd R) (l : list (nd R)) : list (nd R) := upd (n - 1) A l.
  Definition core (X : tbt R) (n : nat) : nd R := nthc (cores X) n.
  (** tree_based_tensor.py:2439 [is_active_node = [x.storage() != 0 ...]] *)
  Definition activec (l : list (nd R)) (n : nat) : bool := negb (ft_storage (nthc l n) =? 0).
  Definition active (X : tbt R) (n : nat) : bool := activec (cores X) n.
  (** tree_based_tensor.py:70-115 [__init__], 2428-2464 update_attributes: NotImplementedError when an
      internal node is not active *)
  Definition tb_make (l : list (nd R)) (t : dtree) : option (tbt R) :=
    if forallb (activec l) (internal_nodes t) then Some (TB t l) else None.
  (** tree_based_tensor.py:2444-2452, 2463 ranks *)
  Definition tb_rank (X : tbt R) (n : nat) : nat :=
    let t := ttree X in
    if is_leaf t n then if active X n then last (shape (core X n)) 0%nat else 0%nat
    else if negb (parent t n =? 0) || (ndim (core X n) =? length (children t n) + 1)
         then last (shape (core X n)) 0%nat else 1%nat.
  Definition tb_ranks (X : tbt R) : list nat := map (tb_rank X) (nodes (ttree X)).
  (** tree_based_tensor.py:2454-2462 shape *)
  Definition tb_size (X : tbt R) (n : nat) : nat :=
    let t := ttree X in
    if active X n then nth 0 (shape (core X n)) 0%nat
    else nth (child_number t n - 1) (shape (core X (parent t n))) 0%nat.
  Definition tb_shape (X : tbt R) : list nat := map (tb_size X) (d2i (ttree X)).
  Definition tb_order (X : tbt R) : nat := length (d2i (ttree X)).
  (** tree_based_tensor.py:158-208 *)
  Definition active_nodes (X : tbt R) : list nat := filter (active X) (nodes (ttree X)).
  Definition active_dims (X : tbt R) : list nat :=
    filter (fun mu => active X (nth mu (d2i (ttree X)) 0%nat)) (seq 0 (tb_order X)).

  (** tree_based_tensor.py:515-559 full.  The loop keeps, for each node, its current tensor and
      [tree.dims[nod - 1]]. *)
  Definition full_child (X : tbt R) (s : list (nd R * list nat)) (st : nd R * list nat) (c : nat) : option (nd R * list nat) :=
    let '(T, D) := st in
    let '(Tc, Dc) := nth (c - 1) s (no_core, []) in
    if active X c then let* T' := ft_tensordot Tc T [(ndim Tc - 1)%nat] [length D] in Some (T', Dc ++ D)
    else Some (T, D ++ Dc).
  Definition full_node (X : tbt R) (s : list (nd R * list nat)) (n : nat) : option (nd R * list nat) :=
    if is_leaf (ttree X) n then Some (nth (n - 1) s (no_core, []))
    else ofold (full_child X s) (children (ttree X) n) (fst (nth (n - 1) s (no_core, [])), []).
  Definition tb_full (X : tbt R) : option (nd R) :=
    let t := ttree X in
    if tb_order X =? 1 then
      let a := core X (root t) in
      if (ndim a =? 2) && (nth 1 (shape a) 0%nat =? 1) then ft_squeeze a (Some [1%nat]) else Some a
    else
      let* s := ofold (fun s n => match full_node X s n with Some a => Some (upd (n - 1) a s) | None => None end)
                      (bottom_up t) (map (fun n => (core X n, dims t n)) (nodes t)) in
      let '(T, D) := nth (root t - 1) s (no_core, []) in
      let D := if tb_order X <? ndim T then D ++ seq (tb_order X) (ndim T - tb_order X) else D in
      if 1 <? ndim T then ft_itranspose T D else Some T.

  (** tree_based_tensor.py:309-312 [__neg__]; 314-318 [__mul__] by a scalar, 337-345 [__rmul__] by a scalar *)
  Definition tb_neg (X : tbt R) : tbt R :=
    let r := root (ttree X) in TB (ttree X) (setc r (ft_neg (core X r)) (cores X)).
  Definition tb_scale (X : tbt R) (c : R) : option (tbt R) :=
    let r := root (ttree X) in
    let* A := ft_mul (core X r) (scalar c) in Some (TB (ttree X) (setc r A (cores X))).

  (** tree_based_tensor.py:1121-1144 activate_nodes.  The loop reads self (not the updated cores), so it
      is a fold of independent updates. *)
  Definition tb_activate (X : tbt R) (ns : list nat) : option (tbt R) :=
    let t := ttree X in
    let* l := ofold (fun l n =>
                if active X n then Some l
                else if is_leaf t n then
                  let s := nth (index_of n (d2i t)) (tb_shape X) 0%nat in Some (setc n (np_eye s) l)
                else None (* np.where(...)[0][0]: IndexError *)) ns (cores X) in
    tb_make l t.

  (** tree_based_tensor.py:1078-1119 inactivate_nodes *)
  Definition tb_inactivate_step (X : tbt R) (ns : list nat) (l : list (nd R)) (n : nat) : option (list (nd R)) :=
    let t := ttree X in
    if inb n ns && active X n then
      let p := parent t n in
      let k := (child_number t n - 1)%nat in
      let* P := ft_tensordot (nthc l n) (nthc l p) [(ndim (nthc l n) - 1)%nat] [k] in
      let* P := ft_itranspose P (k :: compl (ndim P) [k]) in
      Some (setc n no_core (setc p P l))
    else Some l.
  Definition tb_inactivate (X : tbt R) (ns : list nat) : option (tbt R) :=
    let t := ttree X in
    if forallb (fun n => inb n (d2i t)) ns then
      let* l := ofold (tb_inactivate_step X ns) (bottom_up t) (cores X) in tb_make l t
    else None.

  (** tree_based_tensor.py:255-298 [__add__].  The loop over the nodes reads and writes the core of the
      current node only: it is a map over the nodes.  (Trees with different numbers of nodes: the code
      ends with an exception.) *)
  Definition tb_add_core (X Y : tbt R) (n : nat) : option (nd R) :=
    let t := ttree X in
    if is_leaf t n && active X n then ft_cat (core X n) (core Y n) (Some [1%nat])
    else if negb (is_leaf t n) then
      let ch := children t n in
      let nal := map (fun c => is_leaf t c && negb (active X c)) ch in
      let ind := filter (fun k => negb (nth k nal false)) (seq 0 (length ch)) in
      if n =? root t then ft_cat (core X n) (core Y n) (Some ind)
      else if existsb (fun b => b) nal then ft_cat (core X n) (core Y n) (Some (ind ++ [(ndim (core X n) - 1)%nat]))
      else ft_cat (core X n) (core Y n) None
    else Some (core X n).
  Definition tb_add (X Y : tbt R) : option (tbt R) :=
    if negb (nbn (ttree X) =? nbn (ttree Y)) then None else
    let same := forallb (fun n => Bool.eqb (active X n) (active Y n)) (nodes (ttree X)) in
    let* X' := if same then Some X else tb_activate X (active_nodes Y) in
    let* Y' := if same then Some Y else tb_activate Y (active_nodes X') in
    if dt_eqb (ttree X') (ttree Y') then
      let* l := omap (tb_add_core X' Y') (nodes (ttree X')) in tb_make l (ttree X')
    else None.
  (** tree_based_tensor.py:303-307 [__sub__], [__rsub__] *)
  Definition tb_sub (X Y : tbt R) : option (tbt R) := tb_add X (tb_neg Y).

  (** tree_based_tensor.py:1311-1332 kron (a map over the nodes) *)
  Definition tb_kron (X Y : tbt R) : option (tbt R) :=
    let* l := omap (fun n => if active X n then ft_kron (core X n) (core Y n) else Some (core X n)) (nodes (ttree X)) in
    tb_make l (ttree X).

  (** full_tensor.py:283-350 eval_at_indices with one dimension, the indices being ":" or a list *)
  Definition ft_eval_slice (A : nd R) (s : slice) (d : nat) : option (nd R) :=
    match s with
    | Pick ks => ft_eval_at_indices A 1 (map (fun k => [k]) ks) (Some [d])
    | All => if ndim A =? 1 then None else if d <? ndim A then ft_sub_tensor A (repeat All (ndim A)) else None
    end.
  (** the update of one core for one dimension: the core of its leaf (axis 0) when it is active, else the
      core of the parent (axis child_number - 1) *)
  Definition dim_step (X : tbt R) (op : nd R -> nat -> option (nd R)) (l : list (nd R)) (mu : nat) : option (list (nd R)) :=
    let t := ttree X in
    if mu <? tb_order X then
      let n := nth mu (d2i t) 0%nat in
      if active X n then let* A := op (nthc l n) 0%nat in Some (setc n A l)
      else let p := parent t n in let* A := op (nthc l p) (child_number t n - 1)%nat in Some (setc p A l)
    else None.
  (** tree_based_tensor.py:647-690 sub_tensor *)
  Definition tb_sub_tensor (X : tbt R) (idx : list slice) : option (tbt R) :=
    if length idx =? tb_order X then
      let* l := ofold (fun l mu => dim_step X (fun A d => ft_eval_slice A (nth mu idx All) d) l mu) (seq 0 (tb_order X)) (cores X) in
      tb_make l (ttree X)
    else None.
  (** tree_based_tensor.py:314-335 [__mul__] of two tree-based tensors *)
  Definition diag_slice (n : nat) : slice := Pick (map (fun i => (i * (n + 1))%nat) (seq 0 n)).
  Definition tb_mul (X Y : tbt R) : option (tbt R) :=
    let* K := tb_kron X Y in
    let* Z := tb_sub_tensor K (map diag_slice (tb_shape X)) in
    let r := root (ttree X) in
    let N := tb_rank X r in
    if 1 <? N then
      if tb_rank Y (root (ttree Y)) =? N then
        let a := core Z (root (ttree Z)) in
        let* A := ft_sub_tensor a (upd (ndim a - 1) (diag_slice N) (repeat All (ndim a))) in
        tb_make (setc (root (ttree Z)) A (cores Z)) (ttree Z)
      else None
    else Some Z.

  (** tree_based_tensor.py:1334-1381 tensor_matrix_product ([matrices[np.nonzero(dim == dims)[0][0]]]) *)
  Definition tb_tmp (X : tbt R) (Ms : list (nd R)) (dims : option (list nat)) : option (tbt R) :=
    let dims := match dims with None => seq 0 (tb_order X) | Some d => d end in
    if length Ms =? length dims then
      let* l := ofold (fun l mu => dim_step X (fun A d => ft_tensor_matrix_product A [nth (index_of mu dims) Ms (scalar r0)] (Some [d])) l mu) dims (cores X) in
      tb_make l (ttree X)
    else None.
  (** tree_based_tensor.py:1383-1417 tensor_diagonal_matrix_product ([np.diag(np.reshape(x, [-1]))]) *)
  Definition diag_of_vector (v : nd R) : nd R := np_diag (ND [np_size v] (fun is => get v (ind2subC (shape v) (nth 0 is 0%nat)))).
  Definition tb_tdmp (X : tbt R) (vs : list (nd R)) (dims : option (list nat)) : option (tbt R) :=
    tb_tmp X (map diag_of_vector vs) dims.

  (** tree_based_tensor.py:1851-1911 dot_with_rank_one_metric; 1649-1665 dot.  [out] holds one matrix per
      node.  (The code also accepts a root with a rank axis of size > 1 and returns a matrix.) *)
  Definition dot_leaf (X Y : tbt R) (M : nd R) (n : nat) : option (nd R) :=
    if active X n then
      let* tmp := ft_tensor_matrix_product (core Y n) [M] (Some [0%nat]) in
      let* o := ft_tensordot (core X n) tmp [0%nat] [0%nat] in
      ft_reshape o [last (shape (core X n)) 0%nat; last (shape (core Y n)) 0%nat]
    else Some M.
  Definition dot_node (X Y : tbt R) (out : list (nd R)) (n : nat) : option (nd R) :=
    let t := ttree X in
    if is_leaf t n then Some (nthc out n)
    else
      let ord := if negb (n =? root t) || (1 <? tb_rank X (root t)) then seq 0 (ndim (core X n) - 1) else seq 0 (ndim (core X n)) in
      let* tmp := ft_tensor_matrix_product (core Y n) (map (nthc out) (children t n)) (Some ord) in
      let* o := ft_tensordot (core X n) tmp ord ord in
      if negb (n =? root t) then ft_reshape o [last (shape (core X n)) 0%nat; last (shape (core Y n)) 0%nat] else Some o.
  Definition tb_dot_metric (X Y : tbt R) (Ms : list (nd R)) : option (nd R) :=
    let t := ttree X in
    if length Ms =? tb_order X then
      let* out := ofold (fun out p => let* A := dot_leaf X Y (snd p) (fst p) in Some (setc (fst p) A out))
                        (combine (d2i t) Ms) (repeat no_core (nbn t)) in
      let* out := ofold (fun out n => match dot_node X Y out n with Some A => Some (upd (n - 1) A out) | None => None end)
                        (bottom_up t) out in
      Some (nthc out (root t))
    else None.
  Definition tb_dot (X Y : tbt R) : option (nd R) := tb_dot_metric X Y (map np_eye (tb_shape X)).

  (** tree_based_tensor.py:1751-1790 orth.  The condition on is_orth/orth_dim always holds (orth_dim is an
      axis number, hence different from the order): every active non-root node is orthogonalised. *)
  Definition orth_step (qr : nd R -> nd R * nd R) (X : tbt R) (l : list (nd R)) (n : nat) : option (list (nd R)) :=
    let t := ttree X in
    if active X n && negb (level t n =? 0) then
      let* QR := ft_orth qr (nthc l n) (ndim (nthc l n) - 1) in
      let l := setc n (fst QR) l in
      let p := parent t n in
      let* P := ft_tensor_matrix_product (nthc l p) [snd QR] (Some [(child_number t n - 1)%nat]) in
      Some (setc p P l)
    else Some l.
  Definition tb_orth (qr : nd R -> nd R * nd R) (X : tbt R) : option (tbt R) :=
    let* l := ofold (orth_step qr X) (bottom_up (ttree X)) (cores X) in tb_make l (ttree X).

  (** tree_based_tensor.py:1667-1681 norm: the norm (full_tensor.py:487-497) of the core of the node
      [orth_node], after [orth()] unless the flag [is_orth] is set (the writers of the flag, lines
      1788-1789 and truncator.py:460-461, set [orth_node] to the root).  The square of the norm is modelled. *)
  Definition ft_norm2 (A : nd R) : R := bsum (shape A) (fun is => get A is * get A is).
  Definition tb_norm2 (qr : nd R -> nd R * nd R) (is_orth : bool) (X : tbt R) : option R :=
    let* Z := if is_orth then Some X else tb_orth qr X in
    Some (ft_norm2 (core Z (root (ttree Z)))).

  (** tree_based_tensor.py:475-513 storage, sparse_storage, sparse_leaves_storage *)
  Definition tb_storage (X : tbt R) : nat := sumn (map ft_storage (cores X)).
  Definition tb_sparse_storage (z : R -> bool) (X : tbt R) : nat := sumn (map (ft_sparse_storage z) (cores X)).
  Definition tb_sparse_leaves_storage (z : R -> bool) (X : tbt R) : nat :=
    (sumn (map (fun n => ft_storage (core X n)) (internal_nodes (ttree X))) +
     sumn (map (fun n => ft_sparse_storage z (core X n)) (d2i (ttree X))))%nat.
End TreeBased.
