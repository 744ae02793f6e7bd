(** Conversions to the tree-based format (FullTensor, DiagonalTensor, CanonicalTensor.tree_based_tensor).
    [None]: an exception.  The is_orth flags are not modelled; assignments into the object array of the
    cores are modelled as assignments into a list of arrays. *)
From Coq Require Import List Arith Bool.
From Verif.Base Require Import ListAux CRing Index.
From Verif.Model Require Import Sorting Numpy FullTensor Canonical DimensionTree TreeBased.
From Verif.Model Require Diagonal.
Import ListNotations.

Section Conversions.
  Context {R : Type} {CR : CRing R}.
  Local Open Scope cr_scope.

  (** full_tensor.py:138-152 tree_based_tensor *)
  Definition ft_tree_based_tensor (A : nd R) : option (tbt R) :=
    tb_make (A :: map (fun d => np_eye (nth d (shape A) 0%nat)) (seq 0 (ndim A))) (dt_trivial (ndim A)).

  (** diagonal_tensor.py:93-137 tree_based_tensor(tree=None, is_active_node=None).  [act]: the array
      is_active_node (entry n - 1 is for node n).  Default tree (line 118): linear; default activity
      (lines 120-122): all the nodes but the leaves. *)
  Definition dg_core (data : list R) (t : dtree) (act : list bool) (n : nat) : option (nd R) :=
    let ch := children t n in
    let r := length data in
    if parent t n =? 0 then Some (ft_diag data (length ch))
    else if is_leaf t n && nth (n - 1) act false then Some (np_eye r)
    else if nth (n - 1) act false then Some (ft_diag (repeat r1 r) (length ch + 1))
    else if negb (is_leaf t n) && negb (nth (n - 1) act false) then None
    else Some no_core.
  Definition dg_tree_based_tensor (x : Diagonal.dt R) (tree : option dtree) (act : option (list bool)) : option (tbt R) :=
    let t := match tree with Some t => t | None => dt_linear (Diagonal.dt_order x) (seq 0 (Diagonal.dt_order x)) end in
    let act := match act with Some a => a | None => map (fun n => negb (is_leaf t n)) (nodes t) end in
    let* l := omap (dg_core (Diagonal.dt_data x) t act) (nodes t) in
    tb_make l t.

  (** canonical_tensor.py:515-552 tree_based_tensor(tree, is_active_node=None); line 546
      [tensors[tree.dim2ind - 1] = self.space]: one factor per leaf, lengths must agree *)
  Definition cp_core0 (core : list R) (t : dtree) (n : nat) : nd R :=
    let ch := children t n in
    if parent t n =? 0 then ft_diag core (length ch)
    else ft_diag (repeat r1 (length core)) (length ch + 1).
  Definition cp_tree_based_tensor (x : cp R) (t : dtree) (act : option (list bool)) : option (tbt R) :=
    let l0 := map (cp_core0 (cp_core x) t) (nodes t) in
    if length (d2i t) =? length (cp_space x) then
      let l := fold_left (fun l p => setc (fst p) (snd p) l) (combine (d2i t) (cp_space x)) l0 in
      let* X := tb_make l t in
      match act with
      | None => Some X
      | Some a => tb_inactivate X (map S (filter (fun i => negb (nth i a false)) (seq 0 (nbn t))))
      end
    else None.
End Conversions.
