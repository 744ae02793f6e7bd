(** The higher-order singular values: FullTensor.singular_values and TreeBasedTensor.singular_values. *)
From Coq Require Import List Arith Bool Reals.
From Verif.Base Require Import ListAux CRing Index RealAux.
From Verif.Model Require Import Numpy FullTensor DimensionTree TreeBased HsvdTree.
Import ListNotations.
Local Open Scope R_scope.

Section SingularValues.
  (** np.linalg.svd and np.linalg.qr: arguments (documented contracts in Spec/TruncatorSpec, Spec/TensorSpec) *)
  Variable svd : nd R -> nd R * list R * nd R.
  Variable qr : nd R -> nd R * nd R.
  (** np.linalg.svd(M, compute_uv=False): the second component of the result *)
  Definition svals (M : nd R) : list R := snd (fst (svd M)).
  (** full_tensor.py:1211-1229 singular_values: one list for a tensor of order 2 (inl), else one list per dimension (inr) *)
  Definition ft_singular_values (A : nd R) : option (list R + list (list R)) :=
    if (ndim A =? 2)%nat then Some (inl (svals A))
    else let* l := omap (fun i => let* M := ft_matricize A [i] None in Some (svals M)) (seq 0 (ndim A)) in Some (inr l).
  (** tree_based_tensor.py:1995-2019 singular_values: tensor = self.orth() (whose flag is_orth is True, with orth_node equal to the
      root), then the Gramians of tensor; None for an inactive node *)
  Definition tb_singular_values (X : tbt R) : option (list (option (list R))) :=
    let* Z := tb_orth qr X in
    let* gZ := tb_gramians qr true Z None in
    Some (map (option_map (fun G => map sqrt (svals G))) (fst gZ)).
End SingularValues.
