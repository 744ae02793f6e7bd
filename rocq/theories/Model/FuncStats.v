(** Model of functions/functional_tensor.py:158-280, 399-425: inner products, variance and products of functional tensors
    whose tensor is a FullTensor; functional_bases.py:161-178, 454-473 and polynomial_functional_basis.py:122-140.
    An exception is [None]. *)
From Coq Require Import List Arith Bool ZArith.
From Verif.Base Require Import ListAux CRing Index.
From Verif.Model Require Import MultiIndices Numpy FullTensor FunctionalBases.
Import ListNotations.

Section FS.
  Context {R : Type} {CR : CRing R} {A V : Type}.
  Local Open Scope cr_scope.
  Notation fb := (fbasis R A V).
  (** functional_bases.py:454-473 gram_matrices(dims) (the Gram matrix of a basis is its field [fb_gram]) *)
  Definition fbs_gram_matrices (bs : list fb) (dims : list nat) : option (list (nd R)) :=
    let* b := omap (nth_error bs) dims in Some (map fb_gram b).
  (** the attribute gram_matrix of an object of the class FunctionalBases (functional_bases.py:28-640): there is none (the
      class has no base class, defines gram_matrices but no gram_matrix, and no __getattr__) *)
  Definition fbs_gram_matrix : option (list fb -> list nat -> option (list (nd R))) := None.
  (** functional_tensor.py:236-249 dot_product_expectation(f_2), fdims=None, no measure; [attr] is the method
      self.bases.gram_matrix and [same] the value of self.bases == f_2.bases *)
  Definition fun_dot_of (attr : option (list fb -> list nat -> option (list (nd R)))) (same : bool) (T1 T2 : nd R) (bs : list fb) : option R :=
    if (ndim T1 =? ndim T2)%nat then
      if same then
        let* gm := attr in
        let* g := gm bs (seq 0 (ndim T1)) in
        let* t := ft_tensor_matrix_product T1 g (Some (seq 0 (ndim T1))) in
        ft_dot t T2
      else None
    else None.
  Definition fun_dot_expectation := fun_dot_of fbs_gram_matrix.
  (** functional_tensor.py:175-180 variance() *)
  Definition fun_variance_of (attr : option (list fb -> list nat -> option (list (nd R)))) (T : nd R) (bs : list fb) : option R :=
    let* m := fun_mean_full T bs (MNone (V := V)) in
    match shape m with
    | [] => let* v := fun_dot_of attr true T T bs in Some (v - get m [] * get m [])
    | _ => None
    end.
  Definition fun_variance := fun_variance_of fbs_gram_matrix.
  (** functional_tensor.py:271-278 norm(), not evaluated bases: the number under the square root *)
  Definition fun_norm2_of attr (T : nd R) (bs : list fb) : option R := fun_dot_of attr true T T bs.
  Definition fun_norm2 := fun_norm2_of fbs_gram_matrix.

  (** SubFunctionalBasis(b, B) as a basis (its mean and Gram matrix are not used here) *)
  Definition sub_basis (b : fb) (B : nd R) : fb :=
    FB (fb_ndim b) (nth 1 (shape B) 0%nat) (fun p j => rsum (fb_card b) (fun k => fb_at b p k * get B [k; j])) (fun _ => []) (scalar r0) false.
  (** polynomial_functional_basis.py:48-72 PolynomialFunctionalBasis(basis, indices); [pol i p] is the value at the point p
      of the polynomial of degree i of the family *)
  Definition pol_basis (pol : nat -> list A -> R) (ind : list nat) : fb :=
    FB 1 (length ind) (fun p k => pol (nth k ind 0%nat) p) (fun _ => []) (scalar r0) false.
  (** polynomial_functional_basis.py:122-140 kron(q): the products of the functions, projected on the polynomials with
      indices range(m); [proj] is the array data of the projection *)
  Definition pol_kron (pol : nat -> list A -> R) (ind ind2 : list nat) (proj : nd R) : fb :=
    let m := (list_max ind + list_max ind2)%nat in sub_basis (pol_basis pol (seq 0 m)) proj.
  (** functional_tensor.py:399-425 f * g for functional tensors: the tensor ([ft_kron]) and the bases (functional_bases.py:
      161-178: the kron of the bases, two by two) *)
  Definition fun_mul (T1 T2 : nd R) (inds1 inds2 : list (list nat)) (pol : nat -> list A -> R) (projs : list (nd R)) : option (nd R * list fb) :=
    let* t := ft_kron T1 T2 in
    Some (t, map (fun p => pol_kron pol (fst (fst p)) (snd (fst p)) (snd p)) (combine (combine inds1 inds2) projs)).
End FS.
