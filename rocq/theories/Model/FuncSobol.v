(** Model of functions/functional_tensor.py:337-368: variances of the conditional expectations of a functional tensor whose
    tensor is a FullTensor.  An exception is [None]. *)
From Coq Require Import List Arith Bool ZArith.
From Verif.Base Require Import ListAux CRing Index.
From Verif.Model Require Import MultiIndices Numpy FullTensor FunctionalBases FuncStats.
Import ListNotations.

Section FS.
  Context {R : Type} {CR : CRing R} {A V : Type}.
  Local Open Scope cr_scope.
  Notation fb := (fbasis R A V).
  (** functional_tensor.py:359-367 one row u of alpha (a list of dimensions); [attr] is the method gram_matrix of the bases
      of the conditional expectation, as in Model/FuncStats.v *)
  Definition fun_var_cond_of (attr : option (list fb -> list nat -> option (list (nd R)))) (T : nd R) (bs : list fb) (u : list nat) : option R :=
    let* m := fun_mean_full T bs (MNone (V := V)) in
    match u with
    | [] => Some r0
    | _ => let* p := fun_cond_full T bs u MNone in
           let* v := fun_dot_of attr true (fst p) (fst p) (snd p) in
           Some (v - get m [] * get m [])
    end.
  (** functional_tensor.py:356-368 variance_conditional_expectation(alpha) *)
  Definition fun_variance_cond_of attr (T : nd R) (bs : list fb) (alpha : list (list nat)) : option (list R) :=
    omap (fun_var_cond_of attr T bs) alpha.
  Definition fun_variance_cond := fun_variance_cond_of fbs_gram_matrix.
End FS.
