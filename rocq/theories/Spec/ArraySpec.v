(** Vocabulary for the properties of FunctionalBasisArray (no code is modelled here). *)
From Coq Require Import List Arith.
From Verif.Base Require Import CRing.
From Verif.Model Require Import Numpy FunctionalBases.
From Verif.Spec Require TensorSpec.
Import ListNotations.
Section S.
  Context {R : Type} {CR : CRing R} {A V : Type}.
  Local Open Scope cr_scope.
  (** value at the point p of the j-th component of the function whose array of coefficients in the basis b is d:
      sum over k of phi_k(p) d[k, j] *)
  Definition array_fun (b : fbasis R A V) (d : nd R) (j : nat) (p : list A) : R := rsum (fb_card b) (fun k => fb_at b p k * get d [k; j]).
  (** the object with the data d and q components evaluates to the functions f_0, ..., f_(q-1) at every array of points *)
  Definition evaluates (b : fbasis R A V) (q : nat) (d : nd R) (f : nat -> list A -> R) : Prop :=
    forall x, TensorSpec.returns (fba_eval b [q] d x) [length x; q] (fun ix => f (nth 1 ix 0%nat) (nth (nth 0 ix 0%nat) x [])).
End S.
