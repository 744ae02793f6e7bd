(** Vocabulary for the properties of B-splines (no code is modelled here). *)
From Coq Require Import List Arith Reals.
Import ListNotations.
Local Open Scope R_scope.

(** a strictly increasing sequence of knots *)
Definition increasing (t : list R) : Prop := forall i, (S i < length t)%nat -> nth i t 0 < nth (S i) t 0.
(** on the set U, g is the n-th derivative of f (U is meant to be open) *)
Fixpoint nth_derivative (U : R -> Prop) (n : nat) (f g : R -> R) : Prop :=
  match n with
  | O => forall x, U x -> g x = f x
  | S n' => exists h, nth_derivative U n' f h /\ forall x, U x -> derivable_pt_lim h x (g x)
  end.
