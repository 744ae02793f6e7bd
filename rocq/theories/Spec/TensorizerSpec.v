(** Vocabulary for the properties of the Tensorizer (no code is modelled here). *)
From Coq Require Import List Arith Reals.
Import ListNotations.
Local Open Scope R_scope.

(** column of the l-th digit of the k-th variable: (i_1..i_d, j_1..j_d, ...) for ordering 1,
    (i_1, j_1, ..., i_2, j_2, ...) for ordering 2 *)
Definition digit_col (ordering d dim k l : nat) : nat :=
  match ordering with 1 => k * d + l | _ => l * dim + k end%nat.

(** [cdf] maps the set [S] to [0,1] and [icdf] undoes it there *)
Definition cdf_on (S : R -> Prop) (cdf icdf : R -> R) : Prop :=
  forall x, S x -> 0 <= cdf x <= 1 /\ icdf (cdf x) = x.
(** [icdf] sends [0,1] into the support and [cdf] undoes it *)
Definition icdf_on (S : R -> Prop) (cdf icdf : R -> R) : Prop :=
  forall u, 0 <= u <= 1 -> S (icdf u) /\ cdf (icdf u) = u.
(** the uniform distribution on [a, b] *)
Definition unif_cdf (a b x : R) : R := if Rle_dec x a then 0 else if Rle_dec b x then 1 else (x - a) / (b - a).
Definition unif_icdf (a b u : R) : R := a + u * (b - a).
