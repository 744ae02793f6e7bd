(** Vocabulary for the properties of the measures (no code is modelled here). *)
From Coq Require Import List Arith Reals Sorted.
From Verif.Base Require Import ListAux CRing RealAux.
Import ListNotations.
Local Open Scope R_scope.

(** v is the p-quantile of the distribution function cdf: the smallest x with cdf x >= p *)
Definition is_quantile (cdf : R -> R) (p v : R) : Prop := p <= cdf v /\ forall x, p <= cdf x -> v <= x.
(** probability weights *)
Definition is_distribution (probs : list R) : Prop := (forall p, In p probs -> 0 <= p) /\ lsum probs (fun p => p) = 1.
(** probability that a discrete variable is <= x *)
Definition mass_below (values probs : list R) (x : R) : R :=
  lsum (combine values probs) (fun p => if Rle_dec (fst p) x then snd p else 0).
Definition expectation (values probs : list R) (f : R -> R) : R := lsum (combine values probs) (fun p => snd p * f (fst p)).
Definition nondecreasing (l : list R) : Prop := StronglySorted Rle l.
