(** Vocabulary for L2 density estimation in an orthonormal basis.
    The data [b] are the coefficients of a known part of the density (zero if there is none). *)
From Coq Require Import List Arith Lia Reals Bool.
From Verif.Base Require Import ListAux CRing Index RealAux LinAlg.
From Verif.Model Require Import Learning.
From Verif.Spec Require Import LearningSpec.
Import ListNotations.
Local Open Scope R_scope.

(** contrast of the coefficients c (on the columns [ind]) at sample i: |c|^2 - 2 f_c(x_i) + 2 <c, b> *)
Definition contrast (A : mx) (b : vec) (ind : list nat) (c : vec) (i : nat) : R :=
  lsum ind (fun j => c j ^ 2) - 2 * lsum ind (fun j => ment A i j * c j) + 2 * lsum ind (fun j => b j * c j).
(** mean contrast over the samples in [rows] *)
Definition empirical_contrast (A : mx) (b : vec) (ind : list nat) (rows : list nat) (c : vec) : R :=
  lsum rows (contrast A b ind c) / INR (length rows).
Definition minimises_contrast (A : mx) (b : vec) (ind rows : list nat) (c : vec) : Prop :=
  forall c', empirical_contrast A b ind rows c <= empirical_contrast A b ind rows c'.
(** leave-one-out contrast: [fit i] is trained without the i-th sample *)
Definition loo_contrast (A : mx) (b : vec) (ind : list nat) (fit : nat -> vec) : R :=
  lsum (seq 0 (mrows A)) (fun i => contrast A b ind (fit i) i) / INR (mrows A).
Definition b_or_zero (b : option vec) : vec := match b with Some b => b | None => fun _ => 0 end.
(** [order] lists all columns by decreasing absolute value of x *)
Definition decreasing_order (P : nat) (x : vec) (order : list nat) : Prop :=
  NoDup order /\ (forall j, In j order <-> (j < P)%nat) /\
  forall a c, (a <= c)%nat -> (c < length order)%nat -> Rabs (x (nth c order 0%nat)) <= Rabs (x (nth a order 0%nat)).

(** (x, e) is the best of the candidate column sets: x minimises the contrast among the coefficients supported by one of them,
    e is its leave-one-out contrast and no candidate has a smaller one *)
Definition best_candidate (A : mx) (b : vec) (inds : list (list nat)) (x : vec) (e : R) : Prop :=
  exists ind, In ind inds /\ minimises_contrast A b ind (all_rows A) x /\ (forall j, ~ In j ind -> x j = 0) /\
    (forall fit, (forall i, (i < mrows A)%nat -> minimises_contrast A b ind (without A [i]) (fit i)) -> e = loo_contrast A b ind fit) /\
    (forall ind' fit, In ind' inds -> (forall i, (i < mrows A)%nat -> minimises_contrast A b ind' (without A [i]) (fit i)) -> e <= loo_contrast A b ind' fit).
