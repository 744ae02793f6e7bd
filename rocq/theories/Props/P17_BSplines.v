(** Property C40: B-splines and dilated B-splines (BSplines_functional_basis.py), over the reals.
    Vocabulary: Spec/BSplineSpec.v.  [nth i t 0] is the i-th knot; [bs_eval t p x] is the row of eval(x);
    [bs_cardinal t p] the reported cardinal. *)
From Coq Require Import List Arith ZArith Lia Bool Reals Lra.
From Verif.Base Require Import ListAux.
From Verif.Model Require Import BSplines.
From Verif.Spec Require Import BSplineSpec.
From Verif.Proofs Require BSplinesP2.
Import ListNotations.
Local Open Scope R_scope.

(** eval and eval_derivative return one value per basis function *)
Theorem c40_cardinal : forall t p n x, length (bs_eval t p x) = bs_cardinal t p /\ length (bs_eval_derivative t p n x) = bs_cardinal t p.
Proof. intros t p n x. split; [apply BSplinesP2.bs_eval_spec|apply BSplinesP2.bs_deriv_spec]. Qed.
Print Assumptions c40_cardinal.
(** each basis function is nonnegative, positive inside its support (t_i, t_{i+p+1}) and zero outside *)
Theorem c40_support : forall t p i x, increasing t -> (i < bs_cardinal t p)%nat ->
  0 <= nth i (bs_eval t p x) 0 /\
  (nth i t 0 < x < nth (i + p + 1) t 0 -> 0 < nth i (bs_eval t p x) 0) /\
  (x <= nth i t 0 \/ nth (i + p + 1) t 0 < x -> nth i (bs_eval t p x) 0 = 0).
Proof. intros t p i x Ht Hi. apply BSplinesP2.bs_support; auto. Qed.
Print Assumptions c40_support.
(** partition of unity between the p-th knot and the p-th knot from the end *)
Theorem c40_partition_of_unity : forall t p x, increasing t -> (p + p + 1 < length t)%nat ->
  nth p t 0 < x <= nth (length t - 1 - p) t 0 -> fold_right Rplus 0 (bs_eval t p x) = 1.
Proof. intros. apply BSplinesP2.bs_unity; auto. Qed.
Print Assumptions c40_partition_of_unity.
(** with_extra_knots keeps the knots increasing and makes the B-splines of degree m a partition of unity on
    the whole range of the given knots *)
Theorem c40_extra_knots : forall t m t', increasing t -> extra_knots t m = Some t' ->
  length t' = (length t + m + m)%nat /\ increasing t' /\ (forall i, (i < length t)%nat -> nth (m + i) t' 0 = nth i t 0) /\
  bs_cardinal t' m = (length t - 1 + m)%nat /\
  forall x, nth 0 t 0 < x <= nth (length t - 1) t 0 -> fold_right Rplus 0 (bs_eval t' m x) = 1.
Proof.
  intros t m t' Ht E. destruct (BSplinesP2.extra_knots_spec t m t' Ht E) as (H1 & H2 & H3). split; auto. split; auto. split; auto. split.
  - unfold bs_cardinal. rewrite H1. unfold extra_knots in E. destruct (Nat.ltb_spec (length t) 2); [discriminate|lia].
  - intros x Hx. apply BSplinesP2.extra_unity with (t := t); auto.
Qed.
Print Assumptions c40_extra_knots.
(** eval_derivative(n, x): the n-th derivative of eval, at every point that is not a knot for every n, and at
    every point for n less than the degree, where moreover it is continuous *)
Theorem c40_derivative : forall t p n i, increasing t -> (i < bs_cardinal t p)%nat ->
  nth_derivative (fun x => ~ In x t) n (fun x => nth i (bs_eval t p x) 0) (fun x => nth i (bs_eval_derivative t p n x) 0).
Proof. intros. apply BSplinesP2.bs_nder_off; auto. Qed.
Print Assumptions c40_derivative.
Theorem c40_derivative_smooth : forall t p n i, increasing t -> (i < bs_cardinal t p)%nat -> (n < p)%nat ->
  nth_derivative (fun _ => True) n (fun x => nth i (bs_eval t p x) 0) (fun x => nth i (bs_eval_derivative t p n x) 0) /\
  continuity (fun x => nth i (bs_eval_derivative t p n x) 0).
Proof. intros. split; [apply BSplinesP2.bs_nder|apply BSplinesP2.bs_cont]; auto. Qed.
Print Assumptions c40_derivative_smooth.
(** dilated B-splines: support of the function of level l and index j *)
Theorem c40_dilated_support : forall m b l j x, (1 <= b)%nat -> let y := x * INR (b ^ l) - IZR j in
  0 <= dil_eval m b l j x /\ (0 < y < INR (m + 1) -> 0 < dil_eval m b l j x) /\ (y <= 0 \/ INR (m + 1) < y -> dil_eval m b l j x = 0).
Proof. exact BSplinesP2.dil_support. Qed.
Print Assumptions c40_dilated_support.
(** indices_with_level / indices_with_level_bounded_by: without repetition, exactly the functions that do not
    vanish identically on (0, 1) *)
Theorem c40_dilated_indices : forall m b l, (1 <= b)%nat -> NoDup (dil_indices m b l) /\
  forall j, In (l, j) (dil_indices m b l) <-> exists x, 0 < x < 1 /\ dil_eval m b l j x <> 0.
Proof. intros m b l Hb. split; [apply BSplinesP2.dil_indices_NoDup|]. intros j. apply BSplinesP2.dil_indices_spec; auto. Qed.
Print Assumptions c40_dilated_indices.
Theorem c40_dilated_indices_bounded : forall m b L, (1 <= b)%nat -> NoDup (dil_indices_bounded m b L) /\
  forall l j, In (l, j) (dil_indices_bounded m b L) <-> (l <= L)%nat /\ exists x, 0 < x < 1 /\ dil_eval m b l j x <> 0.
Proof. intros m b L Hb. split; [apply BSplinesP2.dil_bounded_NoDup|]. intros l j. apply BSplinesP2.dil_bounded_spec; auto. Qed.
Print Assumptions c40_dilated_indices_bounded.
(** at each level the functions sum to b^(l/2) on (0, 1] *)
Theorem c40_dilated_unity : forall m b l x, (1 <= b)%nat -> 0 < x <= 1 ->
  fold_right Rplus 0 (dilb_eval m b (dil_indices m b l) x) = Rpower (INR b) (INR l / 2).
Proof. exact BSplinesP2.dil_unity. Qed.
Print Assumptions c40_dilated_unity.
(** the derivatives of the dilated B-splines *)
Theorem c40_dilated_derivative : forall m b l j k, (1 <= b)%nat ->
  nth_derivative (fun x => forall i, (i <= m + 1)%nat -> x * INR (b ^ l) <> IZR j + INR i) k (dil_eval m b l j) (dil_eval_derivative m b k l j) /\
  ((k < m)%nat -> nth_derivative (fun _ => True) k (dil_eval m b l j) (dil_eval_derivative m b k l j)).
Proof. intros. split; [apply BSplinesP2.dil_nder_off; auto|]. intros. apply BSplinesP2.dil_nder; auto. Qed.
Print Assumptions c40_dilated_derivative.

(** ** the hypotheses are satisfiable *)
Definition ex_knots : list R := [0; 1; 3; 4; 6; 7].
Example c40_ex : increasing ex_knots /\ bs_cardinal ex_knots 2 = 3%nat /\ (2 + 2 + 1 < length ex_knots)%nat /\
  fold_right Rplus 0 (bs_eval ex_knots 2 (7 / 2)) = 1 /\ extra_knots ex_knots 2 <> None.
Proof.
  assert (H : increasing ex_knots). { intros i Hi. unfold ex_knots in *. cbn in Hi. do 5 (destruct i as [|i]; [cbn; lra|]). lia. }
  split; [exact H|]. split; [reflexivity|]. split; [cbn; lia|]. split; [|discriminate].
  apply c40_partition_of_unity; [exact H|cbn; lia|]. cbn. lra.
Qed.
(** values: the hat function of the knots 0, 1, 3 at 2, and its derivative there *)
Example c40_ex_val : bs_eval [0; 1; 3] 1 2 = [1 / 2] /\ bs_eval_derivative [0; 1; 3] 1 1 2 = [- (1 / 2)].
Proof.
  unfold bs_eval, bs_eval_derivative, dbs_step, eval_sequence. cbn.
  destruct (Rlt_dec 0 2); [|lra]. destruct (Rle_dec 2 1); [lra|]. destruct (Rlt_dec 1 2); [|lra]. destruct (Rle_dec 2 3); [|lra].
  split; f_equal; lra.
Qed.
