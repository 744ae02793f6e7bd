(** Properties C34 (leave-one-out and k-fold shortcuts), C52 (selection along a path of sparsity patterns) and
    C53 (L2 density estimation). *)
From Coq Require Import List Arith Lia Reals Lra Bool.
From Verif.Base Require Import ListAux CRing Index RealAux LinAlg.
From Verif.Model Require Import Measures Learning DensityL2.
From Verif.Spec Require Import LearningSpec DensitySpec.
From Verif.Proofs Require Import LearningP LearningP2 LearningP3 DensityP LapackP.
Import ListNotations.
Local Open Scope R_scope.

(** ** C34 *)
(** the returned coefficients minimise the residual sum of squares, for both solvers and also for rank-deficient systems *)
Theorem c34_solution : forall L s o A y, lapack_ok L -> least_squares A y (all_rows A) (fst (solve_ols L s o A y)).
Proof. intros. apply ols_correct; auto. Qed.
Print Assumptions c34_solution.
(** "leave_out": delta_i is the prediction error at sample i of the model trained without it, the error is the relative
    root-mean-square of these, multiplied by the documented correction factor when it is switched on *)
Theorem c34_leave_one_out : forall L s o A y fit, lapack_ok L -> (mcols A < mrows A)%nat -> loo_determined A -> cv_kind o = LeaveOut -> loo_fits A y fit ->
  exists delta e, snd (solve_ols L s o A y) = Some (CvFin e delta) /\ (forall i, (i < mrows A)%nat -> delta i = y i - prediction A (fit i) i) /\
    (cv_correction o = false -> e = sqrt (loo_error A y fit)) /\
    (cv_correction o = true -> feps <= 1 / l_cond L (snd (l_qr L A)) -> forall C, gram_inverse A C -> 0 < correction A C (cv_gram o) -> e = sqrt (loo_error A y fit * correction A C (cv_gram o))).
Proof. intros; apply solve_ols_loo; auto. Qed.
(** without a user-supplied Gram matrix the correction factor is always positive *)
Theorem c34_correction_positive : forall A C, gram_inverse A C -> (mcols A < mrows A)%nat -> 0 < correction A C None.
Proof. exact correction_pos. Qed.
Print Assumptions c34_correction_positive.
(** "k_fold", for every partition of the samples into folds *)
Theorem c34_k_fold : forall L s o A y fit, lapack_ok L -> (mcols A <= mrows A)%nat -> (0 < mrows A)%nat -> folds_ok (mrows A) (cv_folds o) ->
  (forall F, In F (cv_folds o) -> determined A (without A F)) ->
  cv_kind o = KFold -> cv_nfolds o = Some (length (cv_folds o)) -> (length (cv_folds o) < mrows A)%nat ->
  INR (mcols A) <= INR (mrows A) * (1 - 1 / INR (length (cv_folds o))) ->
  (forall F, In F (cv_folds o) -> least_squares A y (without A F) (fit F)) ->
  exists delta e, snd (solve_ols L s o A y) = Some (CvFin e delta) /\ (forall F i, In F (cv_folds o) -> In i F -> delta i = y i - prediction A (fit F) i) /\
    (cv_correction o = false -> e = sqrt (fold_error A y (cv_folds o) fit)) /\
    (cv_correction o = true -> (mcols A < mrows A)%nat -> feps <= 1 / l_cond L (snd (l_qr L A)) -> forall C, gram_inverse A C -> 0 < correction A C (cv_gram o) -> e = sqrt (fold_error A y (cv_folds o) fit * correction A C (cv_gram o))).
Proof. intros; apply solve_ols_kfold; auto. Qed.
Theorem c34_residuals : forall A y sol, (0 < mrows A)%nat -> residual_error A y sol
  = (mean (all_rows A) (fun i => (y i - prediction A sol i) ^ 2) / mean (all_rows A) (fun i => y i ^ 2), fun i => y i - prediction A sol i).
Proof. exact residual_error_spec. Qed.
Print Assumptions c34_residuals.
(** density estimation: the closed formula is the leave-one-out contrast, with and without the linear part b *)
Theorem c34_density : forall A b fit, (2 <= mrows A)%nat ->
  (forall i, (i < mrows A)%nat -> minimises_contrast A (b_or_zero b) (seq 0 (mcols A)) (without A [i]) (fit i)) ->
  let (x, e) := dl2_solve_standard A b in
  minimises_contrast A (b_or_zero b) (seq 0 (mcols A)) (all_rows A) x /\ e = loo_contrast A (b_or_zero b) (seq 0 (mcols A)) fit.
Proof. exact standard_spec. Qed.
Print Assumptions c34_leave_one_out.
Print Assumptions c34_k_fold.
Print Assumptions c34_density.

(** ** C52 *)
Theorem c52_selection : forall L s o stop A y path, lapack_ok L -> Forall (fun p => length p = mcols A) path -> (exists p, candidate A path p) ->
  cv_kind o = LeaveOut -> cv_correction o = false ->
  exists x p er, select_optimal_path L s o stop A y path = Some (x, Some er, Some p) /\ candidate A path p /\
    sparse_least_squares A y (all_rows A) (positions p) x /\
    (forall p' fit, candidate A path p' -> (length (positions p') < mrows A)%nat -> loo_determined (columns A (positions p')) -> loo_fits (columns A (positions p')) y fit ->
       exists e delta, er = CvFin e delta /\ e <= sqrt (loo_error (columns A (positions p')) y fit)) /\
    (forall fit, (length (positions p) < mrows A)%nat -> loo_determined (columns A (positions p)) -> loo_fits (columns A (positions p)) y fit ->
       exists delta, er = CvFin (sqrt (loo_error (columns A (positions p)) y fit)) delta).
Proof. exact select_loo. Qed.
(** for every kind of cross-validation, the returned coefficients are a least-squares fit supported by a candidate pattern *)
Theorem c52_support : forall L s o stop A y path, lapack_ok L -> Forall (fun p => length p = mcols A) path -> (exists p, candidate A path p) ->
  forall x e q, select_optimal_path L s o stop A y path = Some (x, e, q) ->
  exists p, q = Some p /\ candidate A path p /\ sparse_least_squares A y (all_rows A) (positions p) x.
Proof. intros L s o stop A y path HL HP HE x e q H. destruct (select_spec L s o stop A y path HL HP HE x e q H) as (p & er & E1 & _ & E2 & E3 & _). eauto. Qed.
Print Assumptions c52_support.
(** without a path, basis adaptation selects among the patterns {0}, {0,1}, ..., {0,...,P-1} of the first basis functions *)
Theorem c52_default_path : forall L s o stop A y, solve_basis_adaptation L s o stop A y None =
  select_optimal_path L s o stop A y (map (fun j => repeat true (S j) ++ repeat false (mcols A - S j)) (seq 0 (mcols A))).
Proof.
  intros. unfold solve_basis_adaptation. f_equal. unfold triu_path. apply map_ext_in. intros j Hj. apply in_seq in Hj.
  apply nth_ext with (d := false) (d' := false); [rewrite map_length, seq_length, app_length, !repeat_length; lia|]. rewrite map_length, seq_length. intros i Hi.
  rewrite (map_nth_in _ _ _ 0%nat) by (rewrite seq_length; auto). rewrite seq_nth by auto. cbn [Nat.add]. destruct (Nat.leb_spec i j).
  - rewrite app_nth1 by (rewrite repeat_length; lia). symmetry. rewrite (nth_indep _ false true) by (rewrite repeat_length; lia). apply nth_repeat.
  - rewrite app_nth2 by (rewrite repeat_length; lia). symmetry. apply nth_repeat.
Qed.
Print Assumptions c52_default_path.
(** the option "stop_if_error_increase" has no effect on the result *)
Theorem c52_stop_has_no_effect : forall L s o A y path, select_optimal_path L s o true A y path = select_optimal_path L s o false A y path.
Proof. intros. apply select_stop. Qed.
Print Assumptions c52_stop_has_no_effect.
Print Assumptions c52_selection.

(** ** C53 *)
Theorem c53_regularized : forall A b order, (2 <= mrows A)%nat -> order <> [] ->
  exists x e, dl2_solve_regularized A b order None = Some (x, Some e) /\ best_candidate A (b_or_zero b) (map (fun k => firstn (S k) order) (seq 0 (length order))) x e.
Proof. exact regularized_spec. Qed.
Print Assumptions c53_regularized.
Theorem c53_regularized_included : forall A order incl, (2 <= mrows A)%nat -> (exists j, In j order /\ ~ In j incl) ->
  exists x e, dl2_solve_regularized A None order (Some incl) = Some (x, Some e) /\
    let rest := filter (fun j => negb (existsb (Nat.eqb j) incl)) order in
    best_candidate A (fun _ => 0) (incl :: map (fun k => incl ++ firstn (S k) rest) (seq 0 (length rest))) x e.
Proof. exact regularized_included_spec. Qed.
Print Assumptions c53_regularized_included.
Theorem c53_basis_adaptation : forall A b path, (2 <= mrows A)%nat -> (exists p, candidate A path p) ->
  let (x, e) := dl2_select A b path in
  exists inds, (forall ind, In ind inds <-> exists p, candidate A path p /\ ind = positions p) /\ best_candidate A (b_or_zero b) inds x e.
Proof. exact dl2_select_spec. Qed.
Print Assumptions c53_basis_adaptation.

(** ** Examples: the hypotheses can be met *)
(** numpy.linalg's documented behaviour is realisable *)
Example c34_lapack : exists L, lapack_ok L.
Proof. exact lapack_exists. Qed.
Print Assumptions c34_lapack.
(** a line fitted to the points (0,0), (1,0), (2,3): the leave-one-out errors are 3, -3/2, 3 *)
Definition exA : mx := MX 3 2 (fun i j => if (j =? 0)%nat then 1 else INR i).
Definition exy : vec := fun i => if (i =? 2)%nat then 3 else 0.
Definition exfit (i j : nat) : R :=
  match i, j with 0%nat, 0%nat => -3 | 0%nat, 1%nat => 3 | 1%nat, 1%nat => 3 / 2 | _, _ => 0 end.
Example c34_ex : loo_determined exA /\ loo_fits exA exy exfit /\ (mcols exA < mrows exA)%nat /\
  map (fun i => exy i - prediction exA (exfit i) i) [0; 1; 2]%nat = [3; - (3 / 2); 3].
Proof.
  assert (W : forall i, (i < 3)%nat -> without exA [i] = match i with 0 => [1; 2] | 1 => [0; 2] | _ => [0; 1] end%nat).
  { intros [|[|[|i]]] Hi; [reflexivity|reflexivity|reflexivity|lia]. }
  split; [|split; [|split]].
  - intros i Hi. cbn in Hi. rewrite (W i Hi). intros x H.
    assert (P0 : forall k, prediction exA x k = x 0%nat + INR k * x 1%nat) by (intros k; unfold prediction; cbn; rcbn; ring).
    destruct i as [|[|[|i]]]; [| | |lia].
    + pose proof (H 1%nat ltac:(cbn; auto)) as H1. pose proof (H 2%nat ltac:(cbn; auto)) as H2. rewrite P0 in H1, H2. cbn in H1, H2. intros [|[|j]] Hj; [lra|lra|cbn in Hj; lia].
    + pose proof (H 0%nat ltac:(cbn; auto)) as H1. pose proof (H 2%nat ltac:(cbn; auto)) as H2. rewrite P0 in H1, H2. cbn in H1, H2. intros [|[|j]] Hj; [lra|lra|cbn in Hj; lia].
    + pose proof (H 0%nat ltac:(cbn; auto)) as H1. pose proof (H 1%nat ltac:(cbn; auto)) as H2. rewrite P0 in H1, H2. cbn in H1, H2. intros [|[|j]] Hj; [lra|lra|cbn in Hj; lia].
  - intros i Hi x'. cbn in Hi. rewrite (W i Hi).
    assert (Z : rss exA exy match i with 0 => [1; 2] | 1 => [0; 2] | _ => [0; 1] end%nat (exfit i) = 0).
    { destruct i as [|[|[|i]]]; [| | |lia]; unfold rss, prediction, exfit, exy; cbn; rcbn; field. }
    rewrite Z. apply lsum_nonneg. intros. apply pow2_ge_0.
  - cbn. lia.
  - cbn. rcbn. repeat f_equal; unfold prediction, exfit; cbn; rcbn; try field.
Qed.
(** patterns: the nested path {0}, {0,1} *)
Example c52_ex : Forall (fun p => length p = mcols exA) (triu_path 2) /\ candidate exA (triu_path 2) [true; false] /\ candidate exA (triu_path 2) [true; true] /\
  positions [true; false] = [0%nat] /\ columns exA [1%nat] = MX 3 1 (fun i j => ment exA i (nth j [1%nat] 0%nat)).
Proof. repeat split; try (cbn; auto; discriminate || lia); try (cbn; auto). Qed.
(** three samples of two basis functions *)
Example c53_ex : let A := MX 3 2 (fun i j => if (j =? 0)%nat then 1 else INR i) in
  (2 <= mrows A)%nat /\ minimises_contrast A (fun _ => 0) [1%nat] (without A [0%nat]) (fun _ => 3 / 2) /\
  minimises_contrast A (fun _ => 0) [1%nat] (all_rows A) (fun _ => 1) /\ decreasing_order 2 (dl2_sol A None) [0; 1]%nat.
Proof.
  cbv zeta. repeat split.
  - cbn; lia.
  - apply standard_minimises; [cbn; lia|]. intros j [<-|[]]. unfold colmean. cbn. rcbn. field.
  - apply standard_minimises; [cbn; lia|]. intros j [<-|[]]. unfold colmean. cbn. rcbn. field.
  - repeat constructor; cbn; intuition lia.
  - cbn. intuition lia.
  - intros Hj. cbn. lia.
  - intros [|[|a]] [|[|c]] H1 H2; cbn in H2; try lia; unfold dl2_sol; cbn; rcbn; rewrite !Rabs_right; lra.
Qed.
