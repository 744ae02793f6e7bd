(** C42: loss functions, risks and test errors (tensap.SquareLossFunction, DensityL2LossFunction, CustomLossFunction). *)
From Coq Require Import List Arith Lia Reals Lra Bool.
From Verif.Base Require Import ListAux CRing Index RealAux LinAlg.
From Verif.Model Require Import Measures Learning Losses.
From Verif.Spec Require Import LearningSpec.
From Verif.Proofs Require Import LearningP LossesP.
Import ListNotations.
Local Open Scope R_scope.

(** squared Euclidean distance between the i-th rows, and squared norm *)
Definition sq_dist (P Y : mx) (i : nat) : R := rsum (mcols Y) (fun j => (ment P i j - ment Y i j) ^ 2).
Definition sq_norm (Y : mx) (i : nat) : R := rsum (mcols Y) (fun j => ment Y i j ^ 2).

(** C42: for two-dimensional outputs (one row per sample) the risk is the mean squared distance, the reference risk that of the zero
    prediction, the absolute error the root mean square and the relative error the ratio of the norms *)
Theorem c42_square : forall P Y, mrows P = mrows Y -> mcols P = mcols Y -> (0 < mrows Y)%nat ->
  square_risk (A2 P) (A2 Y) = Some (mean (all_rows Y) (sq_dist P Y), mean (all_rows Y) (sq_norm Y)) /\
  square_test_error Absolute (A2 P) (A2 Y) = Some (sqrt (mean (all_rows Y) (sq_dist P Y))) /\
  square_test_error Relative (A2 P) (A2 Y) = Some (sqrt (lsum (all_rows Y) (sq_dist P Y) / lsum (all_rows Y) (sq_norm Y))).
Proof.
  intros P Y E1 E2 HN. assert (H := square_risk_2d P Y E1 E2). unfold mean, all_rows. rewrite seq_length, !lsum_seq_rsum. split; [exact H|]. unfold square_test_error, square_relative_error. rewrite H. split; auto.
  rewrite ratio_cancel; auto. apply lt_0_INR; auto.
Qed.
(** C42: the risk is zero exactly for perfect predictions *)
Theorem c42_zero_risk : forall P Y r rr, mrows P = mrows Y -> mcols P = mcols Y -> (0 < mrows Y)%nat -> square_risk (A2 P) (A2 Y) = Some (r, rr) ->
  0 <= r /\ (r = 0 <-> forall i j, (i < mrows Y)%nat -> (j < mcols Y)%nat -> ment P i j = ment Y i j).
Proof.
  intros P Y r rr E1 E2 HN H. rewrite (square_risk_2d P Y E1 E2) in H. injection H as <- _. assert (HI : 0 < INR (mrows Y)) by (apply lt_0_INR; auto).
  assert (H0 : forall i, 0 <= rsum (mcols Y) (fun j => (ment P i j - ment Y i j) ^ 2)) by (intros i; apply rsum_nonneg; intros; apply pow2_ge_0).
  assert (H1 : 0 <= rsum (mrows Y) (fun i => rsum (mcols Y) (fun j => (ment P i j - ment Y i j) ^ 2))) by (apply rsum_nonneg; auto).
  split; [unfold Rdiv; apply Rmult_le_pos; auto; left; apply Rinv_0_lt_compat; auto|]. split.
  - intros Z i j Hi Hj. assert (Z1 : rsum (mrows Y) (fun i => rsum (mcols Y) (fun j => (ment P i j - ment Y i j) ^ 2)) = 0).
    { unfold Rdiv in Z. apply Rmult_integral in Z as [|Z]; auto. exfalso. assert (0 < / INR (mrows Y)) by (apply Rinv_0_lt_compat; auto). lra. }
    assert (T := rsum_term_le (mrows Y) (fun i => rsum (mcols Y) (fun j => (ment P i j - ment Y i j) ^ 2)) i (fun i _ => H0 i) Hi). cbn beta in T. rewrite Z1 in T.
    assert (T2 := rsum_term_le (mcols Y) (fun j => (ment P i j - ment Y i j) ^ 2) j (fun j _ => pow2_ge_0 _) Hj). cbn beta in T2. specialize (H0 i).
    assert (Q : (ment P i j - ment Y i j) ^ 2 = 0) by (assert (0 <= (ment P i j - ment Y i j) ^ 2) by apply pow2_ge_0; lra). replace ((ment P i j - ment Y i j) ^ 2) with (Rsqr (ment P i j - ment Y i j)) in Q by (unfold Rsqr; ring).
    apply Rsqr_0_uniq in Q. lra.
  - intros E. rewrite (rsum_ext_R' (mrows Y) _ (fun _ => 0)); [rewrite rsum_const0; unfold Rdiv; ring|]. intros i Hi. rewrite (rsum_ext_R' (mcols Y) _ (fun _ => 0)); [apply rsum_const0|].
    intros j Hj. rewrite E by auto. ring.
Qed.
Print Assumptions c42_zero_risk.
(** C42: for a linear model with one output, minimising the risk is the least-squares problem solved by the learning classes *)
Theorem c42_linear_model : forall A y x x' r r' rr rr', (0 < mrows A)%nat ->
  square_risk (A2 (MX (mrows A) 1 (fun i _ => prediction A x i))) (A2 (MX (mrows A) 1 (fun i _ => y i))) = Some (r, rr) ->
  square_risk (A2 (MX (mrows A) 1 (fun i _ => prediction A x' i))) (A2 (MX (mrows A) 1 (fun i _ => y i))) = Some (r', rr') ->
  (r <= r' <-> rss A y (all_rows A) x <= rss A y (all_rows A) x').
Proof.
  intros A y x x' r r' rr rr' HN H H'. rewrite square_risk_2d in H, H' by auto. injection H as <- _. injection H' as <- _. cbn [mrows mcols ment]. unfold rss, all_rows. rewrite !lsum_seq_rsum.
  assert (HI : 0 < / INR (mrows A)) by (apply Rinv_0_lt_compat, lt_0_INR; auto).
  rewrite (rsum_ext_R' _ (fun i => 0 + (prediction A x i - y i) * ((prediction A x i - y i) * 1)) (fun i => (y i - prediction A x i) ^ 2)) by (intros; ring).
  rewrite (rsum_ext_R' _ (fun i => 0 + (prediction A x' i - y i) * ((prediction A x' i - y i) * 1)) (fun i => (y i - prediction A x' i) ^ 2)) by (intros; ring).
  unfold Rdiv. split; intros HH; [eapply Rmult_le_reg_r; eauto|apply Rmult_le_compat_r; lra].
Qed.
Print Assumptions c42_linear_model.
(** C42: one-dimensional outputs: the relative error is still right ... *)
Theorem c42_relative_1d : forall n p y, square_test_error Relative (A1 n p) (A1 n y) = Some (sqrt (lsum (seq 0 n) (fun i => (p i - y i) ^ 2) / lsum (seq 0 n) (fun i => y i ^ 2))).
Proof. intros n p y. unfold square_test_error, square_relative_error. rewrite square_risk_1d, !lsum_seq_rsum. auto. Qed.
Print Assumptions c42_relative_1d.
(** ... but the risk is n times the mean squared error: the samples are taken for the outputs of one sample *)
Theorem c42_risk_1d_refuted : forall n p y, (2 <= n)%nat -> (exists i, (i < n)%nat /\ p i <> y i) ->
  exists r rr, square_risk (A1 n p) (A1 n y) = Some (r, rr) /\ r = INR n * mean (seq 0 n) (fun i => (p i - y i) ^ 2) /\ r <> mean (seq 0 n) (fun i => (p i - y i) ^ 2).
Proof.
  intros n p y Hn (i & Hi & Hne). rewrite square_risk_1d. eexists _, _. split; [reflexivity|]. unfold mean. rewrite seq_length, lsum_seq_rsum. assert (HI : 2 <= INR n) by (apply (le_INR 2); auto).
  set (q := rsum n (fun j => (p j - y j) ^ 2)). assert (HQ : 0 < q).
  { assert (T := rsum_term_le n (fun j => (p j - y j) ^ 2) i (fun j _ => pow2_ge_0 _) Hi). cbn beta in T. fold q in T. assert (0 < (p i - y i) ^ 2) by (replace ((p i - y i) ^ 2) with (Rsqr (p i - y i)) by (unfold Rsqr; ring); apply Rsqr_pos_lt; lra). lra. }
  split; [field; lra|]. intros E. assert (q * INR n = q) by (rewrite E at 1; field; lra). assert (q * 2 <= q * INR n) by (apply Rmult_le_compat_l; lra). lra.
Qed.
(** predictions of shape (n, 1) with a one-dimensional sample are broadcast against each other: perfect predictions have a nonzero error *)
Theorem c42_mixed_shapes_refuted : forall n y, (2 <= n)%nat -> (exists i j, (i < n)%nat /\ (j < n)%nat /\ y i <> y j) ->
  exists r rr, square_risk (A2 (MX n 1 (fun i _ => y i))) (A1 n y) = Some (r, rr) /\ 0 < r.
Proof.
  intros n y Hn (i & j & Hi & Hj & Hne). unfold square_risk, square_eval, bsub, bdim. cbn [atleast_2d mrows mcols ment]. destruct (Nat.eqb_spec n 1) as [|_]; [lia|]. destruct (Nat.eqb_spec 1 n) as [|_]; [lia|].
  rewrite Nat.eqb_refl. eexists _, _. split; [reflexivity|]. unfold np_mean_v, sum_sq_rows, np_mean. cbn [fst snd mrows mcols ment]. unfold bix. destruct (Nat.eqb_spec n 1) as [|_]; [lia|].
  assert (HI : 2 <= INR n) by (apply (le_INR 2); auto). apply Rmult_lt_0_compat; [|apply Rinv_0_lt_compat; lra].
  assert (T := rsum_term_le n (fun i => rsum n (fun j => (y i - y j) ^ 2)) i (fun i _ => rsum_nonneg _ _ (fun j _ => pow2_ge_0 _)) Hi). cbn beta in T.
  assert (T2 := rsum_term_le n (fun j => (y i - y j) ^ 2) j (fun j _ => pow2_ge_0 _) Hj). cbn beta in T2.
  assert (0 < (y i - y j) ^ 2) by (replace ((y i - y j) ^ 2) with (Rsqr (y i - y j)) by (unfold Rsqr; ring); apply Rsqr_pos_lt; lra). lra.
Qed.
Print Assumptions c42_mixed_shapes_refuted.
(** C42: the risk of the density loss and of a custom elementwise loss *)
Theorem c42_density : forall norm n p, (0 < n)%nat -> density_risk norm n p = norm ^ 2 - 2 * mean (seq 0 n) p.
Proof.
  intros norm n p Hn. unfold density_risk, np_mean, mean. rewrite seq_length, lsum_seq_rsum. rewrite rsum_minus_R, rsum_scal_l_R. assert (HI : 0 < INR n) by (apply lt_0_INR; auto).
  replace (rsum n (fun _ => norm ^ 2)) with (INR n * norm ^ 2); [field; lra|]. clear. induction n as [|n IH]; [cbn; ring|]. rewrite rsum_S_R, <- IH, S_INR. ring.
Qed.
Print Assumptions c42_density.
Theorem c42_custom : forall loss n yt yp, custom_risk loss n yt yp = (mean (seq 0 n) (fun i => loss (yt i) (yp i)), mean (seq 0 n) (fun i => loss (yt i) 0)).
Proof.
  intros loss n yt yp. unfold custom_risk, np_mean, mean. rewrite seq_length, !lsum_seq_rsum. f_equal. f_equal. apply rsum_ext_R'. intros. rewrite Rmult_0_l. auto.
Qed.
Print Assumptions c42_custom.
Print Assumptions c42_square.
Print Assumptions c42_risk_1d_refuted.

(** ** Examples *)
Example c42_ex : square_risk (A2 (MX 2 1 (fun i _ => INR i))) (A2 (MX 2 1 (fun i _ => 1))) = Some (1 / 2, 1).
Proof. rewrite square_risk_2d by auto. cbn [mrows mcols ment]. rewrite !rsum_S_R. cbn. f_equal. f_equal; field. Qed.
Example c42_1d_ex : square_risk (A1 2 (fun i => INR i)) (A1 2 (fun _ => 1)) = Some (1, 2).
Proof. rewrite square_risk_1d. rewrite !rsum_S_R. cbn. f_equal. f_equal; ring. Qed.
