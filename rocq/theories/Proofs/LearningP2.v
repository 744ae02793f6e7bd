(** Leave-one-out and k-fold errors of the code. *)
From Coq Require Import List Arith Lia Reals Lra Bool Permutation.
From Verif.Base Require Import ListAux CRing Index RealAux LinAlg.
From Verif.Model Require Import Measures Learning.
From Verif.Spec Require Import LearningSpec.
From Verif.Proofs Require Import LearningP.
Import ListNotations.
Local Open Scope R_scope.

Lemma np_mean_seq n f : np_mean n f = mean (seq 0 n) f.
Proof. unfold np_mean, mean. rewrite seq_length, lsum_seq_rsum. auto. Qed.
Lemma second_moment_spec N y : (0 < N)%nat -> second_moment N y = mean (seq 0 N) (fun i => y i ^ 2).
Proof.
  intros HN. unfold second_moment, np_var. rewrite <- np_mean_seq. unfold np_mean. set (m := rsum N y / INR N).
  assert (H0 : INR N <> 0) by (apply not_0_INR; lia).
  rewrite (rsum_ext_R' N (fun i => (y i - m) ^ 2) (fun i => y i ^ 2 - 2 * m * y i + m ^ 2)) by (intros; ring).
  rewrite rsum_plus_R, rsum_minus_R, rsum_scal_l_R.
  assert (E : rsum N (fun _ => m ^ 2) = INR N * m ^ 2).
  { clear. set (c := m ^ 2). clearbody c. induction N as [|N IH]; [cbn; ring|]. rewrite rsum_S_R, IH, S_INR. ring. }
  rewrite E. replace (rsum N y) with (INR N * m) by (unfold m; field; auto). field. auto.
Qed.

Definition facs (L : lapack) (s : solver) (A : mx) : factors_of :=
  match s with Solve => FInv (try_inv L (matmul (mtr A) A)) | QR => let (q, r) := l_qr L A in FQR q r end.

(** what the factors passed to compute_cv_error must satisfy *)
Definition facs_ok (A : mx) (f : factors_of) : Prop :=
  match f with
  | FQR q r => qr_ok A (q, r)
  | FInv C => mrows C = mcols A /\ mcols C = mcols A /\ gram_inverse A (ment C)
  end.
Lemma determined_all A F : determined A (without A F) -> determined A (all_rows A).
Proof. intros D x H. apply D. intros i Hi. apply H. apply in_without in Hi. unfold all_rows. apply in_seq. lia. Qed.
Lemma gram_nonsingular A : determined A (all_rows A) -> nonsingular (matmul (mtr A) A).
Proof.
  intros D. split; [reflexivity|]. cbn [mrows mcols matmul mtr]. intros x H. apply D. intros i Hi. unfold all_rows in Hi. apply in_seq in Hi.
  assert (Z : rsum (mrows A) (fun l => prediction A x l ^ 2) <= 0).
  { rewrite (rsum_ext_R' _ _ (fun l => rsum (mcols A) (fun j => x j * (ment A l j * prediction A x l)))).
    - rewrite rsum_swap_R, (rsum_zero_R (mcols A)); [lra|]. intros j Hj. rewrite rsum_scal_l_R. specialize (H j Hj). rewrite gram_mv in H. rewrite H. ring.
    - intros l _. replace (prediction A x l ^ 2) with (prediction A x l * prediction A x l) by ring. unfold prediction at 1. rewrite <- rsum_scal_r_R. apply rsum_ext_R'. intros; ring. }
  apply (rsum_zero_sq _ _ Z). lia.
Qed.
Lemma facs_are_ok L s A : lapack_ok L -> determined A (all_rows A) -> facs_ok A (facs L s A).
Proof.
  intros (HQ & _ & _ & HI & _) D. destruct s; cbn [facs].
  - assert (NS := gram_nonsingular A D). specialize (HI (matmul (mtr A) A)). unfold try_inv. destruct (l_inv L _) as [C|]; [|contradiction].
    destruct HI as (_ & E1 & E2 & HI). cbn [facs_ok]. repeat split; auto. 
  - specialize (HQ A). destruct (l_qr L A) as [q r]. exact HQ.
Qed.
Lemma r_nonsingular A q r : qr_ok A (q, r) -> (mcols A <= mrows A)%nat -> determined A (all_rows A) -> nonsingular r.
Proof.
  intros (E1 & E2 & E3 & E4 & EO & EA) Hle D. rewrite Nat.min_r in * by auto. split; [unfold square; lia|]. rewrite E3, E4.
  intros x H. apply D. intros i Hi. unfold all_rows in Hi. apply in_seq in Hi. unfold prediction.
  rewrite (rsum_ext_R' _ _ (fun j => rsum (mcols A) (fun c => ment q i c * (ment r c j * x j)))).
  2:{ intros j Hj. rewrite EA by (auto; lia). rewrite <- rsum_scal_r_R. apply rsum_ext_R'. intros; ring. }
  rewrite rsum_swap_R. apply rsum_zero_R. intros c Hc. rewrite rsum_scal_l_R. unfold mv in H. rewrite H by auto. ring.
Qed.
Lemma hat_is_ok A f : (mcols A <= mrows A)%nat -> determined A (all_rows A) -> facs_ok A f -> hat_ok A (ment (hat A f)).
Proof.
  intros Hle D Hf v. destruct f as [q r|C]; cbn [facs_ok] in Hf.
  - assert (NS := r_nonsingular A q r Hf Hle D). destruct Hf as (E1 & E2 & E3 & E4 & EO & EA). rewrite Nat.min_r in * by auto.
    destruct NS as [_ NS]. rewrite E3, E4 in NS.
    destruct (inj_surj _ _ NS (fun c => rsum (mrows A) (fun l => ment q l c * v l))) as [e He]. exists e.
    assert (EP : forall i, (i < mrows A)%nat -> prediction A e i = mv (mrows A) (ment (hat A (FQR q r))) v i).
    { intros i Hi. unfold prediction. rewrite (rsum_ext_R' _ _ (fun j => rsum (mcols A) (fun c => ment q i c * (ment r c j * e j)))).
      2:{ intros j Hj. rewrite EA by auto. rewrite <- rsum_scal_r_R. apply rsum_ext_R'. intros; ring. }
      rewrite rsum_swap_R. rewrite (rsum_ext_R' _ _ (fun c => rsum (mrows A) (fun l => ment q i c * ment q l c * v l))).
      2:{ intros c Hc. rewrite rsum_scal_l_R. unfold mv in He. rewrite He by auto. rewrite <- rsum_scal_l_R. apply rsum_ext_R'. intros; ring. }
      rewrite rsum_swap_R. unfold mv. apply rsum_ext_R'. intros l _. cbn [hat matmul mtr ment]. rewrite rsum_scal_r_R, E2. auto. }
    split; auto. intros j Hj.
    assert (EQ : forall z, rsum (mrows A) (fun i => ment A i j * z i) = rsum (mcols A) (fun c => ment r c j * rsum (mrows A) (fun i => ment q i c * z i))).
    { intros z. rewrite (rsum_ext_R' (mrows A) _ (fun i => rsum (mcols A) (fun c => ment r c j * (ment q i c * z i)))).
      2:{ intros i Hi. rewrite EA by auto. rewrite <- rsum_scal_r_R. apply rsum_ext_R'. intros; ring. }
      rewrite rsum_swap_R. apply rsum_ext_R'. intros c _. rewrite rsum_scal_l_R. auto. }
    rewrite !EQ. apply rsum_ext_R'. intros c Hc. f_equal.
    rewrite (rsum_ext_R' _ _ (fun i => rsum (mcols A) (fun d => rsum (mrows A) (fun l => ment q l d * v l) * (ment q i c * ment q i d)))).
    2:{ intros i Hi. rewrite EP by auto. unfold mv. cbn [hat matmul mtr ment]. rewrite E2.
        rewrite (rsum_ext_R' (mcols A) _ (fun d => rsum (mrows A) (fun l => ment q i c * (ment q i d * ment q l d) * v l))) by (intros; rewrite <- rsum_scal_r_R; apply rsum_ext_R'; intros; ring).
        rewrite rsum_swap_R, <- rsum_scal_l_R. apply rsum_ext_R'. intros l _. rewrite <- rsum_scal_r_R, <- rsum_scal_l_R. apply rsum_ext_R'. intros; ring. }
    rewrite rsum_swap_R. rewrite (rsum_ext_R' _ _ (fun d => if (d =? c)%nat then rsum (mrows A) (fun l => ment q l d * v l) else 0)).
    + rewrite rsum_delta_R by auto. auto.
    + intros d Hd. rewrite rsum_scal_l_R, EO by auto. unfold delta_ij. rewrite Nat.eqb_sym. destruct (d =? c)%nat; ring.
  - destruct Hf as (E1 & E2 & HG). set (e := fun k => rsum (mcols A) (fun b => ment C k b * rsum (mrows A) (fun l => ment A l b * v l))). exists e. split.
    + intros i Hi. unfold prediction, e, mv. cbn [hat matmul mtr ment mcols].
      rewrite (rsum_ext_R' (mcols A) _ (fun j => rsum (mrows A) (fun l => ment A i j * rsum (mcols C) (fun b => ment C j b * ment A l b) * v l))).
      * rewrite rsum_swap_R. apply rsum_ext_R'. intros l _. rewrite rsum_scal_r_R. auto.
      * intros j Hj. rewrite E2. rewrite (rsum_ext_R' (mcols A) _ (fun b => rsum (mrows A) (fun l => ment C j b * ment A l b * v l))) by (intros; rewrite <- rsum_scal_l_R; apply rsum_ext_R'; intros; ring).
        rewrite rsum_swap_R, <- rsum_scal_l_R. apply rsum_ext_R'. intros l _. rewrite rsum_scal_r_R. ring.
    + intros j Hj. rewrite <- gram_mv. set (w := fun b => rsum (mrows A) (fun l => ment A l b * v l)).
      change (mv (mcols A) (ment (matmul (mtr A) A)) (fun k => mv (mcols A) (ment C) w k) j = w j). rewrite mv_mv. unfold mv.
      rewrite (rsum_ext_R' _ _ (fun k => if (k =? j)%nat then w k else 0)); [apply rsum_delta_R; auto|].
      intros k Hk. unfold gram_inverse in HG. rewrite <- (Rmult_1_l (w k)) at 2. specialize (HG j k Hj Hk). unfold delta_ij in HG. rewrite Nat.eqb_sym in HG.
      cbn [ment matmul mtr mcols]. rewrite HG. destruct (k =? j)%nat; ring.
Qed.
Lemma leverage_hat A f i : leverage A f i = ment (hat A f) i i.
Proof.
  destruct f as [q r|C]; cbn; [apply rsum_ext_R'; intros; ring|auto].
Qed.
Lemma gram_inverse_unique A C C' : gram_inverse A C -> gram_inverse A C' -> forall i j, (i < mcols A)%nat -> (j < mcols A)%nat -> C i j = C' i j.
Proof.
  intros H H' i j Hi Hj. set (B := fun i k => rsum (mrows A) (fun l => ment A l i * ment A l k)).
  assert (BI : inj (mcols A) (mcols A) B).
  { apply surj_inj. intros b. exists (mv (mcols A) C b). intros a Ha. rewrite mv_mv. unfold mv.
    rewrite (rsum_ext_R' _ _ (fun k => if (k =? a)%nat then b k else 0)); [apply rsum_delta_R; auto|].
    intros k Hk. unfold B. rewrite (H a k Ha Hk). unfold delta_ij. rewrite Nat.eqb_sym. destruct (k =? a)%nat; ring. }
  assert (Z : (fun k => C k j - C' k j) i = 0).
  { apply (BI (fun k => C k j - C' k j)); auto. intros a Ha. unfold mv. rewrite (rsum_ext_R' _ _ (fun k => B a k * C k j - B a k * C' k j)) by (intros; ring).
    rewrite rsum_minus_R. unfold B. rewrite (H a j), (H' a j) by auto. ring. }
  cbn in Z. lra.
Qed.
Lemma gram_inverse_diag A C i : gram_inverse A C -> (i < mcols A)%nat -> 0 <= C i i.
Proof.
  intros H Hi. set (x := fun k => C k i).
  assert (E : C i i = rsum (mrows A) (fun l => prediction A x l ^ 2)).
  { rewrite (rsum_ext_R' _ _ (fun l => rsum (mcols A) (fun j => x j * (ment A l j * prediction A x l)))).
    - rewrite rsum_swap_R. rewrite (rsum_ext_R' _ _ (fun j => if (j =? i)%nat then x j else 0)); [rewrite rsum_delta_R; auto|].
      intros j Hj. rewrite rsum_scal_l_R, <- gram_mv. unfold mv. cbn [ment matmul mtr mcols]. assert (HJ := H j i Hj Hi). unfold x at 2. rewrite HJ. unfold delta_ij. destruct (j =? i)%nat; ring.
    - intros l _. replace (prediction A x l ^ 2) with (prediction A x l * prediction A x l) by ring. unfold prediction at 1. rewrite <- rsum_scal_r_R. apply rsum_ext_R'. intros; ring. }
  rewrite E. apply rsum_nonneg. intros. apply pow2_ge_0.
Qed.
(** the matrix C used in the correction *)
Definition corr_matrix (L : lapack) (f : factors_of) : mx := match f with FQR _ r => let ir := try_inv L r in matmul ir (mtr ir) | FInv C => C end.
Lemma corr_matrix_ok L A f : lapack_ok L -> (mcols A <= mrows A)%nat -> determined A (all_rows A) -> facs_ok A f ->
  mrows (corr_matrix L f) = mcols A /\ mcols (corr_matrix L f) = mcols A /\ gram_inverse A (ment (corr_matrix L f)).
Proof.
  intros HL Hle D Hf. destruct f as [q r|C]; [|exact Hf]. cbn [facs_ok corr_matrix] in *.
  assert (NS := r_nonsingular A q r Hf Hle D). destruct Hf as (E1 & E2 & E3 & E4 & EO & EA). rewrite Nat.min_r in * by auto.
  destruct HL as (_ & _ & _ & HI & _). specialize (HI r). unfold try_inv. destruct (l_inv L r) as [V|]; [|contradiction].
  destruct HI as (_ & V1 & V2 & HV). rewrite E3, E4 in *. cbn [matmul mtr mrows mcols ment]. rewrite V1, V2. repeat split; auto.
  intros i j Hi Hj.
  assert (G : forall k, (k < mcols A)%nat -> rsum (mrows A) (fun l => ment A l i * ment A l k) = rsum (mcols A) (fun c => ment r c i * ment r c k)).
  { intros k Hk. rewrite (rsum_ext_R' _ _ (fun l => rsum (mcols A) (fun c => rsum (mcols A) (fun d => (ment r c i * ment r d k) * (ment q l c * ment q l d))))).
    2:{ intros l Hl. rewrite !EA by auto. rewrite rmul_rsum_R. apply rsum_ext_R'. intros c _. apply rsum_ext_R'. intros; ring. }
    rewrite rsum_swap_R. apply rsum_ext_R'. intros c Hc. rewrite rsum_swap_R.
    rewrite (rsum_ext_R' _ _ (fun d => if (d =? c)%nat then ment r c i * ment r d k else 0)); [rewrite rsum_delta_R; auto|].
    intros d Hd. rewrite rsum_scal_l_R, EO by auto. unfold delta_ij. rewrite Nat.eqb_sym. destruct (d =? c)%nat; ring. }
  (* r^T r V V^T = r^T V^T = (V r)^T = I, using V r = I *)
  assert (RI : inj (mcols A) (mcols A) (ment r)) by (destruct NS as [_ NS]; rewrite E3, E4 in NS; auto).
  assert (VR : forall a b, (a < mcols A)%nat -> (b < mcols A)%nat -> rsum (mcols A) (fun k => ment V a k * ment r k b) = delta_ij a b).
  { intros a b Ha Hb. assert (Z : (fun a => rsum (mcols A) (fun k => ment V a k * ment r k b) - delta_ij a b) a = 0).
    { apply (RI (fun a => rsum (mcols A) (fun k => ment V a k * ment r k b) - delta_ij a b)); auto. intros c Hc. rewrite mv_minus.
      replace (mv (mcols A) (ment r) (fun a0 => rsum (mcols A) (fun k => ment V a0 k * ment r k b)) c) with (ment r c b).
      - unfold mv. rewrite (rsum_ext_R' _ _ (fun k => if (k =? b)%nat then ment r c k else 0)); [rewrite rsum_delta_R by auto; ring|].
        intros k _. unfold delta_ij. destruct (k =? b)%nat; ring.
      - symmetry. change (mv (mcols A) (ment r) (fun a0 => mv (mcols A) (ment V) (fun k => ment r k b) a0) c = ment r c b). rewrite mv_mv. unfold mv.
        rewrite (rsum_ext_R' _ _ (fun k => if (k =? c)%nat then ment r k b else 0)); [exact (rsum_delta_R _ c (fun k => ment r k b) Hc)|].
        intros k Hk. rewrite HV by auto. unfold delta_ij. rewrite Nat.eqb_sym. destruct (k =? c)%nat; ring. }
    cbn in Z. lra. }
  rewrite (rsum_ext_R' _ _ (fun k => rsum (mcols A) (fun c => rsum (mcols A) (fun d => ment r c i * ment V j d * (ment r c k * ment V k d))))).
  2:{ intros k Hk. rewrite G by auto. rewrite rmul_rsum_R. apply rsum_ext_R'. intros c _. apply rsum_ext_R'. intros; ring. }
  rewrite rsum_swap_R. rewrite (rsum_ext_R' _ _ (fun c => ment V j c * ment r c i)).
  - rewrite VR by auto. unfold delta_ij. rewrite Nat.eqb_sym. auto.
  - intros c Hc. rewrite rsum_swap_R. rewrite (rsum_ext_R' _ _ (fun d => if (d =? c)%nat then ment V j d * ment r c i else 0)); [rewrite rsum_delta_R; auto|].
    intros d Hd. rewrite rsum_scal_l_R, HV by auto. unfold delta_ij. rewrite Nat.eqb_sym. destruct (d =? c)%nat; ring.
Qed.

Lemma correction_pos A C : gram_inverse A C -> (mcols A < mrows A)%nat -> 0 < correction A C None.
Proof.
  intros H HL. unfold correction. apply Rmult_lt_0_compat.
  - apply Rdiv_lt_0_compat; [apply lt_0_INR; lia|]. apply lt_INR in HL. lra.
  - assert (0 <= rsum (mcols A) (fun i => C i i)) by (apply rsum_nonneg; intros; eapply gram_inverse_diag; eauto). lra.
Qed.
Lemma cv_finish_plain L o A y f err : (0 < mrows A)%nat -> cv_correction o = false -> cv_finish L o A y f err = sqrt (err / mean (all_rows A) (fun i => y i ^ 2)).
Proof. intros HN H. unfold cv_finish. rewrite second_moment_spec by auto. rewrite H. f_equal. destruct f; auto. destruct (Rlt_dec _ _); auto. Qed.
Lemma cv_finish_corrected L o A y f err C : lapack_ok L -> (mcols A < mrows A)%nat -> determined A (all_rows A) -> facs_ok A f ->
  cv_correction o = true -> (forall q r, f = FQR q r -> feps <= 1 / l_cond L r) -> gram_inverse A C -> 0 < correction A C (cv_gram o) ->
  cv_finish L o A y f err = sqrt (err / mean (all_rows A) (fun i => y i ^ 2) * correction A C (cv_gram o)).
Proof.
  intros HL Hlt D Hf Ho Hc HC Hpos. unfold cv_finish. rewrite second_moment_spec by lia. fold (all_rows A). rewrite Ho. f_equal.
  destruct (corr_matrix_ok L A f HL (Nat.lt_le_incl _ _ Hlt) D Hf) as (M1 & M2 & MG).
  set (e0 := err / _). set (CC := corr_matrix L f) in *.
  assert (K : (if (mrows A =? mcols A)%nat then e0 else
               let corr := INR (mrows A) / (INR (mrows A) - INR (mcols A)) * (1 + mtrace (match cv_gram o with Some G => matmul CC G | None => CC end)) in
               if Rlt_dec 0 corr then e0 * corr else e0) = e0 * correction A C (cv_gram o)).
  { destruct (Nat.eqb_spec (mrows A) (mcols A)); [lia|]. cbv zeta.
    assert (EC : INR (mrows A) / (INR (mrows A) - INR (mcols A)) * (1 + mtrace (match cv_gram o with Some G => matmul CC G | None => CC end)) = correction A C (cv_gram o)).
    { unfold correction. do 2 f_equal. destruct (cv_gram o) as [G|]; unfold mtrace; cbn [matmul mrows ment]; rewrite M1.
      - apply rsum_ext_R'. intros i Hi. rewrite M2. apply rsum_ext_R'. intros k Hk. f_equal. eapply gram_inverse_unique; eauto.
      - apply rsum_ext_R'. intros i Hi. eapply gram_inverse_unique; eauto. }
    rewrite EC. destruct (Rlt_dec 0 _); [auto|contradiction]. }
  destruct f as [q r|C0]; [|exact K]. destruct (Rlt_dec (1 / l_cond L r) feps) as [Y|_]; [specialize (Hc q r eq_refl); lra|]. exact K.
Qed.

Lemma NoDup_app_inv {T} (l1 l2 : list T) : NoDup (l1 ++ l2) -> NoDup l1 /\ NoDup l2 /\ forall x, In x l1 -> ~ In x l2.
Proof.
  induction l1 as [|a l1 IH]; cbn [app]; intros H; [repeat split; auto; constructor|]. inversion H as [|? ? Ha Hn]; subst. destruct (IH Hn) as (H1 & H2 & H3).
  rewrite in_app_iff in Ha. repeat split; auto; [constructor; tauto|]. intros x [<-|Hx]; [tauto|auto].
Qed.

Section Main.
Variables (L : lapack) (A : mx) (y sol : vec) (f : factors_of).
Hypothesis HL : lapack_ok L.
Hypothesis HS : least_squares A y (all_rows A) sol.
Hypothesis Hf : facs_ok A f.

Lemma loo_delta i fit : (mcols A <= mrows A)%nat -> (i < mrows A)%nat -> determined A (without A [i]) -> least_squares A y (without A [i]) fit ->
  (y i - matvec A sol i) / (1 - leverage A f i) = y i - prediction A fit i.
Proof.
  intros Hle Hi D Hfit. rewrite leverage_hat. set (H := ment (hat A f)).
  assert (HH : hat_ok A H) by (apply hat_is_ok; auto; eapply determined_all; eauto).
  assert (HF : forall k, In k [i] -> (k < mrows A)%nat) by (intros k [<-|[]]; auto).
  assert (ND : NoDup [i]) by (constructor; [intros []|constructor]).
  assert (NI : 1 - H i i <> 0).
  { intros Z. assert (I := small_inj A H [i] HH ND HF D (fun _ => 1)). cbn [length] in I.
    assert (1 = 0); [|lra]. apply (I) with (j := 0%nat); [|lia]. intros a Ha. replace a with 0%nat by lia.
    unfold mv, small. rewrite rsum_S_R. cbn. rewrite Z. rcbn. ring. }
  assert (E := leave_out_unique A y H sol [i] HH ND HF HS (fun _ => (y i - matvec A sol i) / (1 - H i i)) D).
  refine (E _ fit Hfit 0%nat Nat.lt_0_1). intros a Ha. cbn [length] in Ha. replace a with 0%nat by lia.
  unfold mv, small. cbn [length nth]. rewrite rsum_S_R. cbn [rsum]. rcbn. cbn [Nat.eqb nth]. unfold prediction, matvec. field. auto.
Qed.

(** scatter *)
Lemma scatter_out test loc d i : ~ In i test -> scatter test loc d i = d i.
Proof.
  intros H. unfold scatter. assert (G : forall l d, (forall a, In a l -> (a < length test)%nat) -> fold_left (fun d a => fun i => if (i =? nth a test 0%nat)%nat then loc a else d i) l d i = d i).
  { induction l as [|a l IH]; intros d' Hl; [auto|]. cbn [fold_left]. rewrite IH by (intros; apply Hl; right; auto).
    destruct (Nat.eqb_spec i (nth a test 0%nat)) as [E|]; auto. exfalso. apply H. rewrite E. apply nth_In, Hl. left; auto. }
  apply G. intros a Ha. apply in_seq in Ha. lia.
Qed.
Lemma scatter_at test loc d a : NoDup test -> (a < length test)%nat -> scatter test loc d (nth a test 0%nat) = loc a.
Proof.
  intros ND Ha. unfold scatter.
  assert (G : forall m d, (m <= length test)%nat -> (a < m)%nat -> fold_left (fun d a => fun i => if (i =? nth a test 0%nat)%nat then loc a else d i) (seq 0 m) d (nth a test 0%nat) = loc a).
  { induction m as [|m IH]; intros d' Hm Ham; [lia|]. rewrite seq_S, fold_left_app. cbn [fold_left Nat.add].
    destruct (Nat.eqb_spec (nth a test 0%nat) (nth m test 0%nat)) as [E|E].
    - f_equal. symmetry. apply (proj1 (NoDup_nth test 0%nat) ND); auto; lia.
    - apply IH; [lia|]. destruct (Nat.eq_dec a m) as [->|]; [congruence|lia]. }
  apply G; auto.
Qed.

Lemma kfold_loop_spec folds fit : (mcols A <= mrows A)%nat ->
  (forall F, In F folds -> determined A (without A F) /\ least_squares A y (without A F) (fit F) /\ NoDup F /\ forall i, In i F -> (i < mrows A)%nat) ->
  NoDup (concat folds) ->
  forall errs d, exists delta, kfold_loop L A (hat A f) y sol folds errs d
     = Some (errs ++ map (fun F => mean F (fun i => (y i - prediction A (fit F) i) ^ 2)) folds, delta)
     /\ (forall F i, In F folds -> In i F -> delta i = y i - prediction A (fit F) i) /\ (forall i, ~ In i (concat folds) -> delta i = d i).
Proof.
  intros Hle. induction folds as [|F folds IH]; intros HF ND errs d; cbn [kfold_loop map].
  - exists d. rewrite app_nil_r. repeat split; auto. intros F i [].
  - destruct (HF F) as (D & Hfit & NDF & HFi); [left; auto|].
    assert (HH : hat_ok A (ment (hat A f))) by (apply hat_is_ok; auto; eapply determined_all; eauto).
    assert (SI := small_inj A _ F HH NDF HFi D).
    assert (SOK := proj1 (proj2 HL) (MX (length F) (length F) (small (ment (hat A f)) F)) (fun a => y (nth a F 0%nat) - matvec A sol (nth a F 0%nat))).
    unfold fold_delta. change (fun a b : nat => (if (a =? b)%nat then 1 else 0) - ment (hat A f) (nth a F 0%nat) (nth b F 0%nat)) with (small (ment (hat A f)) F).
    destruct (l_solve L _ _) as [loc|]; [|exfalso; apply SOK; split; [reflexivity|exact SI]].
    destruct SOK as [_ SOK]. cbn [mrows mcols ment] in SOK.
    assert (EL : forall a, (a < length F)%nat -> loc a = y (nth a F 0%nat) - prediction A (fit F) (nth a F 0%nat)).
    { apply (leave_out_unique A y _ sol F HH NDF HFi HS loc D SOK); auto. }
    cbn [concat] in ND. apply NoDup_app_inv in ND as (_ & ND2 & DJ).
    destruct (IH (fun F' HF' => HF F' (or_intror HF')) ND2 (errs ++ [np_mean (length F) (fun a => loc a ^ 2)]) (scatter F loc d)) as (delta & E & ED & EO).
    exists delta. split; [|split].
    + rewrite E. f_equal. f_equal. rewrite <- app_assoc. cbn [app]. do 2 f_equal. unfold np_mean, mean. f_equal.
      transitivity (lsum (map (fun a => nth a F 0%nat) (seq 0 (length F))) (fun i => (y i - prediction A (fit F) i) ^ 2)).
      * assert (LM : forall (l : list nat) (h : nat -> nat) (k : nat -> R), lsum (map h l) k = lsum l (fun a => k (h a))).
        { induction l as [|x l IHl]; intros h k; [reflexivity|]. cbn [map]. rewrite !lsum_cons_R, IHl. auto. }
        rewrite LM, lsum_seq_rsum. apply rsum_ext_R'. intros a Ha. rewrite EL by auto. auto.
      * f_equal. clear. induction F as [|x F IH]; [reflexivity|]. cbn [length seq map nth]. f_equal. rewrite <- seq_shift, map_map. apply IH.
    + intros F' i [<-|HF'] Hi; [|apply ED; auto]. rewrite EO by (apply DJ; auto). apply (In_nth F i 0%nat) in Hi as [a [Ha <-]]. rewrite scatter_at by auto. auto.
    + intros i Hi. cbn [concat] in Hi. rewrite in_app_iff in Hi. rewrite EO by tauto. apply scatter_out. tauto.
Qed.
End Main.
