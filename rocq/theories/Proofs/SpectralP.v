(** Spectral theorem for real symmetric matrices and existence of singular value decompositions.  (Used to show that
    the assumptions [svd_contract] and [eig_contract] made about numpy.linalg can be met.) *)
From Coq Require Import List Arith Lia Reals Lra Bool Classical_Prop Classical_Pred_Type IndefiniteDescription.
From Verif.Base Require Import ListAux CRing Index RealAux LinAlg.
From Verif.Model Require Import Numpy FullTensor Learning.
From Verif.Spec Require Import LearningSpec PolySpec.
From Verif.Proofs Require Import LearningP PolyP5 LapackP.
Import ListNotations.
Local Open Scope R_scope.

Definition dotp (n : nat) (x y : nat -> R) : R := rsum n (fun i => x i * y i).
(** x^T B y *)
Definition bform (n : nat) (B : nat -> nat -> R) (x y : nat -> R) : R := rsum n (fun i => x i * mv n B y i).
Definition symm (n : nat) (B : nat -> nat -> R) : Prop := forall i j, (i < n)%nat -> (j < n)%nat -> B i j = B j i.

Lemma dotp_nonneg n x : 0 <= dotp n x x.
Proof. apply rsum_nonneg. intros. nra. Qed.
Lemma dotp_sym n x y : dotp n x y = dotp n y x.
Proof. apply rsum_ext_R'. intros; ring. Qed.
Lemma dotp_ext n x y x' y' : (forall i, (i < n)%nat -> x i = x' i /\ y i = y' i) -> dotp n x y = dotp n x' y'.
Proof. intros H. apply rsum_ext_R'. intros i Hi. destruct (H i Hi) as [-> ->]. auto. Qed.
Lemma dotp_scal_l n c x y : dotp n (fun i => c * x i) y = c * dotp n x y.
Proof. unfold dotp. rewrite <- rsum_scal_l_R. apply rsum_ext_R'. intros; ring. Qed.
Lemma dotp_scal2 n c x : dotp n (fun i => c * x i) (fun i => c * x i) = c * c * dotp n x x.
Proof. unfold dotp. rewrite <- rsum_scal_l_R. apply rsum_ext_R'. intros; ring. Qed.
Lemma dotp_zero n x : dotp n x x = 0 -> forall i, (i < n)%nat -> x i = 0.
Proof. intros H. apply (rsum_zero_sq n x). rewrite <- H. apply Req_le. apply rsum_ext_R'. intros; ring. Qed.
Lemma bform_ext n B x y x' y' : (forall i, (i < n)%nat -> x i = x' i /\ y i = y' i) -> bform n B x y = bform n B x' y'.
Proof. intros H. apply rsum_ext_R'. intros i Hi. rewrite (proj1 (H i Hi)). f_equal. apply mv_ext. intros j Hj. split; auto. apply H; auto. Qed.
Lemma bform_sym n B x y : symm n B -> bform n B x y = bform n B y x.
Proof.
  intros HB. unfold bform, mv. rewrite (rsum_ext_R' n _ (fun i => rsum n (fun j => x i * (B i j * y j)))) by (intros; rewrite rsum_scal_l_R; auto).
  rewrite rsum_swap_R. apply rsum_ext_R'. intros j Hj. rewrite <- rsum_scal_l_R. apply rsum_ext_R'. intros i Hi. rewrite (HB i j) by auto. ring.
Qed.
Lemma bform_plus_r n B x y z : bform n B x (fun i => y i + z i) = bform n B x y + bform n B x z.
Proof. unfold bform. rewrite <- rsum_plus_R. apply rsum_ext_R'. intros. rewrite mv_plus. ring. Qed.
Lemma bform_plus_l n B x y z : bform n B (fun i => y i + z i) x = bform n B y x + bform n B z x.
Proof. unfold bform. rewrite <- rsum_plus_R. apply rsum_ext_R'. intros. ring. Qed.
Lemma bform_scal_r n B c x y : bform n B x (fun i => c * y i) = c * bform n B x y.
Proof. unfold bform. rewrite <- rsum_scal_l_R. apply rsum_ext_R'. intros. rewrite mv_scal. ring. Qed.
Lemma bform_scal_l n B c x y : bform n B (fun i => c * x i) y = c * bform n B x y.
Proof. unfold bform. rewrite <- rsum_scal_l_R. apply rsum_ext_R'. intros. ring. Qed.

Lemma cauchy_psd n B x y : symm n B -> (forall z, 0 <= bform n B z z) -> bform n B x y ^ 2 <= bform n B x x * bform n B y y.
Proof.
  intros HB HP. set (p := bform n B x x). set (q := bform n B y y). set (b := bform n B x y).
  assert (Q : forall t, 0 <= p + 2 * t * b + t ^ 2 * q).
  { intros t. specialize (HP (fun i => x i + t * y i)).
    rewrite bform_plus_l, (bform_sym n B x (fun i => x i + t * y i)), (bform_sym n B (fun i => t * y i)) in HP by auto.
    rewrite !bform_plus_l, !bform_scal_l, !bform_scal_r, (bform_sym n B y x) in HP by auto. fold p q b in HP. lra. }
  assert (Hp : 0 <= p) by apply HP. assert (Hq : 0 <= q) by apply HP.
  destruct (Req_dec q 0) as [Z|Z].
  - rewrite Z, Rmult_0_r. destruct (Req_dec b 0) as [->|Nb]; [lra|]. exfalso.
    specialize (Q (- (p + 1) / (2 * b))). rewrite Z in Q. replace (p + 2 * (- (p + 1) / (2 * b)) * b + (- (p + 1) / (2 * b)) ^ 2 * 0) with (-1) in Q by (field; auto). lra.
  - specialize (Q (- b / q)). replace (p + 2 * (- b / q) * b + (- b / q) ^ 2 * q) with ((p * q - b ^ 2) / q) in Q by (field; auto).
    assert (0 < / q) by (apply Rinv_0_lt_compat; lra). assert (0 <= p * q - b ^ 2); [|lra].
    replace (p * q - b ^ 2) with ((p * q - b ^ 2) / q * q) by (field; auto). apply Rmult_le_pos; auto.
Qed.
Lemma rsum_abs n (f : nat -> R) : Rabs (rsum n f) <= rsum n (fun i => Rabs (f i)).
Proof. induction n as [|n IH]; [cbn; rewrite Rabs_R0; lra|]. rewrite !rsum_S_R. pose proof (Rabs_triang (rsum n f) (f n)). lra. Qed.
Definition absum (n : nat) (B : nat -> nat -> R) : R := rsum n (fun i => rsum n (fun j => Rabs (B i j))).
Lemma bform_bound n B x : Rabs (bform n B x x) <= absum n B * dotp n x x.
Proof.
  unfold bform, absum. eapply Rle_trans; [apply rsum_abs|]. rewrite <- rsum_scal_r_R. apply rsum_le. intros i Hi. rewrite Rabs_mult. unfold mv.
  apply Rle_trans with (Rabs (x i) * rsum n (fun j => Rabs (B i j * x j))).
  { apply Rmult_le_compat_l; [apply Rabs_pos|apply rsum_abs]. }
  rewrite <- rsum_scal_l_R, <- rsum_scal_r_R. apply rsum_le. intros j Hj. rewrite Rabs_mult.
  assert (H : forall k, (k < n)%nat -> Rabs (x k) * Rabs (x k) <= dotp n x x).
  { intros k Hk. rewrite <- Rabs_mult, Rabs_right by nra. exact (rsum_term_le n (fun i => x i * x i) k (fun i _ => Rle_0_sqr (x i)) Hk). }
  pose proof (H i Hi) as H1. pose proof (H j Hj) as H2.
  replace (Rabs (x i) * (Rabs (B i j) * Rabs (x j))) with (Rabs (B i j) * (Rabs (x i) * Rabs (x j))) by ring.
  apply Rmult_le_compat_l; [apply Rabs_pos|]. pose proof (Rle_0_sqr (Rabs (x i) - Rabs (x j))) as Q. unfold Rsqr in Q. lra.
Qed.
Lemma absum_nonneg n B : 0 <= absum n B.
Proof. apply rsum_nonneg. intros. apply rsum_nonneg. intros. apply Rabs_pos. Qed.

(** an invertible positive semi-definite matrix is coercive *)
Lemma psd_coercive n B : symm n B -> (forall z, 0 <= bform n B z z) -> inj n n B -> exists c, 0 < c /\ forall x, c * dotp n x x <= bform n B x x.
Proof.
  intros HB HP HI.
  destruct (functional_choice (fun l x => forall i, (i < n)%nat -> mv n B x i = delta_ij i l) (fun l => inj_surj _ _ HI (fun i => delta_ij i l))) as [X HX].
  set (C := fun k j => X j k). set (K := absum n C + 1). assert (HK : 0 < K) by (pose proof (absum_nonneg n C); unfold K; lra).
  exists (/ K). split; [apply Rinv_0_lt_compat; auto|]. intros x.
  assert (HC : forall i, (i < n)%nat -> mv n B (mv n C x) i = x i).
  { intros i Hi. rewrite mv_mv. unfold mv. rewrite (rsum_ext_R' n _ (fun k => if (k =? i)%nat then x k else 0)); [apply rsum_delta_R; auto|].
    intros k Hk. pose proof (HX k i Hi) as Q. unfold mv in Q. unfold C. rewrite Q. unfold delta_ij. rewrite Nat.eqb_sym. destruct (k =? i)%nat; ring. }
  pose proof (cauchy_psd n B x (mv n C x) HB HP) as Q.
  assert (E1 : bform n B x (mv n C x) = dotp n x x) by (apply rsum_ext_R'; intros i Hi; rewrite HC; auto).
  assert (E2 : bform n B (mv n C x) (mv n C x) = bform n C x x).
  { unfold bform. apply rsum_ext_R'. intros i Hi. rewrite HC by auto. ring. }
  rewrite E1, E2 in Q. pose proof (bform_bound n C x) as Q2. pose proof (Rle_abs (bform n C x x)) as Q3. pose proof (dotp_nonneg n x) as D0. pose proof (HP x) as P0.
  destruct (Req_dec (dotp n x x) 0) as [Z|Z]; [rewrite Z; lra|].
  assert (Q4 : dotp n x x ^ 2 <= bform n B x x * (K * dotp n x x)).
  { eapply Rle_trans; [exact Q|]. apply Rmult_le_compat_l; auto. unfold K. lra. }
  assert (Q5 : dotp n x x <= bform n B x x * K). { apply Rmult_le_reg_r with (dotp n x x); lra. }
  apply Rmult_le_reg_l with K; auto. rewrite <- Rmult_assoc, Rinv_r by lra. lra.
Qed.

(** a symmetric matrix has a largest eigenvalue *)
Lemma unit_scale n x : dotp n x x <> 0 -> exists c, 0 < c /\ dotp n (fun i => c * x i) (fun i => c * x i) = 1 /\ c * c * dotp n x x = 1.
Proof.
  intros H. pose proof (dotp_nonneg n x) as Q. assert (P : 0 < dotp n x x) by lra. assert (SP : 0 < sqrt (dotp n x x)) by (apply sqrt_lt_R0; auto). assert (SS : sqrt (dotp n x x) * sqrt (dotp n x x) = dotp n x x) by (apply sqrt_sqrt; lra).
  assert (E : / sqrt (dotp n x x) * / sqrt (dotp n x x) * dotp n x x = 1) by (rewrite <- SS at 3; field; lra).
  exists (/ sqrt (dotp n x x)). split; [apply Rinv_0_lt_compat; auto|]. split; auto. rewrite dotp_scal2. exact E.
Qed.
Definition shift (n : nat) (lam : R) (M : nat -> nat -> R) : nat -> nat -> R := fun i j => lam * delta_ij i j - M i j.
Lemma shift_mv n lam M x i : (i < n)%nat -> mv n (shift n lam M) x i = lam * x i - mv n M x i.
Proof.
  intros Hi. unfold mv, shift. rewrite (rsum_ext_R' n _ (fun j => (if (j =? i)%nat then lam * x j else 0) - M i j * x j)).
  - rewrite rsum_minus_R, rsum_delta_R by auto. auto.
  - intros j Hj. unfold delta_ij. rewrite Nat.eqb_sym. destruct (j =? i)%nat; ring.
Qed.
Lemma shift_bform n lam M x : bform n (shift n lam M) x x = lam * dotp n x x - bform n M x x.
Proof. unfold bform, dotp. rewrite <- rsum_scal_l_R, <- rsum_minus_R. apply rsum_ext_R'. intros i Hi. rewrite shift_mv by auto. ring. Qed.
Lemma top_eigenvalue n M : symm n M -> (0 < n)%nat -> exists lam v, dotp n v v = 1 /\ (forall i, (i < n)%nat -> mv n M v i = lam * v i) /\ forall x, bform n M x x <= lam * dotp n x x.
Proof.
  intros HM Hn. set (E := fun r => exists x, dotp n x x = 1 /\ r = bform n M x x).
  destruct (completeness E) as [lam [UB LUB]].
  - exists (absum n M). intros r (x & Hx & ->). pose proof (bform_bound n M x) as Q. pose proof (Rle_abs (bform n M x x)). rewrite Hx in Q. lra.
  - exists (bform n M (fun i => delta_ij i 0) (fun i => delta_ij i 0)). exists (fun i => delta_ij i 0). split; auto.
    unfold dotp. rewrite (rsum_ext_R' n _ (fun i => if (i =? 0)%nat then 1 else 0)); [apply (rsum_delta_R n 0 (fun _ => 1)); auto|]. intros i _. unfold delta_ij. destruct (i =? 0)%nat; ring.
  - assert (HR : forall x, bform n M x x <= lam * dotp n x x).
    { intros x. destruct (Req_dec (dotp n x x) 0) as [Z|Z].
      - rewrite Z, Rmult_0_r. rewrite (bform_ext n M x x (fun _ => 0) (fun _ => 0)) by (intros i Hi; split; apply (dotp_zero n x Z i Hi)). apply Req_le. apply rsum_zero_R. intros; ring.
      - destruct (unit_scale n x Z) as (c & Hc & H1 & Hcc). assert (Q : bform n M (fun i => c * x i) (fun i => c * x i) <= lam) by (apply UB; exists (fun i => c * x i); auto).
        rewrite (bform_scal_l n M c x (fun i => c * x i)), (bform_scal_r n M c x x) in Q. apply Rmult_le_reg_l with (c * c); [apply Rmult_lt_0_compat; auto|]. rewrite <- !Rmult_assoc in *. 
        replace (c * c * lam * dotp n x x) with (lam * (c * c * dotp n x x)) by ring. rewrite Hcc. lra. }
    assert (HS : symm n (shift n lam M)). { intros i j Hi Hj. unfold shift, delta_ij. rewrite (HM i j) by auto. rewrite Nat.eqb_sym. auto. }
    assert (HP : forall z, 0 <= bform n (shift n lam M) z z) by (intros z; rewrite shift_bform; specialize (HR z); lra).
    destruct (classic (inj n n (shift n lam M))) as [HI|HI].
    + exfalso. destruct (psd_coercive n _ HS HP HI) as (c & Hc & Q). assert (lam <= lam - c); [|lra]. apply LUB. intros r (x & Hx & ->). specialize (Q x). rewrite shift_bform, Hx in Q. lra.
    + unfold inj in HI. apply not_all_ex_not in HI. destruct HI as [x Hx]. apply imply_to_and in Hx. destruct Hx as [Hx Hnz].
      assert (Z : dotp n x x <> 0). { intros Z. apply Hnz. intros j Hj. apply (dotp_zero n x Z j Hj). }
      destruct (unit_scale n x Z) as (c & Hc & H1 & Hcc). exists lam, (fun i => c * x i). split; auto. split; auto.
      intros i Hi. rewrite mv_scal. specialize (Hx i Hi). rewrite shift_mv in Hx by auto. replace (mv n M x i) with (lam * x i) by lra. ring.
Qed.

(** the part of the spectral theorem with k eigenvectors *)
Definition eigensystem (n k : nat) (M : nat -> nat -> R) (lam : nat -> R) (v : nat -> nat -> R) : Prop :=
  orthonormal n k v /\ (forall c i, (c < k)%nat -> (i < n)%nat -> mv n M (fun j => v j c) i = lam c * v i c) /\
  (forall c d, (c <= d)%nat -> (d < k)%nat -> lam d <= lam c) /\
  (forall c x, (c < k)%nat -> (forall d, (d < c)%nat -> dotp n (fun i => v i d) x = 0) -> bform n M x x <= lam c * dotp n x x).
Section Deflate.
  Variables (n k : nat) (M : nat -> nat -> R) (lam : nat -> R) (v : nat -> nat -> R) (m : R).
  Definition deflated : nat -> nat -> R := fun i j => M i j - rsum k (fun c => (lam c - m) * (v i c * v j c)).
  Lemma deflated_mv x i : mv n deflated x i = mv n M x i - rsum k (fun c => (lam c - m) * v i c * dotp n (fun j => v j c) x).
  Proof.
    unfold mv, deflated, dotp. rewrite (rsum_ext_R' n _ (fun j => M i j * x j - rsum k (fun c => (lam c - m) * v i c * (v j c * x j)))).
    - rewrite rsum_minus_R, rsum_swap_R. f_equal. apply rsum_ext_R'. intros c _. rewrite rsum_scal_l_R. auto.
    - intros j _. rewrite Rmult_minus_distr_r. f_equal. rewrite <- rsum_scal_r_R. apply rsum_ext_R'. intros; ring.
  Qed.
  Lemma deflated_orth x i : (forall c, (c < k)%nat -> dotp n (fun j => v j c) x = 0) -> mv n deflated x i = mv n M x i.
  Proof. intros H. rewrite deflated_mv. rewrite (rsum_zero_R k); [ring|]. intros c Hc. rewrite H by auto. ring. Qed.
  Lemma deflated_symm : symm n M -> symm n deflated.
  Proof. intros HM i j Hi Hj. unfold deflated. rewrite (HM i j) by auto. f_equal. apply rsum_ext_R'. intros; ring. Qed.
End Deflate.
Theorem spectral n M : symm n M -> forall k, (k <= n)%nat -> exists lam v, eigensystem n k M lam v.
Proof.
  intros HM k. induction k as [|k IH]; intros Hk.
  - exists (fun _ => 0), (fun _ _ => 0). split; [intros a b; lia|]. split; [intros; lia|]. split; intros; lia.
  - destruct IH as (lam & v & HO & HE & HD & HR); [lia|].
    set (m := - absum n M - 1). set (D := deflated k M lam v m).
    destruct (top_eigenvalue n D) as (la & w & Hw & Ew & Rw); [apply deflated_symm; auto|lia|].
    assert (Horth : forall x, (forall c, (c < k)%nat -> dotp n (fun j => v j c) x = 0) -> bform n D x x = bform n M x x).
    { intros x Hx. apply rsum_ext_R'. intros i Hi. unfold D. rewrite deflated_orth; auto. }
    assert (Hla : m < la).
    { destruct (unit_vector n k v HO ltac:(lia)) as (u & U1 & U2). assert (U1' : dotp n u u = 1) by (rewrite <- U1; apply rsum_ext_R'; intros; ring).
      pose proof (Rw u) as Q. rewrite Horth in Q by (intros c Hc; exact (U2 c Hc)). pose proof (bform_bound n M u) as B. rewrite U1' in *. pose proof (Rle_abs (- bform n M u u)) as B2. rewrite Rabs_Ropp in B2. unfold m. lra. }
    assert (Hperp : forall c, (c < k)%nat -> dotp n (fun j => v j c) w = 0).
    { intros c Hc. assert (Dv : forall i, (i < n)%nat -> mv n D (fun j => v j c) i = m * v i c).
      { intros i Hi. unfold D. rewrite deflated_mv, HE by auto. rewrite (rsum_ext_R' k _ (fun d => if (d =? c)%nat then (lam d - m) * v i d else 0)).
        - rewrite rsum_delta_R by auto. ring.
        - intros d Hd. unfold dotp. rewrite HO by auto. unfold delta_ij. destruct (d =? c)%nat; ring. }
      assert (E1 : bform n D w (fun j => v j c) = m * dotp n (fun j => v j c) w).
      { unfold bform, dotp. rewrite <- rsum_scal_l_R. apply rsum_ext_R'. intros i Hi. rewrite Dv by auto. ring. }
      assert (E2 : bform n D (fun j => v j c) w = la * dotp n (fun j => v j c) w).
      { unfold bform, dotp. rewrite <- rsum_scal_l_R. apply rsum_ext_R'. intros i Hi. rewrite Ew by auto. ring. }
      rewrite bform_sym in E1 by (apply deflated_symm; auto). rewrite E1 in E2. assert (Q : (la - m) * dotp n (fun j => v j c) w = 0) by lra. apply Rmult_integral in Q. destruct Q; [lra|auto]. }
    assert (Mw : forall i, (i < n)%nat -> mv n M w i = la * w i).
    { intros i Hi. rewrite <- Ew by auto. unfold D. rewrite deflated_orth; auto. }
    assert (Hdec : forall c, (c < k)%nat -> la <= lam c).
    { intros c Hc. pose proof (HR c w Hc (fun d Hd => Hperp d (Nat.lt_trans _ _ _ Hd Hc))) as Q. rewrite Hw in Q.
      assert (E : bform n M w w = la). { unfold bform. rewrite (rsum_ext_R' n _ (fun i => la * (w i * w i))) by (intros; rewrite Mw by auto; ring). rewrite rsum_scal_l_R. fold (dotp n w w). rewrite Hw. ring. } lra. }
    exists (fun c => if (c =? k)%nat then la else lam c), (fun i c => if (c =? k)%nat then w i else v i c). split; [|split; [|split]].
    + intros a b Ha Hb. unfold delta_ij. destruct (Nat.eqb_spec a k) as [->|Na], (Nat.eqb_spec b k) as [->|Nb].
      * rewrite Nat.eqb_refl. exact Hw.
      * destruct (Nat.eqb_spec k b); [lia|]. rewrite <- (Hperp b) by lia. apply rsum_ext_R'. intros; ring.
      * destruct (Nat.eqb_spec a k); [lia|]. rewrite <- (Hperp a) by lia. apply rsum_ext_R'. intros; ring.
      * rewrite HO by lia. auto.
    + intros c i Hc Hi. destruct (Nat.eqb_spec c k) as [->|Nc]; [apply Mw; auto|apply HE; lia].
    + intros c d Hcd Hd. destruct (Nat.eqb_spec c k) as [->|Nc], (Nat.eqb_spec d k) as [->|Nd]; try lra; try lia; [apply Hdec; lia|apply HD; lia].
    + intros c x Hc Hx. destruct (Nat.eqb_spec c k) as [->|Nc].
      * rewrite <- Horth; [apply Rw|]. intros d Hd. specialize (Hx d Hd). destruct (Nat.eqb_spec d k); [lia|auto].
      * apply HR; [lia|]. intros d Hd. specialize (Hx d Hd). destruct (Nat.eqb_spec d k); [lia|auto].
Qed.
