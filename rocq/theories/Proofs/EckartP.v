(** Best approximation by a matrix of rank at most k (Eckart-Young, Frobenius norm). *)
From Coq Require Import List Arith Lia Reals Lra Bool.
From Verif.Base Require Import ListAux CRing Index RealAux LinAlg.
From Verif.Model Require Import Numpy FullTensor Learning.
From Verif.Spec Require Import TensorSpec LearningSpec PolySpec TruncatorSpec.
From Verif.Proofs Require Import NumpyP TruncatorP2 TruncatorP3 LearningP PolyP5 LapackP SpectralP SpectralP2.
Import ListNotations.
Local Open Scope R_scope.

(** |y - sum_c B_c q_c|^2 *)
Lemma comb_dist N k q y B : orthonormal N k q ->
  rsum N (fun i => (y i - rsum k (fun c => q i c * B c)) * (y i - rsum k (fun c => q i c * B c))) =
  dotp N y y - 2 * rsum k (fun c => B c * dotp N (fun i => q i c) y) + rsum k (fun c => B c * B c).
Proof.
  intros HO.
  assert (E1 : rsum N (fun i => y i * rsum k (fun c => q i c * B c)) = rsum k (fun c => B c * dotp N (fun i => q i c) y)).
  { rewrite (rsum_ext_R' N _ (fun i => rsum k (fun c => B c * (q i c * y i)))) by (intros; rewrite <- rsum_scal_l_R; apply rsum_ext_R'; intros; ring).
    rewrite rsum_swap_R. apply rsum_ext_R'. intros c _. unfold dotp. rewrite rsum_scal_l_R. auto. }
  assert (E2 : rsum N (fun i => rsum k (fun c => q i c * B c) * rsum k (fun c => q i c * B c)) = rsum k (fun c => B c * B c)).
  { rewrite (rsum_ext_R' N _ (fun i => rsum k (fun c => rsum k (fun d => B c * B d * (q i c * q i d))))).
    2:{ intros i _. rewrite <- rsum_scal_r_R. apply rsum_ext_R'. intros c _. rewrite <- rsum_scal_l_R. apply rsum_ext_R'. intros; ring. }
    rewrite rsum_swap_R. apply rsum_ext_R'. intros c Hc. rewrite rsum_swap_R.
    rewrite (rsum_ext_R' k _ (fun d => if (d =? c)%nat then B c * B d else 0)); [apply rsum_delta_R; auto|].
    intros d Hd. rewrite rsum_scal_l_R, HO by auto. unfold delta_ij. rewrite Nat.eqb_sym. destruct (d =? c)%nat; ring. }
  rewrite <- E2, <- E1. unfold dotp. rewrite <- rsum_scal_l_R, <- rsum_minus_R, <- rsum_plus_R. apply rsum_ext_R'. intros; ring.
Qed.
Lemma bessel N k q y : orthonormal N k q -> rsum k (fun c => dotp N (fun i => q i c) y * dotp N (fun i => q i c) y) <= dotp N y y.
Proof.
  intros HO. pose proof (comb_dist N k q y (fun c => dotp N (fun i => q i c) y) HO) as E.
  assert (0 <= rsum N (fun i => (y i - rsum k (fun c => q i c * dotp N (fun i => q i c) y)) * (y i - rsum k (fun c => q i c * dotp N (fun i => q i c) y)))) by (apply rsum_nonneg; intros; apply Rle_0_sqr).
  lra.
Qed.
Lemma proj_lower N k q y B : orthonormal N k q ->
  dotp N y y - rsum k (fun c => dotp N (fun i => q i c) y * dotp N (fun i => q i c) y) <=
  rsum N (fun i => (y i - rsum k (fun c => q i c * B c)) * (y i - rsum k (fun c => q i c * B c))).
Proof.
  intros HO. rewrite (comb_dist N k q y B HO).
  assert (0 <= rsum k (fun c => (B c - dotp N (fun i => q i c) y) * (B c - dotp N (fun i => q i c) y))) by (apply rsum_nonneg; intros; apply Rle_0_sqr).
  rewrite (rsum_ext_R' k _ (fun c => B c * B c - 2 * (B c * dotp N (fun i => q i c) y) + dotp N (fun i => q i c) y * dotp N (fun i => q i c) y)) in H by (intros; ring).
  rewrite rsum_plus_R, rsum_minus_R, rsum_scal_l_R in H. lra.
Qed.
Lemma orth_comb N k q B : orthonormal N k q -> rsum N (fun i => rsum k (fun c => q i c * B c) * rsum k (fun c => q i c * B c)) = rsum k (fun c => B c * B c).
Proof.
  intros HO. pose proof (comb_dist N k q (fun _ => 0) B HO) as E.
  assert (Z : dotp N (fun _ => 0) (fun _ => 0) = 0) by (apply rsum_zero_R; intros; ring).
  assert (Z' : rsum k (fun c => B c * dotp N (fun i => q i c) (fun _ => 0)) = 0) by (apply rsum_zero_R; intros c _; unfold dotp; rewrite rsum_zero_R; [ring|intros; ring]).
  rewrite Z, Z' in E. rewrite (rsum_ext_R' N _ (fun i => (0 - rsum k (fun c => q i c * B c)) * (0 - rsum k (fun c => q i c * B c)))) by (intros; ring). lra.
Qed.

(** weights in [0, 1] of sum at most k *)
Lemma weights_le K k (w p : nat -> R) : (forall c, (c < K)%nat -> 0 <= p c <= 1) -> rsum K p <= INR k ->
  (forall c, (c < K)%nat -> 0 <= w c) -> (forall c d, (c <= d)%nat -> (d < K)%nat -> w d <= w c) ->
  rsum K (fun c => w c * p c) <= rsum (Nat.min k K) w.
Proof.
  intros Hp Hs H0 HD. destruct (Nat.le_gt_cases K k) as [HK|HK].
  - rewrite Nat.min_r by auto. apply rsum_le. intros c Hc. specialize (Hp c Hc). specialize (H0 c Hc). nra.
  - rewrite Nat.min_l by lia. set (x := w k).
    assert (A : rsum K (fun c => w c * p c) <= rsum k (fun c => w c + x * (p c - 1)) + rsum (K - k) (fun c => x * p (k + c)%nat)).
    { replace K with (k + (K - k))%nat at 1 by lia. rewrite rsum_app_R. apply Rplus_le_compat.
      - apply rsum_le. intros c Hc. assert (x <= w c) by (apply HD; lia). specialize (Hp c ltac:(lia)). nra.
      - apply rsum_le. intros c Hc. assert (w (k + c)%nat <= x) by (apply HD; lia). specialize (Hp (k + c)%nat ltac:(lia)). nra. }
    eapply Rle_trans; [exact A|]. rewrite rsum_plus_R, !rsum_scal_l_R.
    replace K with (k + (K - k))%nat in Hs at 1 by lia. rewrite rsum_app_R in Hs. rewrite rsum_minus_R.
    assert (E : rsum k (fun _ => 1) = INR k) by (clear; induction k; [cbn; auto|rewrite rsum_S_R, S_INR, IHk; auto]).
    rewrite E. assert (0 <= x) by (apply H0; auto). nra.
Qed.

Lemma eckart m n K u s v k a b (M : nat -> nat -> R) : orthonormal m K u -> orthonormal n K v ->
  (forall c, (c < K)%nat -> 0 <= s c) -> (forall c d, (c <= d)%nat -> (d < K)%nat -> s d <= s c) ->
  (forall i j, (i < m)%nat -> (j < n)%nat -> M i j = rsum K (fun c => u i c * s c * v j c)) ->
  rsum K (fun c => if (c <? k)%nat then 0 else s c * s c) <=
  rsum m (fun i => rsum n (fun j => (M i j - rsum k (fun c => a i c * b c j)) * (M i j - rsum k (fun c => a i c * b c j)))).
Proof.
  intros HU HV H0 HD HM. destruct (qr_exists m k a) as (q & r & HQ & HA). set (k' := Nat.min m k) in *.
  set (B := fun e j => rsum k (fun c => r e c * b c j)).
  rewrite rsum_swap_R.
  assert (EX : forall i j, (i < m)%nat -> rsum k (fun c => a i c * b c j) = rsum k' (fun e => q i e * B e j)).
  { intros i j Hi. unfold B. rewrite (rsum_ext_R' k _ (fun c => rsum k' (fun e => q i e * (r e c * b c j)))).
    - rewrite rsum_swap_R. apply rsum_ext_R'. intros e _. apply rsum_scal_l_R.
    - intros c Hc. rewrite HA by auto. rewrite <- rsum_scal_r_R. apply rsum_ext_R'. intros; ring. }
  rewrite (rsum_ext_R' n _ (fun j => rsum m (fun i => (M i j - rsum k' (fun e => q i e * B e j)) * (M i j - rsum k' (fun e => q i e * B e j))))) by (intros j _; apply rsum_ext_R'; intros i Hi; rewrite EX by auto; auto).
  eapply Rle_trans; [|apply rsum_le; intros j _; apply (proj_lower m k' q (fun i => M i j) (fun e => B e j) HQ)].
  rewrite rsum_minus_R.
  assert (EM : rsum n (fun j => dotp m (fun i => M i j) (fun i => M i j)) = rsum K (fun c => s c * s c)).
  { rewrite (rsum_ext_R' n _ (fun j => rsum K (fun c => (s c * v j c) * (s c * v j c)))).
    - rewrite rsum_swap_R. apply rsum_ext_R'. intros c Hc. rewrite (rsum_ext_R' n _ (fun j => s c * s c * (v j c * v j c))) by (intros; ring).
      rewrite rsum_scal_l_R, HV by auto. unfold delta_ij. rewrite Nat.eqb_refl. ring.
    - intros j Hj. rewrite <- (orth_comb m K u (fun c => s c * v j c) HU). unfold dotp. apply rsum_ext_R'. intros i Hi. rewrite HM by auto.
      assert (E : rsum K (fun c => u i c * s c * v j c) = rsum K (fun c => u i c * (s c * v j c))) by (apply rsum_ext_R'; intros; ring). rewrite E. auto. }
  set (g := fun e c => dotp m (fun i => q i e) (fun i => u i c)).
  assert (EQ : rsum n (fun j => rsum k' (fun e => dotp m (fun i => q i e) (fun i => M i j) * dotp m (fun i => q i e) (fun i => M i j))) =
    rsum K (fun c => s c * s c * rsum k' (fun e => g e c * g e c))).
  { rewrite rsum_swap_R.
    transitivity (rsum k' (fun e => rsum K (fun c => s c * s c * (g e c * g e c)))).
    - apply rsum_ext_R'. intros e He. rewrite (rsum_ext_R' K _ (fun c => (s c * g e c) * (s c * g e c))) by (intros; ring).
      rewrite <- (orth_comb n K v (fun c => s c * g e c) HV). apply rsum_ext_R'. intros j Hj.
      assert (E : dotp m (fun i => q i e) (fun i => M i j) = rsum K (fun c => v j c * (s c * g e c))).
      { unfold dotp. rewrite (rsum_ext_R' m _ (fun i => rsum K (fun c => v j c * s c * (q i e * u i c)))).
        - rewrite rsum_swap_R. apply rsum_ext_R'. intros c _. rewrite rsum_scal_l_R. unfold g, dotp. ring.
        - intros i Hi. rewrite HM by auto. rewrite <- rsum_scal_l_R. apply rsum_ext_R'. intros; ring. }
      rewrite E. auto.
    - rewrite rsum_swap_R. apply rsum_ext_R'. intros c _. apply rsum_scal_l_R. }
  rewrite EM, EQ.
  assert (HW : rsum K (fun c => s c * s c * rsum k' (fun e => g e c * g e c)) <= rsum (Nat.min k K) (fun c => s c * s c)).
  { apply weights_le.
    - intros c Hc. split; [apply rsum_nonneg; intros; apply Rle_0_sqr|].
      pose proof (bessel m k' q (fun i => u i c) HQ) as Bs. unfold dotp in Bs at 3. rewrite HU in Bs by auto. unfold delta_ij in Bs. rewrite Nat.eqb_refl in Bs. exact Bs.
    - rewrite rsum_swap_R. apply Rle_trans with (rsum k' (fun _ => 1)).
      + apply rsum_le. intros e He. pose proof (bessel m K u (fun i => q i e) HU) as Bs. unfold dotp in Bs at 3. rewrite HQ in Bs by auto. unfold delta_ij in Bs. rewrite Nat.eqb_refl in Bs.
        rewrite (rsum_ext_R' K _ (fun c => dotp m (fun i => u i c) (fun i => q i e) * dotp m (fun i => u i c) (fun i => q i e))); [exact Bs|].
        intros c _. unfold g. rewrite dotp_sym. auto.
      + assert (E : forall z, rsum z (fun _ => 1) = INR z) by (clear; induction z; [cbn; auto|rewrite rsum_S_R, S_INR, IHz; auto]).
        rewrite E. apply le_INR. unfold k'. lia.
    - intros c Hc. apply Rle_0_sqr.
    - intros c d Hcd Hd. assert (0 <= s d) by auto. assert (s d <= s c) by auto. nra. }
  assert (ET : rsum K (fun c => if (c <? k)%nat then 0 else s c * s c) = rsum K (fun c => s c * s c) - rsum (Nat.min k K) (fun c => s c * s c)).
  { assert (E : rsum (Nat.min k K) (fun c => s c * s c) = rsum K (fun c => if (c <? k)%nat then s c * s c else 0)).
    { assert (EK : (K = Nat.min k K + (K - Nat.min k K))%nat) by lia. symmetry. rewrite EK at 1. rewrite rsum_app_R.
      rewrite (rsum_zero_R (K - Nat.min k K)); [rewrite Rplus_0_r; apply rsum_ext_R'; intros c Hc; destruct (Nat.ltb_spec c k); [auto|lia]|].
      intros c Hc. destruct (Nat.ltb_spec (Nat.min k K + c) k); [lia|auto]. }
    rewrite E, <- rsum_minus_R. apply rsum_ext_R'. intros c _. destruct (c <? k)%nat; ring. }
  rewrite ET. lra.
Qed.

Section Tail.
  Variable svd : nd R -> nd R * list R * nd R.
  Hypothesis SVD : svd_contract svd.
  Lemma tail_le (Y M : nd R) dims k g : NoDup dims -> Forall (fun d => (d < ndim Y)%nat) dims ->
    let sr := sel 0%nat (shape Y) dims in let sc := sel 0%nat (shape Y) (compl (ndim Y) dims) in
    shape M = [prodn sr; prodn sc] ->
    (forall is, valid (shape Y) is -> get M [sub2indF sr (sel 0%nat is dims); sub2indF sc (sel 0%nat is (compl (ndim Y) dims))] = get Y is) ->
    rank_at_most (shape Y) dims k g -> sumsq (skipn k (snd (fst (svd M)))) <= err2 Y g.
  Proof.
    intros ND HF sr sc HM HgM (a & b & Hg).
    destruct (SVD M _ _ HM) as (SU & Ls & SV & Sp & Sd & OU & OV & EM).
    set (m := prodn sr) in *. set (n := prodn sc) in *. set (K := Nat.min m n) in *.
    set (s := snd (fst (svd M))) in *. set (U := fst (fst (svd M))) in *. set (V := snd (svd M)) in *.
    set (X := fun i j => rsum k (fun c => a c (ind2subF sr i) * b c (ind2subF sc j))).
    assert (E : err2 Y g = rsum m (fun i => rsum n (fun j => (get M [i; j] - X i j) * (get M [i; j] - X i j)))).
    { pose proof (bsum_mat (shape Y) dims (fun i j => (get M [i; j] - X i j) * (get M [i; j] - X i j)) ND HF) as B. cbn zeta in B.
      fold sr in B. change (compl (length (shape Y)) dims) with (compl (ndim Y) dims) in B. fold sc m n in B. rewrite <- B.
      unfold err2. apply bsum_ext. intros is Hv. rewrite HgM by auto.
      assert (EX : X (sub2indF sr (sel 0%nat is dims)) (sub2indF sc (sel 0%nat is (compl (ndim Y) dims))) = g is).
      { unfold X. rewrite Hg by auto. apply rsum_ext_R'. intros c _. rewrite !ind2subF_sub2indF; [reflexivity| |].
        - apply sel_valid; auto. apply compl_lt.
        - apply sel_valid; auto. }
      rewrite EX. auto. }
    rewrite E.
    eapply Rle_trans; [|apply (eckart m n K (fun i c => get U [i; c]) (fun c => nth c s 0) (fun j c => get V [c; j]) k (fun i c => a c (ind2subF sr i)) (fun c j => b c (ind2subF sc j)) (fun i j => get M [i; j]))]; auto.
    right. rewrite sumsq_skipn, Ls. apply rsum_ext_R'. intros c Hc. destruct (c <? k)%nat; ring.
  Qed.
  (** matrices *)
  Lemma tail_le_mat (M : nd R) m n k g : shape M = [m; n] -> rank_at_most [m; n] [0%nat] k g -> sumsq (skipn k (snd (fst (svd M)))) <= err2 M g.
  Proof.
    intros HM Hg. apply (tail_le M M [0%nat] k g).
    - repeat constructor; cbn; tauto.
    - unfold ndim. rewrite HM. repeat constructor.
    - unfold ndim. rewrite HM. cbn. rewrite !Nat.mul_1_r. auto.
    - intros is Hv. rewrite HM in Hv. unfold ndim. rewrite HM. inversion Hv as [|j ? js ? Hj Hv']; subst. inversion Hv' as [|j' ? js' ? Hj' Hv'']; subst. inversion Hv''; subst.
      cbn. rewrite !Nat.mul_0_r, !Nat.add_0_r. auto.
    - rewrite HM. auto.
  Qed.
End Tail.
