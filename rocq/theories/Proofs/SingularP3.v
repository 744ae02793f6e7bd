(** The singular values are determined by the tensor; the sum of their squares. *)
From Coq Require Import List Arith Lia Bool Reals Lra Wf_nat.
From Verif.Base Require Import ListAux CRing Index RealAux LinAlg.
From Verif.Model Require Import Sorting Numpy FullTensor Diagonal Canonical DimensionTree TreeBased Truncator HSVD HsvdTree SingularValues.
From Verif.Spec Require Import TensorSpec TreeSpec TreeTensorSpec TruncatorSpec GramSpec SingularSpec LearningSpec.
From Verif.Proofs Require Import NumpyP FullTensorP PolyP5 SpectralP LapackP EckartP HsvdP2 ProjP TruncatorP3 TreeTensorP29 HsvdTreeP9 TruncatorP2 SpectralP2 DiagonalP SingularP1 SingularP2.
Import ListNotations.
Local Open Scope R_scope.

(** Ky Fan: the sum of the m largest eigenvalues is the largest *)
Lemma ky_fan N K K' (q q' : nat -> nat -> R) (w w' : nat -> R) m : orthonormal N K q -> orthonormal N K' q' -> (m <= K')%nat ->
  (forall c, (c < K)%nat -> 0 <= w c) -> (forall c d, (c <= d)%nat -> (d < K)%nat -> w d <= w c) ->
  (forall i j, (i < N)%nat -> (j < N)%nat -> rsum K (fun c => q i c * w c * q j c) = rsum K' (fun c => q' i c * w' c * q' j c)) ->
  rsum m w' <= rsum (Nat.min m K) w.
Proof.
  intros HQ HQ' Hm W0 WD HE. set (g := fun c e => dotp N (fun i => q i c) (fun i => q' i e)).
  assert (E : forall e, (e < m)%nat -> w' e = rsum K (fun c => w c * (g c e * g c e))).
  { intros e He. transitivity (rsum N (fun i => rsum N (fun j => q' i e * rsum K' (fun c => q' i c * w' c * q' j c) * q' j e))).
    - symmetry. transitivity (rsum N (fun i => q' i e * (q' i e * w' e))).
      + apply rsum_ext_R. intros i Hi. transitivity (rsum N (fun j => rsum K' (fun c => q' i e * q' i c * w' c * (q' j c * q' j e)))).
        * apply rsum_ext_R. intros j Hj. rewrite <- rsum_scal_l_R, <- rsum_scal_r_R. apply rsum_ext_R. intros; ring.
        * rewrite rsum_swap_R. transitivity (rsum K' (fun c => if (c =? e)%nat then q' i e * q' i c * w' c else 0)).
          -- apply rsum_ext_R. intros c Hc. rewrite rsum_scal_l_R, HQ' by lia. unfold LearningSpec.delta_ij. destruct (c =? e)%nat; ring.
          -- rewrite rsum_delta_R by lia. ring.
      + rewrite (rsum_ext_R N _ (fun i => q' i e * q' i e * w' e)) by (intros; ring). rewrite rsum_scal_r_R, HQ' by lia. unfold LearningSpec.delta_ij. rewrite Nat.eqb_refl. ring.
    - transitivity (rsum N (fun i => rsum N (fun j => rsum K (fun c => w c * (q i c * q' i e * (q j c * q' j e)))))).
      + apply rsum_ext_R. intros i Hi. apply rsum_ext_R. intros j Hj. rewrite <- HE by auto. rewrite <- rsum_scal_l_R, <- rsum_scal_r_R. apply rsum_ext_R. intros; ring.
      + transitivity (rsum N (fun i => rsum K (fun c => w c * (q i c * q' i e * g c e)))).
        * apply rsum_ext_R. intros i Hi. rewrite rsum_swap_R. apply rsum_ext_R. intros c Hc. rewrite !rsum_scal_l_R. unfold g, dotp. ring.
        * rewrite rsum_swap_R. apply rsum_ext_R. intros c Hc. rewrite rsum_scal_l_R, rsum_scal_r_R. unfold g, dotp. ring. }
  rewrite (rsum_ext_R m w' (fun e => rsum K (fun c => w c * (g c e * g c e)))) by exact E. rewrite rsum_swap_R.
  rewrite (rsum_ext_R K _ (fun c => w c * rsum m (fun e => g c e * g c e))) by (intros; apply rsum_scal_l_R).
  assert (HQm : orthonormal N m q') by (intros a b Ha Hb; apply HQ'; lia).
  apply weights_le; auto.
  - intros c Hc. split; [apply rsum_nonneg; intros; apply Rle_0_sqr|].
    pose proof (bessel N m q' (fun i => q i c) HQm) as Bs. unfold dotp in Bs at 3. rewrite HQ in Bs by auto. unfold delta_ij in Bs. rewrite Nat.eqb_refl in Bs.
    eapply Rle_trans; [|exact Bs]. apply Req_le. apply rsum_ext_R. intros e _. unfold g. rewrite (dotp_sym N (fun i => q i c)). reflexivity.
  - rewrite rsum_swap_R. apply Rle_trans with (rsum m (fun _ => 1)).
    + apply rsum_le. intros e He. pose proof (bessel N K q (fun i => q' i e) HQ) as Bs. unfold dotp in Bs at 3. rewrite HQm in Bs by auto. unfold delta_ij in Bs. rewrite Nat.eqb_refl in Bs. exact Bs.
    + assert (EE : forall z, rsum z (fun _ => 1) = INR z) by (clear; induction z; [cbn; auto|rewrite rsum_S_R, S_INR, IHz; auto]). rewrite EE. lra.
Qed.

Lemma rsum_pad (l : list R) (f : R -> R) m : f 0 = 0 -> rsum m (fun c => f (nth c l 0)) = rsum (Nat.min m (length l)) (fun c => f (nth c l 0)).
Proof.
  intros F0. destruct (Nat.le_gt_cases m (length l)) as [H|H]; [rewrite Nat.min_l by auto; auto|]. rewrite Nat.min_r by lia.
  replace m with (length l + (m - length l))%nat at 1 by lia. rewrite rsum_app_R. rewrite (rsum_zero_R (m - length l)); [ring|].
  intros c _. rewrite nth_overflow by lia. exact F0.
Qed.

Section Uniq.
  Variables (A : nd R) (D : list nat).
  Hypothesis ND : NoDup D.
  Hypothesis HD : Forall (fun d => (d < ndim A)%nat) D.
  Hypothesis HP : Forall (fun n => (0 < n)%nat) (shape A).
  Local Notation s := (sel 0%nat (shape A) D).
  Let base := repeat 0%nat (ndim A).
  Lemma base_valid : valid (shape A) base.
  Proof. apply valid_intro; [unfold base; rewrite repeat_length; auto|]. intros d Hd. unfold base. rewrite nth_repeat_in by (unfold ndim; lia). apply (proj1 (Forall_nth' _ _ 0%nat) HP). auto. Qed.
  Lemma base_put x : valid s x -> valid (shape A) (put D x base) /\ sel 0%nat (put D x base) D = x.
  Proof.
    intros Hx. split; [apply valid_put_sel; auto; apply base_valid|].
    pose proof (valid_length _ _ Hx) as Lx. rewrite sel_length in Lx. apply nth_ext' with (d := 0%nat); rewrite sel_length; [lia|]. intros i Hi. rewrite sel_nth by lia. rewrite put_nth_in; auto. unfold base. rewrite repeat_length. apply (proj1 (Forall_nth' _ _ 0%nat) HD i Hi).
  Qed.
  (** the functions on the box, on 0 .. prodn s - 1 *)
  Lemma sv_flat sv : singular_values_of A D sv -> exists q, orthonormal (prodn s) (length sv) q /\
    forall i j, (i < prodn s)%nat -> (j < prodn s)%nat ->
      sect A D (put D (ind2subF s i) base) (put D (ind2subF s j) base) = rsum (length sv) (fun c => q i c * (nth c sv 0 * nth c sv 0) * q j c).
  Proof.
    intros (P0 & PM & u & UO & US). exists (fun i c => u c (ind2subF s i)). split.
    - intros a b Ha Hb. rewrite <- (bsum_linear s (fun x => u a x * u b x)). apply UO; auto.
    - intros i j Hi Hj. destruct (base_put (ind2subF s i)) as [V1 E1]; [apply ind2subF_valid; auto|]. destruct (base_put (ind2subF s j)) as [V2 E2]; [apply ind2subF_valid; auto|].
      rewrite US by auto. rewrite E1, E2. reflexivity.
  Qed.
  Lemma sv_le sv sv' m : singular_values_of A D sv -> singular_values_of A D sv' ->
    rsum m (fun c => nth c sv' 0 * nth c sv' 0) <= rsum m (fun c => nth c sv 0 * nth c sv 0).
  Proof.
    intros H H'. destruct (sv_flat sv H) as (q & Q1 & Q2). destruct (sv_flat sv' H') as (q' & Q1' & Q2'). destruct H as (P0 & PM & _). destruct H' as (P0' & PM' & _).
    assert (N0 : forall c, 0 <= nth c sv 0).
    { intros c. destruct (Nat.lt_ge_cases c (length sv)) as [L|L]; [apply (proj1 (Forall_nth' _ _ 0) P0 c L)|rewrite nth_overflow by auto; lra]. }
    rewrite (rsum_pad sv' (fun x => x * x)) by ring. set (m' := Nat.min m (length sv')).
    pose proof (ky_fan (prodn s) (length sv) (length sv') q q' (fun c => nth c sv 0 * nth c sv 0) (fun c => nth c sv' 0 * nth c sv' 0) m' Q1 Q1' (Nat.le_min_r _ _)) as KF. cbv beta in KF.
    eapply Rle_trans; [apply KF|].
    - intros c _. apply Rle_0_sqr.
    - intros c d Hcd Hd. pose proof (PM c d Hcd Hd). pose proof (N0 d). nra.
    - intros i j Hi Hj. rewrite <- Q2, <- Q2' by auto. reflexivity.
    - assert (Hle : (Nat.min m' (length sv) <= m)%nat) by (unfold m'; lia). revert Hle. generalize (Nat.min m' (length sv)) as p. intros p Hle. replace m with (p + (m - p))%nat by lia. rewrite rsum_app_R.
      assert (0 <= rsum (m - p) (fun i => nth (p + i) sv 0 * nth (p + i) sv 0)) by (apply rsum_nonneg; intros; apply Rle_0_sqr). lra.
  Qed.
  (** the singular values are unique, up to zeros at the end *)
  Theorem sv_unique sv sv' : singular_values_of A D sv -> singular_values_of A D sv' -> forall k, nth k sv 0 = nth k sv' 0.
  Proof.
    intros H H' k.
    assert (E : forall m, rsum m (fun c => nth c sv 0 * nth c sv 0) = rsum m (fun c => nth c sv' 0 * nth c sv' 0)) by (intros m; apply Rle_antisym; apply sv_le; auto).
    pose proof (E (S k)) as E1. rewrite !rsum_S_R, (E k) in E1. apply Rplus_eq_reg_l in E1.
    destruct H as (P0 & _). destruct H' as (P0' & _).
    assert (N0 : 0 <= nth k sv 0) by (destruct (Nat.lt_ge_cases k (length sv)) as [L|L]; [apply (proj1 (Forall_nth' _ _ 0) P0 k L)|rewrite nth_overflow by auto; lra]).
    assert (N0' : 0 <= nth k sv' 0) by (destruct (Nat.lt_ge_cases k (length sv')) as [L|L]; [apply (proj1 (Forall_nth' _ _ 0) P0' k L)|rewrite nth_overflow by auto; lra]).
    apply Rsqr_inj; auto.
  Qed.
  (** the sum of the squares is the squared norm *)
  Theorem sv_frob sv : singular_values_of A D sv -> sumsq sv = frob2 A.
  Proof.
    intros (P0 & PM & u & UO & US). unfold frob2. symmetry.
    set (co := compl (ndim A) D).
    assert (NC : NoDup co) by (apply NoDup_filter, seq_NoDup).
    rewrite (TreeTensorP17.bsum_asm (shape A) D) by auto. fold (ndim A). fold co.
    transitivity (bsum s (fun x => sect A D (put D x base) (put D x base))).
    - apply bsum_ext_R. intros x Hx. pose proof (valid_length _ _ Hx) as Lx. rewrite sel_length in Lx. unfold sect. cbv zeta. change (filter (fun d => negb (existsb (Nat.eqb d) D)) (seq 0 (ndim A))) with (compl (ndim A) D). fold co.
      apply bsum_ext_R. intros z Hz. pose proof (valid_length _ _ Hz) as Lz. rewrite sel_length in Lz.
      assert (EA : asm (ndim A) D x z = put co z (put D x base)).
      { assert (LB : length base = ndim A) by (unfold base; apply repeat_length).
        assert (QC : forall m, (m < length co)%nat -> (nth m co 0 < ndim A)%nat /\ ~ In (nth m co 0%nat) D) by (intros m Hm; apply in_compl; apply nth_In; auto).
        assert (QD : forall m, (m < length D)%nat -> (nth m D 0 < ndim A)%nat /\ ~ In (nth m D 0%nat) co).
        { intros m Hm. split; [apply (proj1 (Forall_nth' _ _ 0%nat) HD m Hm)|]. intros Q. apply in_compl in Q. apply (proj2 Q). apply nth_In; auto. }
        apply asm_ext; auto; [rewrite !put_length; auto| |]; intros m Hm.
        - rewrite put_nth_out by (apply QD; auto). apply put_nth_in; auto. rewrite LB. apply QD; auto.
        - change (nth (nth m co 0%nat) (put co z (put D x base)) 0%nat = nth m z 0%nat). apply put_nth_in; auto. rewrite put_length, LB. apply QC; auto. }
      rewrite EA. reflexivity.
    - rewrite (bsum_ext_R _ _ (fun x => rsum (length sv) (fun k => (nth k sv 0 * nth k sv 0) * (u k x * u k x)))).
      + rewrite bsum_rsum_exchange. rewrite (TruncatorP2.sumsq_rsum sv). apply rsum_ext_R. intros k Hk. rewrite bsum_scal_l_R, UO, Nat.eqb_refl by auto. ring.
      + intros x Hx. destruct (base_put x Hx) as [V1 E1]. rewrite US by auto. rewrite E1. apply rsum_ext_R. intros; ring.
  Qed.
End Uniq.
