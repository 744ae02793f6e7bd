(** the coefficients of the fibres are combinations of the principal components. *)
From Coq Require Import List Arith Lia Bool Reals Permutation Lra.
From Verif.Base Require Import ListAux CRing Index RealAux LinAlg.
From Verif.Model Require Import Sorting Numpy FullTensor Diagonal Canonical DimensionTree TreeBased Truncator HSVD Functions Measures Learning DensityL2 MagicIndices AltMin TensorPCA.
From Verif.Spec Require Import TensorSpec TreeSpec TreeTensorSpec TruncatorSpec LearningSpec FunctionSpec MagicSpec PCASpec.
From Verif.Proofs Require AltMinP4.
From Verif.Proofs Require Import NumpyP FullTensorP MagicP OrthNodeP4 TensorPCAP1 TensorPCAP2 TensorPCAP3 TensorPCAP5.
From Verif.Model Require Import Learning.
Import ListNotations.
Local Open Scope R_scope.

Lemma compl_other d D : compl d D = other_dims d D.
Proof. reflexivity. Qed.
Lemma sel_put_valid s D p is : valid s is -> NoDup D -> Forall (fun k => (k < length s)%nat) D -> valid (sel 0%nat s D) p -> valid s (TensorSpec.put D p is).
Proof.
  intros HV ND HD HP. assert (LI := valid_length _ _ HV). assert (LP := valid_length _ _ HP). unfold sel in LP. rewrite map_length in LP.
  apply NumpyP.valid_intro; [rewrite put_length; auto|]. intros k Hk. destruct (in_dec Nat.eq_dec k D) as [Hi|Hi].
  - destruct (In_nth D k 0%nat Hi) as (m & Hm & <-). rewrite put_nth_in by (auto; lia).
    assert (E := valid_nth _ _ m HP). unfold sel in E. rewrite map_length in E. specialize (E Hm). rewrite (map_nth_in _ _ _ 0%nat) in E by auto. exact E.
  - rewrite put_nth_out by auto. apply (valid_nth _ _ k HV). auto.
Qed.

Section Fact.
  Variable svd : nd R -> nd R * list R * nd R.
  Hypothesis SV : svd_contract svd.
  Variable L : lapack.
  Hypothesis HL : lapack_ok L.
  Variables (factor : nat) (adaptive : bool) (f : list nat -> R) (shp : list nat).

  Lemma comb_range (X P : mx) N (a : nat -> R) : (forall j, (j < N)%nat -> exists b : nat -> R, forall k, (k < mrows X)%nat -> ment X k j = rsum (mcols P) (fun m => ment P k m * b m)) ->
    exists b : nat -> R, forall k, (k < mrows X)%nat -> rsum N (fun j => a j * ment X k j) = rsum (mcols P) (fun m => ment P k m * b m).
  Proof.
    induction N as [|N IH]; intros H.
    - exists (fun _ => 0). intros k Hk. cbn [rsum]. symmetry. apply rsum_zero_R. intros m _. ring.
    - destruct IH as [b Hb]; [intros; apply H; lia|]. destruct (H N ltac:(lia)) as [c Hc]. exists (fun m => b m + a N * c m). intros k Hk. rewrite rsum_S_R, Hb, Hc by auto.
      rewrite <- rsum_scal_l_R, <- rsum_plus_R. apply rsum_ext_R'. intros m _. ring.
  Qed.
  Lemma pc_fact alpha x B I rnd r : length I = mrows B -> (forall na N, length (rnd na N) = N) -> NoDup alpha -> Forall (fun k => (k < length shp)%nat) alpha ->
    Forall (valid (sel 0%nat shp alpha)) I -> (forall na N, Forall (fun k => (k < length shp)%nat) na -> Forall (valid (sel 0%nat shp na)) (rnd na N)) -> lt1 (Some x) && adaptive = false ->
    alpha_pc svd L factor adaptive f shp alpha (Some x) B I rnd = Some r ->
    (x <= 0 \/ (1 <= x /\ rank_at_most shp alpha (floor_nat x) f)) ->
    (forall N, pca_samples factor (Some x) B = Some N -> fibres_span f shp alpha (rnd (other_dims (length shp) alpha) N)) ->
    forall is c, valid shp is -> (forall i, (i < mrows B)%nat -> rsum (mcols B) (fun k => ment B i k * c k) = f (TensorSpec.put alpha (nth i I []) is)) ->
    exists b : nat -> R, forall k, (k < mcols B)%nat -> c k = rsum (mcols (po_pc r)) (fun m => ment (po_pc r) k m * b m).
  Proof.
    intros HI HR ND HA HIv HRv HAD H HX HS is c HV HC.
    assert (HIl : Forall (fun p => length p = length alpha) I) by (eapply Forall_impl; [|exact HIv]; cbn beta; intros p Hp; apply valid_length in Hp; unfold sel in Hp; rewrite map_length in Hp; auto).
    assert (HCb : Forall (fun k => (k < length shp)%nat) (compl (length shp) alpha)) by (apply Forall_forall; intros k Hk; unfold compl in Hk; apply filter_In in Hk; destruct Hk as [Hk _]; apply in_seq in Hk; lia).
    assert (HRl : forall N, Forall (fun z => length z = length (compl (length shp) alpha)) (rnd (compl (length shp) alpha) N)) by (intros N; eapply Forall_impl; [|exact (HRv (compl (length shp) alpha) N HCb)]; cbn beta; intros p Hp; apply valid_length in Hp; unfold sel in Hp; rewrite map_length in Hp; auto).
    destruct (alpha_cols svd L HL factor adaptive f shp alpha (Some x) B I rnd r HI HR ND HA HIl HRl HAD H) as (N & X & E1 & E2 & E3 & E4 & E5 & E6 & E7 & E8).
    set (na := compl (length shp) alpha) in *. assert (LZ := HR na N).
    assert (NDC : NoDup na) by (apply NoDup_filter, seq_NoDup).
    assert (LI := valid_length _ _ HV).
    (* the columns are in the range of pc *)
    assert (HRange : forall j, (j < N)%nat -> exists b : nat -> R, forall k, (k < mrows X)%nat -> ment X k j = rsum (mcols (po_pc r)) (fun m => ment (po_pc r) k m * b m)).
    { intros j Hj. apply (pc_range svd SV (nd_of X) (mrows X) N x (po_pc r, po_sv r)); auto; [cbn; rewrite E4; reflexivity|].
      destruct HX as [HX|[HX1 (a & b & HX2)]]; [left; auto|right]. split; [auto|].
      exists (fun c l => match l_solve L B (fun i => a c (nth i I [])) with Some y => y (nth 0 l 0%nat) | None => 0 end), (fun c l => b c (nth (nth 0 l 0%nat) (rnd na N) [])).
      intros ij Vij. inversion Vij as [|i0 ? ij' ? V1 Vj']; subst. inversion Vj' as [|j0 ? ij2 ? V2 Vn]; subst. inversion Vn; subst. cbn [nd_of get nth sel map]. cbn [length seq filter existsb Nat.eqb orb negb nth map].
      set (y := fun k => rsum (floor_nat x) (fun c => match l_solve L B (fun i => a c (nth i I [])) with Some y => y k | None => 0 end * b c (nth j0 (rnd na (mcols X)) []))).
      change (ment X i0 j0 = y i0). assert (E9 : forall k, (k < mcols B)%nat -> ment X k j0 - y k = 0); [|rewrite E3 in V1; specialize (E9 i0 V1); lra].
      apply (proj2 E2). intros i Hi. unfold mv. rewrite (rsum_ext_R' _ _ (fun k => ment B i k * ment X k j0 + - (ment B i k * y k))) by (intros; ring). rewrite rsum_plus_R.
      rewrite (rsum_ext_R' (mcols B) (fun k => - _) (fun k => (-1) * (ment B i k * y k))) by (intros; ring). rewrite rsum_scal_l_R.
      assert (HIi : valid (sel 0%nat shp alpha) (nth i I [])) by (rewrite Forall_forall in HIv; apply HIv, nth_In; lia).
      assert (HZj : valid (sel 0%nat shp na) (nth j0 (rnd na (mcols X)) [])) by (specialize (HRv na (mcols X) HCb); rewrite Forall_forall in HRv; apply HRv, nth_In; lia).
      rewrite (E7 i j0 is Hi V2 LI). unfold at_point. fold na.
      assert (Vz : valid shp (TensorSpec.put na (nth j0 (rnd na (mcols X)) []) is)) by (apply sel_put_valid; auto).
      rewrite HX2 by (apply sel_put_valid; auto).
      assert (S1 : sel 0%nat (TensorSpec.put alpha (nth i I []) (TensorSpec.put na (nth j0 (rnd na (mcols X)) []) is)) alpha = nth i I []).
      { apply sel_put_in; auto; [rewrite put_length, LI; auto|]. rewrite (valid_length _ _ HIi). unfold sel. apply map_length. }
      assert (S2 : sel 0%nat (TensorSpec.put alpha (nth i I []) (TensorSpec.put na (nth j0 (rnd na (mcols X)) []) is)) na = nth j0 (rnd na (mcols X)) []).
      { rewrite sel_put_out.
        - apply sel_put_in; auto; [rewrite LI; auto|]. rewrite (valid_length _ _ HZj). unfold sel. apply map_length.
        - intros k Hk. unfold na, compl in Hk. apply filter_In in Hk. destruct Hk as [_ Hk]. intros Hi'. apply NumpyP.inb_spec in Hi'. rewrite Hi' in Hk. discriminate. }
      rewrite S1. change (filter (fun d : nat => negb (existsb (Nat.eqb d) alpha)) (seq 0 (length shp))) with na. rewrite S2.
      unfold y. rewrite (rsum_ext_R' (mcols B) (fun k => ment B i k * _) (fun k => rsum (floor_nat x) (fun c => ment B i k * match l_solve L B (fun i => a c (nth i I [])) with Some y => y k | None => 0 end * b c (nth j0 (rnd na (mcols X)) [])))).
      2:{ intros k _. rewrite <- rsum_scal_l_R. apply rsum_ext_R'. intros c0 _. ring. }
      rewrite rsum_swap_R. rewrite (rsum_ext_R' (floor_nat x) (fun j => rsum (mcols B) _) (fun c => a c (nth i I []) * b c (nth j0 (rnd na (mcols X)) []))); [cbn; ring|].
      intros c0 _. rewrite (rsum_ext_R' (mcols B) _ (fun k => b c0 (nth j0 (rnd na (mcols X)) []) * (ment B i k * match l_solve L B (fun i => a c0 (nth i I [])) with Some y => y k | None => 0 end))) by (intros; ring).
      rewrite rsum_scal_l_R. destruct (solve_ns L HL B (fun i => a c0 (nth i I [])) E2) as [y0 Hy0]. rewrite Hy0. destruct (solve_some L HL _ _ _ Hy0) as [_ Hy]. specialize (Hy i Hi). unfold mv in Hy. rewrite Hy. ring. }
    destruct (HS N E1 is HV) as [al Hal]. change (other_dims (length shp) alpha) with na in Hal. rewrite LZ in Hal. destruct (comb_range X (po_pc r) N al HRange) as [b Hb]. exists b. intros k Hk. rewrite <- Hb by lia.
    assert (E9 : forall k, (k < mcols B)%nat -> c k - rsum N (fun j => al j * ment X k j) = 0); [|specialize (E9 k Hk); lra].
    apply (proj2 E2). intros i Hi. unfold mv. rewrite (rsum_ext_R' _ _ (fun k => ment B i k * c k + (-1) * rsum N (fun j => al j * (ment B i k * ment X k j)))).
    2:{ intros k0 _. rewrite (rsum_ext_R' N (fun j => al j * (ment B i k0 * ment X k0 j)) (fun j => ment B i k0 * (al j * ment X k0 j))) by (intros; ring). rewrite rsum_scal_l_R. ring. }
    rewrite rsum_plus_R, rsum_scal_l_R, rsum_swap_R. rewrite HC by auto.
    assert (HIi : valid (sel 0%nat shp alpha) (nth i I [])) by (rewrite Forall_forall in HIv; apply HIv, nth_In; lia).
    rewrite (Hal _ HIi). rewrite (rsum_ext_R' N (fun j => rsum _ _) (fun j => al j * f (at_point shp alpha (nth i I []) (nth j (rnd na N) []) is))); [unfold at_point; fold na; change (other_dims (length shp) alpha) with na; ring|].
    intros j Hj. rewrite rsum_scal_l_R. rewrite (E7 i j is) by auto. reflexivity.
  Qed.
End Fact.
