(** orth_at_node: the theorem. *)
From Coq Require Import List Arith Lia Bool Reals Lra Permutation.
From Verif.Base Require Import ListAux CRing Index RealAux LinAlg.
From Verif.Model Require Import Sorting Numpy FullTensor Diagonal Canonical DimensionTree TreeBased Truncator HSVD HsvdTree OrthNode.
From Verif.Spec Require Import TensorSpec TreeSpec TreeTensorSpec TruncatorSpec GramSpec LearningSpec FunctionalSpec OrthNodeSpec.
From Verif.Proofs Require Import NumpyP FullTensorP FullTensorP4 DimTreeP DimTreeP2 TreeTensorP TreeTensorP2 TreeTensorP3 TreeTensorP4 TreeTensorP6 TreeTensorP7 TreeTensorP12 TreeTensorP13 TreeTensorP14 TreeTensorP15 TreeTensorP29 PolyP5 HsvdP2 HsvdTreeP1 HsvdTreeP2 HsvdTreeP3 HsvdTreeP4 HsvdTreeP5 HsvdTreeP9 HsvdTreeP10 OrthNodeP1 OrthNodeP2 OrthNodeP3 OrthNodeP4.
Import ListNotations.
Local Open Scope R_scope.

Lemma orth_ranks' qr (X Z : tbt R) r : qr_contract qr -> tb_ok X r -> tb_orth qr X = Some Z ->
  forall m, node (ttree X) m -> active X m = true -> m <> r -> (last (shape (core Z m)) 0 <= last (shape (core X m)) 0)%nat.
Proof.
  intros QR O E m Hm Ha NE. destruct (tb_orth_ranks qr X r QR O) as (Z' & EZ & _ & AZ & _ & DY). rewrite E in EZ. injection EZ as <-.
  specialize (DY m Hm NE). unfold csize in DY. rewrite (AZ m Hm), Ha in DY. auto.
Qed.
Lemma orth_at_node_spec svd qr mrank pinv inv : svd_contract svd -> qr_contract qr -> rank_contract mrank -> pinv_contract pinv -> inv_contract inv -> inv_complete inv ->
  forall is_orth (X : tbt R) r A n, tb_ok X r -> (2 <= tb_order X)%nat -> tb_full X = Some A ->
  (is_orth = true -> forall m, node (ttree X) m -> active X m = true -> m <> r -> orth_cols (core X m)) -> node (ttree X) n -> active X n = true ->
  exists Y B, orth_at_node svd qr mrank pinv inv is_orth X n = Some Y /\ tb_ok Y r /\ ttree Y = ttree X /\
    (forall m, node (ttree X) m -> active Y m = active X m) /\
    (forall m, node (ttree X) m -> active X m = true -> m <> r -> (last (shape (core Y m)) 0 <= last (shape (core X m)) 0)%nat) /\
    tb_full Y = Some B /\ shape B = shape A /\ (forall is, valid (shape A) is -> get B is = get A is) /\
    (forall m, node (ttree X) m -> active X m = true -> m <> r -> (n <> r -> m <> n /\ m <> parent (ttree X) n) -> orth_cols (core Y m)) /\
    (n = r -> frob2 (core Y n) = frob2 A) /\
    (n <> r -> (exists is, valid (shape A) is /\ get A is <> 0) ->
       frame_at Y r A n /\ frob2 (core Y n) = frob2 A /\ (forall k, rank_at_most (shape A) (dims (ttree X) n) k (get A) -> (last (shape (core Y n)) 0 <= k)%nat)).
Proof.
  intros SVD QR RK PI IV IC is_orth X r A n O H2 HA HF Hn Ha. pose proof (proj1 O) as V. pose proof (proj1 V) as T.
  unfold orth_at_node. rewrite (root_eq _ r T). destruct (Nat.eqb_spec n r) as [->|NE].
  - destruct (tb_orth_ranks qr X r QR O) as (Y & EY & SV & AY & CY & DY). pose proof (proj1 SV) as OY. pose proof (proj1 (proj2 SV)) as TY.
    destruct (same_val_full X Y r A O H2 HA SV) as (B & HB & SB & GB). exists Y, B. split; auto. split; auto. split; auto. split; auto. split; [apply (orth_ranks' qr X Y r QR O EY)|]. split; auto. split; auto. split; auto. split; auto.
    split; [|intros; congruence]. intros _. assert (H2' : (2 <= tb_order Y)%nat) by (unfold tb_order; rewrite TY; exact H2).
    assert (HO : forall n, node (ttree Y) n -> active Y n = true -> n <> r -> orth_cols (core Y n)) by (rewrite TY; intros m Hm Hm' NEm; rewrite AY in Hm' by auto; auto).
    pose proof (orth_norm Y r OY H2' HO B HB) as E. unfold ft_norm2 in E. unfold frob2. etransitivity; [exact E|]. rewrite SB. apply bsum_ext_R. intros is Hi. rewrite GB by auto. reflexivity.
  - rewrite Ha. destruct (gram_one qr X r is_orth n QR O H2 HF Hn Ha NE) as (G & Z & EG & EZ & SV & AZ & CZ & HG). rewrite EG. cbn [bind fst snd nth].
    pose proof (proj1 SV) as OZ. pose proof (proj1 (proj2 SV)) as TZ.
    assert (RZ : forall m, node (ttree X) m -> active X m = true -> m <> r -> (last (shape (core Z m)) 0 <= last (shape (core X m)) 0)%nat).
    { destruct is_orth; [injection EZ as <-; auto|]. apply (orth_ranks' qr X Z r QR O EZ). }
    destruct (same_val_full X Z r A O H2 HA SV) as (B & HB & SB & GB).
    assert (H2' : (2 <= tb_order Z)%nat) by (unfold tb_order; rewrite TZ; exact H2).
    assert (Hn' : node (ttree Z) n) by (rewrite TZ; auto). assert (Ha' : active Z n = true) by (rewrite AZ; auto).
    assert (HO : forall n, node (ttree Z) n -> active Z n = true -> n <> r -> orth_cols (core Z n)) by (rewrite TZ; intros m Hm Hm' NEm; rewrite AZ in Hm' by auto; auto).
    assert (FB : frob2 B = frob2 A) by (unfold frob2; rewrite SB; apply bsum_ext_R; intros is Hi; rewrite GB by auto; auto).
    pose proof HG as (SG & W & FW & VG).
    destruct (orth_factors_spec svd SVD mrank RK pinv PI inv IV IC G (csize Z n) SG) as (a & LA & [(-> & E & Z0)|(Pa & L & Sm & E & SL & SS & E1 & E2)]).
    { intros i j Hi Hj. rewrite !VG by auto. apply gm_sym. }
    { intros v. pose proof (gm_psd Z r n W v) as Q. eapply Rle_trans; [exact Q|]. apply Req_le. apply rsum_ext_R. intros i Hi. apply rsum_ext_R. intros j Hj. rewrite VG by auto. auto. }
    + rewrite E. cbn [bind]. exists Z, B. split; auto. split; auto. split; auto. split; auto. split; auto. split; auto. split; auto. split; auto. split; [intros; apply CZ; auto|]. split; [intros; congruence|].
      intros _ (is & Hi & NZ). exfalso. apply NZ. pose proof (zn_frob Z r OZ H2' HO n G B HB Hn' Ha' NE HG) as Q. rewrite rsum_zero_R in Q by (intros; apply Z0; auto). unfold frob2 in Q.
      rewrite <- GB by auto. pose proof (HsvdP5.bsum_zero_iff_R (shape B) (fun is => get B is * get B is) (fun y _ => Rle_0_sqr (get B y)) Q is) as Q2. cbv beta in Q2. rewrite SB in Q2. specialize (Q2 Hi). apply Rmult_integral in Q2. tauto.
    + rewrite E. cbn [bind]. destruct (orth_node_main Z r OZ H2' HO n a G L Sm B HB Hn' Ha' NE Pa HG SL SS E1 E2) as (Y & EY & SVY & AY & CY & LY & PY & FY & NY & MY).
      rewrite TZ in EY, AY, CY, PY, MY. pose proof (same_val_trans X Z Y r SV SVY) as SVX. pose proof (proj1 SVX) as OY. pose proof (proj1 (proj2 SVX)) as TY.
      destruct (same_val_full X Y r A O H2 HA SVX) as (B' & HB' & SB' & GB'). exists Y, B'. split; [exact EY|]. split; auto. split; auto. split; [intros m Hm; rewrite AY, AZ; auto|]. split.
      { intros m Hm Hma Nm. destruct (Nat.eq_dec m n) as [->|N1].
        - rewrite LY. eapply Nat.le_trans; [exact LA|]. eapply Nat.le_trans; [|apply (RZ n Hm Hma Nm)]. unfold csize. rewrite Ha'. auto.
        - destruct (Nat.eq_dec m (parent (ttree X) n)) as [->|N2]; [rewrite PY by auto; auto|]. rewrite CY by auto. auto. }
      split; auto. split; auto. split; auto. split.
      { intros m Hm Hma Nm Q. destruct (Q NE) as [N1 N2]. rewrite CY by auto. auto. }
      split; [intros; congruence|]. intros _ _. rewrite <- FB. split; [|split; auto].
      * destruct FY as (w & F1 & F2). exists w. rewrite <- SB. change (ndim A) with (length (shape A)). rewrite <- SB. split; auto.
      * intros k Hk. rewrite LY. apply MY. destruct Hk as (fa & fb & Hk). exists fa, fb. intros is Hi. rewrite SB in *. rewrite GB by auto. auto.
Qed.
Lemma orth_at_node_inactive svd qr mrank pinv inv is_orth (X : tbt R) r n : tb_ok X r -> node (ttree X) n -> active X n = false -> orth_at_node svd qr mrank pinv inv is_orth X n = None.
Proof.
  intros O Hn Ha. unfold orth_at_node. rewrite (root_eq _ r (proj1 (proj1 O))). destruct (Nat.eqb_spec n r) as [->|]; [rewrite (ok_root X r O) in Ha; discriminate|]. rewrite Ha. auto.
Qed.
