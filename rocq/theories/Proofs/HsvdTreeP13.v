(** hsvd of a tree-based tensor: the flag is_orth. *)
From Coq Require Import List Arith Lia Bool Reals Lra Permutation.
From Verif.Base Require Import ListAux CRing Index RealAux.
From Verif.Model Require Import Sorting Numpy FullTensor Diagonal Canonical DimensionTree TreeBased Truncator HSVD HsvdTree.
From Verif.Spec Require Import TensorSpec TreeSpec TreeTensorSpec TruncatorSpec.
From Verif.Proofs Require Import NumpyP FullTensorP FullTensorP3 FullTensorP4 DiagonalP DimTreeP DimTreeP2 TreeTensorP TreeTensorP2 TreeTensorP3 TreeTensorP4 TreeTensorP6 TreeTensorP7 TreeTensorP12 TreeTensorP13 TreeTensorP14 TreeTensorP15 TreeTensorP29 PolyP5 SpectralP LapackP EckartP FunctionalP4 MeasuresP TruncatorP TruncatorP2 TruncatorP3 TruncatorP4 TruncatorP5 HsvdP2 HsvdP3 HsvdP5 HsvdP7 HsvdP9 HsvdTreeP1 HsvdTreeP2 HsvdTreeP3 HsvdTreeP4 HsvdTreeP5 HsvdTreeP6 HsvdTreeP7 HsvdTreeP8 HsvdTreeP9 HsvdTreeP10 HsvdTreeP11 HsvdTreeP12.
Import ListNotations.
Local Open Scope R_scope.
Lemma orth1 (U : nd R) k : orthonormal k 1 (fun i c => get U [i; c]) -> rsum k (fun a => get U [a; 0%nat] * get U [a; 0%nat]) = 1.
Proof. intros H. apply (H 0%nat 0%nat); lia. Qed.
Theorem flag_wrong svd qr : svd_contract svd -> qr_contract qr ->
  exists A Y t' F v, tb_full flag_X = Some A /\ hsvd_tb svd qr 2 flag_t flag_X = Some (Y, true, t') /\ tb_full Y = Some F /\ tb_norm2 qr true Y = Some v /\ v = 25 /\ frob2 F <= 16.
Proof.
  intros SVD QR. pose proof flag_ok as O. assert (H2 : (2 <= tb_order flag_X)%nat) by (cbn; lia).
  destruct (full_returns flag_X 1 _ (fun is => tval flag_X 1 (firstn 3 is) []) O H2 eq_refl) as (A & HA & HsA & HgA).
  { intros is e Hi He. assert (e = []) by (inversion He; auto). subst e. rewrite app_nil_r. rewrite (valid_length _ _ Hi) at 1 || idtac. f_equal. symmetry. apply firstn_all2. rewrite (valid_length _ _ Hi). cbn. lia. }
  set (mr := repeat (Some 1%nat) 5).
  assert (Ht : thresholding_parameter flag_t = None \/ thresholding_parameter flag_t = Some 0) by (left; reflexivity).
  assert (Hmr : Forall (fun m => m <> Some 0%nat) mr) by (unfold mr; cbn [repeat]; repeat (apply Forall_cons; [discriminate|]); apply Forall_nil).
  destruct (hsvd_tb2 svd qr SVD QR flag_X 1 flag_t mr O H2 Ht eq_refl eq_refl Hmr) as (Z & F & kk & l & t' & EZ & SV & AZ & CZ & DZ & HF & EL & EH).
  destruct (hsvd_tb_main svd qr SVD QR 2 flag_X 1 flag_t mr A (or_intror eq_refl) O H2 HA Ht eq_refl eq_refl Hmr) as (Y & b & t2 & G & EH2 & _ & OY & HG & SG & _).
  rewrite EH in EH2. inversion EH2; subst Y b t2. clear EH2.
  set (Y := TB (ttree flag_X) l) in *. exists A, Y, t', G.
  pose proof (proj1 SV) as OZ. pose proof (proj1 (proj2 SV)) as TZ. cbn [flag_X ttree] in *.
  assert (NN : forall n, (1 <= n <= 5)%nat -> node flag_tree n) by (intros n Hn; unfold node; cbn; lia).
  assert (AX : forall n, (1 <= n <= 5)%nat -> active flag_X n = true) by (intros n Hn; destruct n as [|[|[|[|[|[|n]]]]]]; try lia; reflexivity).
  assert (AZ' : forall n, (1 <= n <= 5)%nat -> active Z n = true) by (intros n Hn; rewrite AZ by (apply NN; auto); auto).
  assert (FZ : filter (active Z) (hsvd_nodes flag_tree) = [4; 5; 2; 3]%nat).
  { change (hsvd_nodes flag_tree) with [4; 5; 2; 3]%nat. cbn [filter]. rewrite !AZ' by lia. reflexivity. }
  rewrite FZ in EL.
  assert (HF' : forall n, (2 <= n <= 5)%nat -> shape (F n) = [csize Z n; 1%nat] /\ kk n = 1%nat /\ rsum (csize Z n) (fun a => get (F n) [a; 0%nat] * get (F n) [a; 0%nat]) = 1).
  { intros n Hn. destruct (HF n) as (S1 & K1 & O1 & K2); [split; [apply NN; lia|]; split; [apply AX; lia|lia]|].
    unfold mr in K2. rewrite nth_repeat_in in K2 by lia. assert (EK : kk n = 1%nat) by lia. rewrite EK in S1, O1. split; auto. split; auto. apply orth1. auto. }
  assert (C1 : forall n, (2 <= n <= 3)%nat -> csize Z n = 1%nat).
  { intros n Hn. destruct (HF' n ltac:(lia)) as (_ & _ & N1). pose proof (DZ n (NN n ltac:(lia)) ltac:(lia)) as D.
    assert (csize flag_X n = 1%nat) by (assert (Hn' : n = 2%nat \/ n = 3%nat) by lia; destruct Hn' as [-> | ->]; reflexivity).
    destruct (csize Z n) as [|[|k]]; auto; [|lia]. exfalso. cbn [rsum] in N1. revert N1. rcbn. lra. }
  set (u := fun n => get (F n) [0; 0]%nat).
  assert (U1 : forall n, (2 <= n <= 3)%nat -> u n * u n = 1).
  { intros n Hn. destruct (HF' n ltac:(lia)) as (_ & _ & N1). rewrite (C1 n Hn) in N1. cbn [rsum] in N1. revert N1. rcbn. unfold u. lra. }
  (* the shapes of the cores of Z *)
  assert (SZ1 : shape (core Z 1) = [1; 1]%nat).
  { rewrite (ok_shape Z 1) by (rewrite ?TZ; first [apply NN; lia|apply AZ'; lia]). rewrite (heads_internal Z 1 OZ 1), TZ by (rewrite ?TZ; first [reflexivity|apply NN; lia]). change (children flag_tree 1) with [2; 3]%nat. cbn [map].
    rewrite !C1 by lia. rewrite (proj1 (proj2 (proj2 (proj2 SV)))). reflexivity. }
  (* the root core *)
  assert (LZ : length (cores Z) = 5%nat) by (rewrite (ok_cores_length Z 1 OZ), TZ; reflexivity).
  assert (R1 : shape (nthc l 1) = [1; 1]%nat /\ get (nthc l 1) [0; 0]%nat = u 3%nat * (u 2%nat * get (core Z 1) [0; 0]%nat)).
  { cbn [ofold] in EL. destruct (hsvd_mult flag_tree (F 4%nat) (cores Z) 4) as [l1|] eqn:E1; cbn [bind] in EL; [|discriminate].
    destruct (hsvd_mult flag_tree (F 5%nat) l1 5) as [l2|] eqn:E2; cbn [bind] in EL; [|discriminate].
    destruct (hsvd_mult flag_tree (F 2%nat) l2 2) as [l3|] eqn:E3; cbn [bind] in EL; [|discriminate].
    destruct (hsvd_mult flag_tree (F 3%nat) l3 3) as [l4|] eqn:E4; cbn [bind] in EL; [|discriminate]. inversion EL; subst l4. clear EL.
    destruct (mult_root _ _ _ _ E1 ltac:(lia) LZ) as (L1 & M1 & _). destruct (mult_root _ _ _ _ E2 ltac:(lia) L1) as (L2 & M2 & _).
    destruct (mult_root _ _ _ _ E3 ltac:(lia) L2) as (L3 & _ & M3). destruct (mult_root _ _ _ _ E4 ltac:(lia) L3) as (L4 & _ & M4).
    destruct (M3 ltac:(lia)) as (Ut & T1 & T2). destruct (M4 ltac:(lia)) as (Vt & T3 & T4). rewrite M2, M1 in T2 by lia.
    destruct (HF' 2%nat ltac:(lia)) as (SF2 & _ & _). rewrite C1 in SF2 by lia. destruct (HF' 3%nat ltac:(lia)) as (SF3 & _ & _). rewrite C1 in SF3 by lia.
    destruct (tmp11 _ _ _ _ 0%nat SZ1 SF2 T1 Nat.lt_0_2 T2) as (S3 & G3). destruct (tmp11 _ _ _ _ 1%nat S3 SF3 T3 Nat.lt_1_2 T4) as (S4 & G4). split; auto. rewrite G4, G3. reflexivity. }
  (* the norm of the tensor *)
  assert (NA : get (core Z 1) [0; 0]%nat * get (core Z 1) [0; 0]%nat = 25).
  { destruct (same_val_full flag_X Z 1 A O H2 HA SV) as (B & HB & HsB & HgB).
    assert (H2' : (2 <= tb_order Z)%nat) by (unfold tb_order; rewrite TZ; exact H2).
    assert (HO : forall n, node (ttree Z) n -> active Z n = true -> n <> 1%nat -> orth_cols (core Z n)) by (rewrite TZ; intros n Hn Ha NE; rewrite AZ in Ha by auto; auto).
    pose proof (orth_norm Z 1 OZ H2' HO B HB) as N. unfold ft_norm2 in N. rewrite SZ1, HsB, HsA in N. cbn [bsum rsum] in N.
    transitivity (bsum [2; 2; 1]%nat (fun is => get B is * get B is)); [etransitivity; [|exact N]; rcbn; ring|].
    rewrite (bsum_ext_R _ _ (fun is => tval flag_X 1 is [] * tval flag_X 1 is [])).
    - cbn [bsum rsum]. rcbn. rewrite !flag_A by lia. cbn [Nat.eqb]. ring.
    - intros is Hi. rewrite HgB by (rewrite HsA; exact Hi). rewrite HgA by exact Hi. rewrite firstn_all2; auto. rewrite (valid_length _ _ Hi). cbn. lia. }
  exists 25. split; [auto|]. split; [auto|]. split; [auto|]. split; [|split; [auto|]].
  - unfold tb_norm2. cbn [bind]. f_equal. change (root (ttree Y)) with 1%nat. unfold ft_norm2. change (core Y 1) with (nthc l 1). rewrite (proj1 R1). cbn [bsum rsum]. rewrite (proj2 R1). rcbn.
    pose proof (U1 2%nat ltac:(lia)) as P2. pose proof (U1 3%nat ltac:(lia)) as P3.
    transitivity ((u 3%nat * u 3%nat) * ((u 2%nat * u 2%nat) * (get (core Z 1) [0; 0]%nat * get (core Z 1) [0; 0]%nat))); [ring|]. rewrite P2, P3, NA. ring.
  - destruct (mult_fold F kk [4; 5; 2; 3]%nat Z 1 OZ) as (l' & El' & _ & _ & SVY).
    { repeat (apply NoDup_cons; [cbn; lia|]). apply NoDup_nil. }
    { intros n Hn. assert (Hn' : (2 <= n <= 5)%nat) by (cbn in Hn; lia). destruct (HF' n Hn') as (S1 & K1 & _). rewrite TZ. split; [apply NN; lia|]. split; [apply AZ'; lia|]. split; [lia|]. rewrite K1. split; [auto|lia]. }
    rewrite TZ in El', SVY. rewrite EL in El'. inversion El'; subst l'. clear El'.
    specialize (SVY (fun _ => None) (fun m Q E => ltac:(discriminate)) (fun _ _ => eq_refl)). change (TB flag_tree l) with Y in SVY. rewrite (insm_none Y 1 OY) in SVY.
    set (W := insm (addL F kk (fun _ => None) [4; 5; 2; 3]%nat) Z) in *. destruct SVY as (_ & TY & SY & EY & VY).
    assert (SW : forall n, (1 <= n <= 5)%nat -> shape (core W n) = shape (core Z n)) by (intros n Hn; apply (insm_shape Z _ n); rewrite TZ; apply NN; auto).
    assert (AW : forall n, (1 <= n <= 5)%nat -> active W n = true) by (intros n Hn; rewrite (active_shape_eq W Z n n) by (apply SW; auto); auto).
    assert (CW : forall n, (1 <= n <= 5)%nat -> csize W n = csize Z n) by (intros n Hn; unfold csize; rewrite (AW n Hn), (AZ' n Hn), (SW n Hn); reflexivity).
    assert (OW : tb_ok W 1) by (apply (insm_ok Z 1 OZ)).
    assert (SHW : tb_shape W = [2; 2; 1]%nat /\ exts W 1 = []).
    { split.
      - transitivity (tb_shape Z); [|rewrite (proj1 (proj2 (proj2 SV))); reflexivity]. unfold tb_shape. change (ttree W) with (ttree Z). rewrite TZ. change (d2i flag_tree) with [4; 5; 3]%nat. cbn [map]. assert (TS : forall n, (1 <= n <= 5)%nat -> tb_size W n = tb_size Z n) by (intros n Hn; unfold tb_size; rewrite (AW n Hn), (AZ' n Hn), (SW n Hn); reflexivity). rewrite !TS by lia. reflexivity.
      - pose proof (proj1 (proj2 (proj2 (proj2 SV)))) as E. transitivity (exts Z 1); [|rewrite E; reflexivity]. unfold exts. rewrite SW by lia. reflexivity. }
    destruct SHW as (SHW & EXW).
    destruct (full_inv Y 1 G OY H2 HG) as (SG' & VG). rewrite SY, SHW, EY, EXW in SG', VG.
    set (q4 := fun i a => get (core Z 4) [i; a]). set (q5 := fun i a => get (core Z 5) [i; a]). set (c := fun a b => get (core Z 2) [a; b; 0%nat]).
    set (m := get (core Z 1) [0; 0]%nat * get (core Z 3) [0; 0]%nat).
    assert (SZn : forall n d, (4 <= n <= 5)%nat -> n = nth d (d2i flag_tree) 0%nat -> (d < 2)%nat -> shape (core Z n) = [2%nat; csize Z n]).
    { intros n d Hn En Hd. assert (Hl : is_leaf (ttree Z) n = true) by (rewrite TZ, En; destruct d as [|[|d]]; [reflexivity|reflexivity|lia]).
      rewrite (ok_shape Z n) by (rewrite ?TZ; first [apply NN; lia|apply AZ'; lia]). rewrite (heads_leaf Z 1 OZ n Hl) by (apply AZ'; lia).
      rewrite (ok_exts_rank Z 1 OZ n) by (rewrite ?TZ; first [apply NN; lia|apply AZ'; lia|lia]). unfold csize. rewrite AZ' by lia. cbn [app]. f_equal.
      pose proof (tb_shape_leaf Z n Hl) as TS. rewrite (proj1 (proj2 (proj2 SV))), TZ in TS. unfold tb_size in TS. rewrite AZ' in TS by lia. rewrite <- TS, En. destruct d as [|[|d]]; [reflexivity|reflexivity|lia]. }
    assert (O4 : orthonormal 2 (csize Z 4) q4).
    { intros a b Ha Hb. pose proof (CZ 4%nat (NN 4%nat ltac:(lia)) (AX 4%nat ltac:(lia)) ltac:(lia) a b) as E. rewrite (SZn 4%nat 0%nat ltac:(lia) eq_refl ltac:(lia)) in E. specialize (E Ha Hb). cbn [removelast bsum app] in E. exact E. }
    assert (O5 : orthonormal 2 (csize Z 5) q5).
    { intros a b Ha Hb. pose proof (CZ 5%nat (NN 5%nat ltac:(lia)) (AX 5%nat ltac:(lia)) ltac:(lia) a b) as E. rewrite (SZn 5%nat 1%nat ltac:(lia) eq_refl ltac:(lia)) in E. specialize (E Ha Hb). cbn [removelast bsum app] in E. exact E. }
    destruct (HF' 4%nat ltac:(lia)) as (_ & K4 & U4). destruct (HF' 5%nat ltac:(lia)) as (_ & K5 & U5).
    pose proof (flag_alg (csize Z 4) (csize Z 5) q4 q5 c (fun a => get (F 4%nat) [a; 0%nat]) (fun a => get (F 5%nat) [a; 0%nat]) m O4 O5 U4 U5) as ALG. cbv beta in ALG.
    assert (CI : forall n ks k, (2 <= n <= 5)%nat -> get (core W n) (ks ++ [k]) = rsum (csize Z n) (fun l => get (core Z n) (ks ++ [l]) * (get (F n) [l; 0%nat] * get (F n) [k; 0%nat]))).
    { intros n ks k Hn. unfold W. rewrite (insm_core Z _ n) by (rewrite TZ; apply NN; lia). unfold addL. assert (EI : inb n [4; 5; 2; 3]%nat = true) by (apply inb_spec; cbn; lia). rewrite EI, insc_get. unfold csize. rewrite (AZ' n) by lia.
      apply rsum_ext_R. intros a _. unfold qf. destruct (HF' n Hn) as (_ & K & _). rewrite K. cbn [rsum]. rcbn. ring. }
    unfold frob2. rewrite SG', app_nil_r.
    rewrite (bsum_ext_R _ _ (fun is => tval W 1 is [] * tval W 1 is [])).
    2:{ intros is Hi. pose proof (VG is [] Hi (Forall2_nil _)) as E. rewrite app_nil_r in E. rewrite E. rewrite VY; auto; [rewrite SHW; auto|rewrite EXW; apply Forall2_nil]. }
    eapply Rle_trans; [|apply ALG].
    + apply Req_le. cbn [bsum]. apply rsum_ext_R. intros i Hi. apply rsum_ext_R. intros j Hj. cbn [rsum]. rcbn. rewrite Rplus_0_l.
      assert (EV : tval W 1 [i; j; 0%nat] [] = m * rsum (csize Z 4) (fun a => rsum (csize Z 5) (fun b => c a b * (rsum (csize Z 4) (fun l0 => q4 i l0 * get (F 4%nat) [l0; 0%nat]) * get (F 4%nat) [a; 0%nat] * (rsum (csize Z 5) (fun l0 => q5 j l0 * get (F 5%nat) [l0; 0%nat]) * get (F 5%nat) [b; 0%nat]))))).
      { rewrite (flag_tval W (csize Z 4) (csize Z 5) i j); auto; try (rewrite CW by lia; auto; apply C1; lia).
        assert (E1 : core W 1 = core Z 1) by (unfold W; rewrite (insm_core Z _ 1) by (rewrite TZ; apply NN; lia); reflexivity).
        assert (E3 : get (core W 3) [0; 0]%nat = get (core Z 3) [0; 0]%nat).
        { change [0; 0]%nat with ([0] ++ [0])%nat. rewrite CI, C1 by lia. cbn [rsum]. pose proof (U1 3%nat ltac:(lia)) as P3. unfold u in P3. rcbn. rewrite P3. ring. }
        rewrite E1, E3. f_equal. apply rsum_ext_R. intros a Ha. apply rsum_ext_R. intros b Hb.
        change [a; b; 0%nat] with ([a; b] ++ [0%nat]). change [i; a] with ([i] ++ [a]). change [j; b] with ([j] ++ [b]). rewrite !CI by lia. rewrite C1 by lia. cbn [rsum app].
        pose proof (U1 2%nat ltac:(lia)) as P2. unfold u in P2. rcbn. rewrite P2.
        rewrite (rsum_ext_R (csize Z 4) (fun l0 => get (core Z 4) [i; l0] * (get (F 4%nat) [l0; 0%nat] * get (F 4%nat) [a; 0%nat])) (fun l0 => (q4 i l0 * get (F 4%nat) [l0; 0%nat]) * get (F 4%nat) [a; 0%nat])) by (intros; unfold q4; ring).
        rewrite (rsum_ext_R (csize Z 5) (fun l0 => get (core Z 5) [j; l0] * (get (F 5%nat) [l0; 0%nat] * get (F 5%nat) [b; 0%nat])) (fun l0 => (q5 j l0 * get (F 5%nat) [l0; 0%nat]) * get (F 5%nat) [b; 0%nat])) by (intros; unfold q5; ring).
        rewrite !rsum_scal_r_R. unfold c. ring. }
      rewrite EV. reflexivity.
    + intros i j Hi Hj. rewrite <- (flag_A i j Hi Hj). assert (Hv : valid (tb_shape flag_X) [i; j; 0%nat]) by (change (tb_shape flag_X) with [2; 2; 1]%nat; apply Forall2_cons; [lia|]; apply Forall2_cons; [lia|]; apply Forall2_cons; [lia|]; apply Forall2_nil).
      rewrite <- (proj2 (proj2 (proj2 (proj2 SV))) [i; j; 0%nat] [] Hv (Forall2_nil _)).
      rewrite (flag_tval Z (csize Z 4) (csize Z 5) i j); auto; apply C1; lia.
Qed.
(** the corollaries of hsvd_tb_main for one result *)
Section Cor.
  Variable svd : nd R -> nd R * list R * nd R.
  Variable qr : nd R -> nd R * nd R.
  Hypothesis SVD : svd_contract svd.
  Hypothesis QR : qr_contract qr.
  Lemma hsvd_tb_props ty X r t mr A : ty = 1%nat \/ ty = 2%nat -> tb_ok X r -> (2 <= tb_order X)%nat -> tb_full X = Some A ->
    thresholding_parameter t = None \/ thresholding_parameter t = Some 0 ->
    mr = match max_rank t with [m] => repeat m (nbn (ttree X)) | l => l end -> length mr = nbn (ttree X) -> Forall (fun m => m <> Some 0%nat) mr ->
    exists Y b t' F, hsvd_tb svd qr ty t X = Some (Y, b, t') /\ ttree Y = ttree X /\ tb_ok Y r /\ tb_full Y = Some F /\ shape F = shape A /\
      (forall n, node (ttree X) n -> active Y n = active X n) /\
      (forall n, node (ttree X) n -> n <> r -> active X n = true -> match nth (n - 1) mr None with Some m => (last (shape (core Y n)) 0 <= m)%nat | None => True end) /\
      ((forall n, node (ttree X) n -> n <> r -> nth (n - 1) mr None = None) -> err2 A (get F) <= tolerance t * tolerance t * frob2 A) /\
      ((forall n, node (ttree X) n -> n <> r -> nth (n - 1) mr None = None) -> tolerance t = 0 -> forall is, valid (shape A) is -> get F is = get A is).
  Proof.
    intros Hty O H2 HA Ht Emr Lmr Hmr. destruct (hsvd_tb_main svd qr SVD QR ty X r t mr A Hty O H2 HA Ht Emr Lmr Hmr) as (Y & b & t' & F & E1 & E2 & E3 & E4 & E5 & E6 & E7 & E8 & _).
    exists Y, b, t', F. do 8 (split; [assumption|]). intros HN T0. apply err2_zero. pose proof (E8 HN) as E9. rewrite T0, !Rmult_0_l in E9. pose proof (err2_nonneg A (get F)). lra.
  Qed.
  Lemma hsvd_tb_best ty X r t mr A Y b t' F : ty = 1%nat \/ ty = 2%nat -> tb_ok X r -> (2 <= tb_order X)%nat -> tb_full X = Some A ->
    thresholding_parameter t = None \/ thresholding_parameter t = Some 0 ->
    mr = match max_rank t with [m] => repeat m (nbn (ttree X)) | l => l end -> length mr = nbn (ttree X) -> Forall (fun m => m <> Some 0%nat) mr ->
    hsvd_tb svd qr ty t X = Some (Y, b, t') -> tb_full Y = Some F ->
    forall f, (forall n, node (ttree X) n -> n <> r -> active X n = true -> rank_at_most (shape A) (dims (ttree X) n) (last (shape (core Y n)) 0%nat) f) ->
    err2 A (get F) <= INR (count_occ bool_dec (map (active X) (nodes (ttree X))) true - 1) * err2 A f.
  Proof.
    intros Hty O H2 HA Ht Emr Lmr Hmr EY EF f Hf. destruct (hsvd_tb_main svd qr SVD QR ty X r t mr A Hty O H2 HA Ht Emr Lmr Hmr) as (Y' & b' & t2 & F' & E1 & E2 & E3 & E4 & E5 & E6 & E7 & E8 & E9 & _).
    rewrite EY in E1. inversion E1; subst. rewrite EF in E4. inversion E4; subst. apply E9. exact Hf.
  Qed.
  Lemma hsvd_tb_best_tree ty X r t mr A Y b t' F : ty = 1%nat \/ ty = 2%nat -> tb_ok X r -> (2 <= tb_order X)%nat -> tb_full X = Some A ->
    thresholding_parameter t = None \/ thresholding_parameter t = Some 0 ->
    mr = match max_rank t with [m] => repeat m (nbn (ttree X)) | l => l end -> length mr = nbn (ttree X) -> Forall (fun m => m <> Some 0%nat) mr ->
    hsvd_tb svd qr ty t X = Some (Y, b, t') -> tb_full Y = Some F ->
    forall W G, tb_ok W r -> ttree W = ttree X -> tb_full W = Some G -> shape G = shape A ->
    (forall n, node (ttree X) n -> n <> r -> active X n = true -> active W n = true /\ (last (shape (core W n)) 0 <= last (shape (core Y n)) 0)%nat) ->
    err2 A (get F) <= INR (count_occ bool_dec (map (active X) (nodes (ttree X))) true - 1) * err2 A (get G).
  Proof.
    intros Hty O H2 HA Ht Emr Lmr Hmr EY EF W G OW EW HG SG HK. apply (hsvd_tb_best ty X r t mr A Y b t' F); auto.
    intros n Hn NE Ha. destruct (HK n Hn NE Ha) as [Ha' Hle]. rewrite <- SG, <- EW. apply (rank_le_mono _ _ (last (shape (core W n)) 0%nat)); auto. apply (tree_rank W r OW G n); auto.
    - unfold tb_order. rewrite EW. auto.
    - rewrite EW. auto.
  Qed.
  Lemma hsvd_tb_state X r t mr A m Y b t' : tb_ok X r -> (2 <= tb_order X)%nat -> tb_full X = Some A ->
    thresholding_parameter t = None \/ thresholding_parameter t = Some 0 ->
    mr = match max_rank t with [m] => repeat m (nbn (ttree X)) | l => l end -> length mr = nbn (ttree X) -> Forall (fun m => m <> Some 0%nat) mr ->
    max_rank t = [m] -> hsvd_tb svd qr 2 t X = Some (Y, b, t') -> t' = t.
  Proof.
    intros O H2 HA Ht Emr Lmr Hmr Em EY. destruct (hsvd_tb_main svd qr SVD QR 2 X r t mr A (or_intror eq_refl) O H2 HA Ht Emr Lmr Hmr) as (Y' & b' & t2 & F' & E1 & _ & _ & _ & _ & _ & _ & _ & _ & E9).
    rewrite EY in E1. inversion E1; subst. destruct (E9 eq_refl) as [_ E]. apply (E m Em).
  Qed.
End Cor.
