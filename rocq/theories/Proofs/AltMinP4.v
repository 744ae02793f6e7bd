(** Alternating minimisation: one update. *)
From Coq Require Import List Arith Lia Bool Reals Lra.
From Verif.Base Require Import ListAux CRing Index RealAux LinAlg.
From Verif.Model Require Import Sorting Numpy FullTensor Diagonal Canonical DimensionTree TreeBased TreeEval Truncator HSVD HsvdTree OrthNode TreeGrad FuncGrad Learning AltMin.
From Verif.Spec Require Import TensorSpec TreeSpec TreeTensorSpec TruncatorSpec LearningSpec FunctionalSpec OrthNodeSpec GradSpec FuncGradSpec AltMinSpec.
From Verif.Proofs Require Import NumpyP FullTensorP DimTreeP TreeTensorP TreeTensorP3 TreeTensorP4 TreeTensorP7 TreeTensorP11 PolyP5 HsvdP2 TreeGradP9 FuncGradP2 FuncGradP3 AltMinP1 AltMinP2 AltMinP3.
Import ListNotations.
Local Open Scope R_scope.

Lemma bsum_zero_R s (f : list nat -> R) : (forall is, valid s is -> f is = 0) -> bsum s f = 0.
Proof. exact (bsum_zero s f). Qed.
Lemma bsum_single_R s k (f : list nat -> R) : valid s k -> (forall l, valid s l -> l <> k -> f l = 0) -> bsum s f = f k.
Proof. exact (bsum_single s k f). Qed.
Lemma node_range (X : tbt R) r n : tb_ok X r -> node (ttree X) n -> (1 <= n <= length (cores X))%nat.
Proof. intros (_ & E & _) Hn. rewrite E. exact Hn. Qed.
Lemma set_core_differs (Z : tbt R) r n C : tb_ok Z r -> node (ttree Z) n -> shape C = shape (core Z n) -> differs_at Z (TB (ttree Z) (setc n C (cores Z))) r n /\ core (TB (ttree Z) (setc n C (cores Z))) n = C.
Proof.
  intros O Hn SC. set (Y := TB _ _). pose proof (node_range Z r n O Hn) as HR.
  assert (E1 : core Y n = C) by (unfold core, Y; cbn [cores]; rewrite nthc_setc, Nat.eqb_refl by lia; auto).
  assert (E2 : forall m, (1 <= m)%nat -> m <> n -> core Y m = core Z m) by (intros m Hm NE; unfold core, Y; cbn [cores]; rewrite nthc_setc by lia; destruct (Nat.eqb_spec m n); [congruence|auto]).
  assert (E3 : forall m, (1 <= m)%nat -> shape (core Y m) = shape (core Z m)) by (intros m Hm; destruct (Nat.eq_dec m n) as [->|NE]; [rewrite E1; auto|rewrite E2; auto]).
  assert (E4 : forall m, (1 <= m)%nat -> active Y m = active Z m) by (intros m Hm; apply active_shape_eq; auto).
  split; auto. split; [|split; [auto|split; [rewrite E3 by lia; auto|]]].
  - destruct O as (V & LC & AR & HN). split; auto. split; [unfold Y; cbn [cores ttree]; rewrite setc_length; auto|]. assert (Hr : node (ttree Z) r) by apply (proj1 V).
    split; [rewrite E4; auto; apply Hr|]. intros m Hm. cbn [ttree Y] in *. destruct (HN m Hm) as (A1 & A2 & A3). assert (Hm1 : (1 <= m)%nat) by apply Hm.
    unfold exts, ndim. cbn [ttree Y]. rewrite E3, E4 by auto. split; auto. split; [exact A2|]. intros c Hc Hac. assert (Hc1 : (1 <= c)%nat) by apply Hc. rewrite E4 in Hac by auto. rewrite E3 by auto. apply A3; auto.
  - intros m Hm NE. apply E2; auto. apply Hm.
Qed.
Lemma differs_trans (Z Y W : tbt R) r n : differs_at Z Y r n -> differs_at Y W r n -> differs_at Z W r n.
Proof. intros (O1 & T1 & S1 & C1) (O2 & T2 & S2 & C2). split; auto. split; [congruence|]. split; [congruence|]. intros m Hm NE. rewrite C2 by (rewrite ?T1; auto). auto. Qed.
Lemma differs_refl (Z : tbt R) r n : tb_ok Z r -> differs_at Z Z r n.
Proof. intros O. split; auto. Qed.
Lemma value_same (X Z : tbt R) r Bs i e : same_val X Z r -> valid (exts X r) e -> value_at Z r Bs i e = value_at X r Bs i e.
Proof.
  intros (_ & T & S & E & H) He. unfold value_at. rewrite S. unfold tb_order. rewrite T. apply bsum_ext_R. intros js Hj. rewrite H by auto. reflexivity.
Qed.
Lemma risk_same (X Z : tbt R) r Bs y q : same_val X Z r -> risk Z r Bs y q = risk X r Bs y q.
Proof.
  intros SV. unfold risk. rewrite (proj1 (proj2 (proj2 (proj2 SV)))). apply rsum_ext_R. intros i _. apply bsum_ext_R. intros e He. rewrite (value_same X Z r Bs i e SV He). auto.
Qed.
Lemma same_format_trans (X Y Z : tbt R) r : same_format X Y r -> same_format Y Z r -> same_format X Z r.
Proof.
  intros (O1 & T1 & S1 & E1 & A1 & R1) (O2 & T2 & S2 & E2 & A2 & R2). split; auto. split; [congruence|]. split; [congruence|]. split; [congruence|]. split.
  - intros m Hm. rewrite A2 by (rewrite T1; auto). auto.
  - intros m Hm Ha NE. eapply Nat.le_trans; [apply R2|apply R1]; auto; [rewrite T1; auto|rewrite A1; auto].
Qed.

Section Step.
  Variable svd : nd R -> nd R * list R * nd R.
  Variable qr : nd R -> nd R * nd R.
  Variable mrank : nd R -> nat.
  Variable pinv : nd R -> nd R.
  Variable inv : nd R -> option (nd R).
  Hypothesis SVD : svd_contract svd.
  Hypothesis QR : qr_contract qr.
  Hypothesis RK : rank_contract mrank.
  Hypothesis PI : pinv_contract pinv.
  Hypothesis IV : inv_contract inv.
  Hypothesis IC : inv_complete inv.
  Variable L : lapack.
  Variable s : solver.
  Hypothesis LK : lapack_ok L.
  Hypothesis LZ : lstsq_zero L.
  Variables (r q : nat) (Bs : list (nd R)) (y : nd R).
  Hypothesis Hq : (0 < q)%nat.

  Lemma step_spec X fl mu : tb_ok X r -> (2 <= tb_order X)%nat -> few_inactive X -> siblings (ttree X) ->
    bases_ok X Bs q -> outputs_ok X r y q -> exts X r <> [1%nat] -> flag_right X r fl -> node (ttree X) mu -> active X mu = true ->
    exists b Y fl', am_step svd qr mrank pinv inv L s Bs y (X, fl) mu = Some (b, (Y, fl')) /\ same_format X Y r /\ flag_right Y r fl' /\
      risk Y r Bs y q <= risk X r Bs y q /\
      (b = false -> forall Y', differs_at Y Y' r mu -> risk Y r Bs y q <= risk Y' r Bs y q) /\
      (b = true -> same_val X Y r /\ forall Y', differs_at Y Y' r mu -> risk0 X r y q <= risk Y' r Bs y q).
  Proof.
    intros O H2 AA SB BO OO NE1 HF Hmu Amu. destruct (orth_step_spec svd qr mrank pinv inv SVD QR RK PI IV IC fl X r mu O H2 HF Hmu Amu) as (Z & EZ & SV & SF & HF' & ZZ).
    unfold am_step. rewrite EZ. cbn [bind]. set (fl' := orth_flag svd qr mrank pinv inv fl X mu) in *.
    pose proof SV as (OZ & TZ & SZ & EXZ & _). pose proof SF as (_ & _ & _ & _ & AZ & _).
    assert (FMZ : grad_format Z).
    { right. split; [|rewrite TZ; auto]. intros p c c'. rewrite TZ. intros E1 E2. rewrite !AZ by (apply E1 || apply E2). apply (AA p c c' E1 E2). }
    assert (AmuZ : active Z mu = true) by (rewrite AZ; auto). pose proof (ok_root Z r OZ) as ArZ.
    assert (H2' : (2 <= tb_order Z)%nat) by (unfold tb_order; rewrite TZ; exact H2).
    assert (BOZ : bases_ok Z Bs q) by (unfold bases_ok, tb_order in *; rewrite TZ, SZ; auto).
    assert (HmuZ : node (ttree Z) mu) by (rewrite TZ; auto). assert (Hr : node (ttree Z) r) by (apply (proj1 (proj1 OZ))).
    pose proof (root_eq _ r (proj1 (proj1 OZ))) as RE.
    assert (Hex : exts Z r = [] \/ exists d, exts Z r = [d]). { pose proof (ok_exts_root Z r OZ). destruct (exts Z r) as [|d [|? ?]]; [auto|right; eexists; auto|cbn in *; lia]. }
    assert (PP : forall m, active Z m = true -> (0 < prodn (shape (core Z m)))%nat) by (intros m Hm; pose proof (proj1 (active_prod Z m) Hm); lia).
    pose proof (PP r ArZ) as PR. rewrite (ok_shape Z r Hr ArZ), prodn_app in PR.
    assert (Ph : (0 < prodn (heads Z r))%nat) by nia. assert (Pe : (0 < prodn (exts Z r))%nat) by nia.
    assert (HyZ : shape y = q :: exts Z r \/ exts Z r = [] /\ shape y = [q; 1%nat]) by (rewrite EXZ; exact OO).
    assert (RD : tb_rank Z (root (ttree Z)) = prodn (exts Z r)). { rewrite (root_rank Z r OZ H2'). destruct Hex as [-> |[d ->]]; cbn; lia. }
    assert (RS : forall (Y' : tbt R) (F : nat -> list nat -> R), differs_at Z Y' r mu -> (forall i e, (i < q)%nat -> valid (exts Z r) e -> value_at Y' r Bs i e = F i e) ->
        risk Y' r Bs y q = rsum q (fun i => bsum (exts Z r) (fun e => (datum y i e - F i e) ^ 2))).
    { intros Y' F D HV. unfold risk. rewrite (y_exts Z r mu Y' r D Hr). apply rsum_ext_R. intros i Hi. apply bsum_ext_R. intros e He. rewrite HV; auto. }
    assert (R0 : risk0 X r y q = rsum q (fun i => bsum (exts Z r) (fun e => (datum y i e - 0) ^ 2))).
    { unfold risk0. rewrite <- EXZ. apply rsum_ext_R. intros i Hi. apply bsum_ext_R. intros e He. rewrite Rminus_0_r. auto. }
    assert (RXZ : risk Z r Bs y q = risk X r Bs y q) by (apply risk_same; auto).
    destruct (Nat.eq_dec mu r) as [->|NE].
    - (* the root *)
      destruct (ften_grad_root Z r q Bs OZ H2' FMZ Hq BOZ) as (G & EG & SG & VG). rewrite EG. cbn [bind]. unfold am_matrix. rewrite RE, Nat.eqb_refl. assert (NQ : nth 0 (shape G) 0%nat = q) by (rewrite SG; auto). rewrite NQ.
      destruct (root_solve L s LK q (heads Z r) (exts Z r) y Hq Hex Ph Pe HyZ G SG) as (A & c & C & E1 & E2 & E3 & E4 & E5 & E6).
      rewrite E1. cbn [bind negb]. rewrite E2. cbn [bind]. rewrite (ok_shape Z r Hr ArZ), E3. cbn [bind].
      assert (RV : forall Y', differs_at Z Y' r r -> risk Y' r Bs y q = rsum q (fun i => bsum (exts Z r) (fun e => (datum y i e - bsum (heads Z r) (fun ks => get G (i :: ks) * get (core Y' r) (ks ++ e))) ^ 2))).
      { intros Y' D. apply RS; auto. }
      destruct (all_zero c) eqn:EC.
      + exists true, Z, fl'. split; auto. split; auto. split; auto. split; [rewrite RXZ; apply Rle_refl|]. split; [discriminate|]. intros _. split; auto. intros Y' D. rewrite R0, (RV Y' D).
        eapply Rle_trans; [|apply (E6 (get (core Y' r)))]. apply Req_le. apply rsum_ext_R. intros i Hi. apply bsum_ext_R. intros e He. f_equal. f_equal. symmetry. apply bsum_zero_R.
        intros ks Hk. rewrite E5; auto; [ring|apply valid_app; auto].
      + destruct (set_core_differs Z r r C OZ Hr) as [DY CY]; [rewrite (ok_shape Z r Hr ArZ); auto|]. set (Y := TB (ttree Z) (setc r C (cores Z))) in *.
        exists false, Y, fl'. split; auto.
        assert (RY : risk Y r Bs y q = rsum q (fun i => bsum (exts Z r) (fun e => (datum y i e - bsum (heads Z r) (fun ks => get G (i :: ks) * get C (ks ++ e))) ^ 2))) by (rewrite (RV Y DY), CY; auto).
        assert (MIN : forall Y', differs_at Z Y' r r -> risk Y r Bs y q <= risk Y' r Bs y q) by (intros Y' D; rewrite RY, (RV Y' D); apply (E6 (get (core Y' r)))).
        split; [|split; [|split; [|split; [|discriminate]]]].
        * apply (same_format_trans X Z Y r SF). split; [apply DY|]. split; auto. split; [apply (y_shape Z r r OZ Y DY)|]. split; [apply (y_exts Z r r Y r DY Hr)|].
          assert (ES : forall m, node (ttree Z) m -> shape (core Y m) = shape (core Z m)) by (intros m Hm; destruct (Nat.eq_dec m r) as [->|N]; [apply DY|f_equal; apply DY; auto]).
          split; [intros m Hm; apply active_shape_eq; auto|]. intros m Hm _ _. rewrite ES; auto.
        * intros Efl m Hm Hma Nm. change (ttree Y) with (ttree Z) in Hm. rewrite (proj2 (proj2 (proj2 DY)) m Hm Nm). apply HF'; auto. rewrite <- Hma. apply active_shape_eq. f_equal. symmetry. apply (proj2 (proj2 (proj2 DY)) m Hm Nm).
        * rewrite <- RXZ. apply MIN. apply differs_refl; auto.
        * intros _ Y' D. apply MIN. apply (differs_trans Z Y Y'); auto.
    - assert (SA : siblings_above (ttree Z) mu) by (intros p c He _; rewrite TZ in *; apply SB; auto).
      destruct (ften_grad Z r mu q Bs OZ H2' FMZ HmuZ Hq BOZ SA AmuZ NE) as (G & EG & SG & VG); [rewrite EXZ; auto|]. rewrite EG. cbn [bind]. unfold am_matrix. rewrite RE in *. destruct (Nat.eqb_spec mu r); [congruence|]. cbn [negb]. assert (NQ : nth 0 (shape G) 0%nat = q) by (rewrite SG; auto). rewrite NQ.
      destruct (nonroot_solve L s LK q (shape (core Z mu)) (exts Z r) y Hq Hex (PP mu AmuZ) Pe HyZ G _ SG RD) as (A & c & C & E1 & E2 & E3 & E4 & E5 & E7 & E6).
      rewrite E1. cbn [bind]. rewrite E2. cbn [bind]. rewrite E3. cbn [bind].
      assert (RV : forall Y', differs_at Z Y' r mu -> risk Y' r Bs y q = rsum q (fun i => bsum (exts Z r) (fun e => (datum y i e - bsum (shape (core Z mu)) (fun ks => get G (i :: ks ++ e) * get (core Y' mu) ks)) ^ 2))).
      { intros Y' D. apply RS; auto. }
      destruct (all_zero c) eqn:EC.
      + exists true, Z, fl'. split; auto. split; auto. split; auto. split; [rewrite RXZ; apply Rle_refl|]. split; [discriminate|]. intros _. split; auto. intros Y' D. rewrite R0, (RV Y' D).
        eapply Rle_trans; [|apply (E6 (get (core Y' mu)))]. apply Req_le. apply rsum_ext_R. intros i Hi. apply bsum_ext_R. intros e He. f_equal. f_equal. symmetry. apply bsum_zero_R.
        intros ks Hk. rewrite (proj1 E5 eq_refl ks Hk). ring.
      + destruct (set_core_differs Z r mu C OZ HmuZ E4) as [DY CY]. set (Y := TB (ttree Z) (setc mu C (cores Z))) in *.
        assert (FL : fl' = false).
        { destruct fl' eqn:Efl; auto. exfalso. assert (Q : false = true); [|congruence]. apply E7; auto. intros is Hi. rewrite SG in Hi. destruct is as [|i ie]; [inversion Hi|]. assert (Hi' : (i < q)%nat /\ valid (shape (core Z mu) ++ exts Z r) ie) by (inversion Hi; auto). destruct Hi' as [Hiq Hie].
          destruct (valid_app_inv _ _ _ Hie) as (ks & e & -> & Hk & He). destruct (set_core_differs Z r mu (ND (shape (core Z mu)) (fun ls => if list_eqb ls ks then 1 else 0)) OZ HmuZ eq_refl) as [D' C'].
          pose proof (VG _ i e D' Hiq He) as Q. rewrite C' in Q. cbn [get] in Q.
          rewrite (bsum_single_R _ ks) in Q; auto.
          - rewrite (proj2 (list_eqb_spec ks ks) eq_refl), Rmult_1_r in Q. rewrite <- Q. unfold value_at. rewrite (y_shape Z r mu OZ _ D'). apply bsum_zero_R. intros js Hj. rewrite (ZZ NE eq_refl _ D'); auto. rcbn. ring.
          - intros ls _ Hne. destruct (list_eqb ls ks) eqn:El; [apply list_eqb_spec in El; congruence|]. rcbn. ring. }
        rewrite FL in *. exists false, Y, false. split; auto.
        assert (RY : risk Y r Bs y q = rsum q (fun i => bsum (exts Z r) (fun e => (datum y i e - bsum (shape (core Z mu)) (fun ks => get G (i :: ks ++ e) * get C ks)) ^ 2))) by (rewrite (RV Y DY), CY; auto).
        assert (MIN : forall Y', differs_at Z Y' r mu -> risk Y r Bs y q <= risk Y' r Bs y q) by (intros Y' D; rewrite RY, (RV Y' D); apply (E6 (get (core Y' mu)))).
        split; [|split; [|split; [|split; [|discriminate]]]].
        * apply (same_format_trans X Z Y r SF). split; [apply DY|]. split; auto. split; [apply (y_shape Z r mu OZ Y DY)|]. split; [apply (y_exts Z r mu Y r DY Hr)|].
          assert (ES : forall m, node (ttree Z) m -> shape (core Y m) = shape (core Z m)) by (intros m Hm; destruct (Nat.eq_dec m mu) as [->|N]; [apply DY|f_equal; apply DY; auto]).
          split; [intros m Hm; apply active_shape_eq; auto|]. intros m Hm _ _. rewrite ES; auto.
        * intros Efl. discriminate.
        * rewrite <- RXZ. apply MIN. apply differs_refl; auto.
        * intros _ Y' D. apply MIN. apply (differs_trans Z Y Y'); auto.
  Qed.
End Step.
