(** hsvd of a tree-based tensor: the whole function. *)
From Coq Require Import List Arith Lia Bool Reals Lra Permutation.
From Verif.Base Require Import ListAux CRing Index RealAux.
From Verif.Model Require Import Sorting Numpy FullTensor Diagonal Canonical DimensionTree TreeBased Truncator HSVD HsvdTree.
From Verif.Spec Require Import TensorSpec TreeSpec TreeTensorSpec TruncatorSpec.
From Verif.Proofs Require Import NumpyP FullTensorP FullTensorP3 FullTensorP4 DiagonalP DimTreeP DimTreeP2 TreeTensorP TreeTensorP2 TreeTensorP3 TreeTensorP4 TreeTensorP6 TreeTensorP7 TreeTensorP12 TreeTensorP13 TreeTensorP14 TreeTensorP15 TreeTensorP29 PolyP5 SpectralP LapackP EckartP FunctionalP4 MeasuresP TruncatorP TruncatorP2 TruncatorP3 TruncatorP4 TruncatorP5 HsvdP2 HsvdP3 HsvdP5 HsvdP7 HsvdP9 HsvdTreeP1 HsvdTreeP2 HsvdTreeP3 HsvdTreeP4 HsvdTreeP5 HsvdTreeP6 HsvdTreeP7 HsvdTreeP8 HsvdTreeP9 HsvdTreeP10.
Import ListNotations.
Local Open Scope R_scope.

Section Whole.
  Variable svd : nd R -> nd R * list R * nd R.
  Variable qr : nd R -> nd R * nd R.
  Hypothesis SVD : svd_contract svd.
  Hypothesis QR : qr_contract qr.
  Variables (ty : nat) (X : tbt R) (r : nat) (t : truncator) (mr : list (option nat)) (A : nd R).
  Hypothesis Hty : ty = 1%nat \/ ty = 2%nat.
  Hypothesis O : tb_ok X r.
  Hypothesis H2 : (2 <= tb_order X)%nat.
  Hypothesis HA : tb_full X = Some A.
  Hypothesis Ht : thresholding_parameter t = None \/ thresholding_parameter t = Some 0.
  Local Notation tr := (ttree X).
  Hypothesis Emr : mr = match max_rank t with [m] => repeat m (nbn tr) | l => l end.
  Hypothesis Lmr : length mr = nbn tr.
  Hypothesis Hmr : Forall (fun m => m <> Some 0%nat) mr.
  Let V : dim_tree tr r := proj1 O.
  Let T : rooted_tree tr r := proj1 V.
  Definition acts : nat := (count_occ bool_dec (map (active X) (nodes tr)) true - 1)%nat.
  Lemma nact_len : length (filter (active X) (hsvd_nodes tr)) = acts.
  Proof.
    unfold acts. rewrite <- (nact_count tr r _ V).
    - unfold nact. f_equal. apply filter_ext_in. intros n Hn. apply (in_hsvd_nodes tr r T) in Hn. destruct Hn as [Hn _]. unfold node in Hn. unfold nodes.
      rewrite map_nth_in with (da := 0%nat) by (rewrite seq_length; lia). rewrite seq_nth by lia. f_equal. lia.
    - unfold nodes. rewrite map_length, seq_length. auto.
    - pose proof (proj1 T) as Hr. unfold node in Hr. unfold nodes. rewrite map_nth_in with (da := 0%nat) by (rewrite seq_length; lia). rewrite seq_nth by lia. replace (1 + (r - 1))%nat with r by lia. apply (ok_root X r O).
  Qed.
  Theorem hsvd_tb_main : exists Y b t' F, hsvd_tb svd qr ty t X = Some (Y, b, t') /\ ttree Y = tr /\ tb_ok Y r /\ tb_full Y = Some F /\ shape F = shape A /\
    (forall n, node tr n -> active Y n = active X n) /\
    (forall n, node tr n -> n <> r -> active X n = true -> match nth (n - 1) mr None with Some m => (last (shape (core Y n)) 0 <= m)%nat | None => True end) /\
    ((forall n, node tr n -> n <> r -> nth (n - 1) mr None = None) -> err2 A (get F) <= tolerance t * tolerance t * frob2 A) /\
    (forall f, (forall n, node tr n -> n <> r -> active X n = true -> rank_at_most (shape A) (dims tr n) (last (shape (core Y n)) 0%nat) f) -> err2 A (get F) <= INR acts * err2 A f) /\
    (ty = 2%nat -> b = true /\ forall m, max_rank t = [m] -> t' = t).
  Proof.
    destruct (tb_orth_spec qr X r QR O) as (Z & EZ & SV & AZ & CZ). pose proof (proj1 SV) as OZ. pose proof (proj1 (proj2 SV)) as TZ.
    assert (H2' : (2 <= tb_order Z)%nat) by (unfold tb_order; rewrite TZ; exact H2).
    assert (HO : forall n, node (ttree Z) n -> active Z n = true -> n <> r -> orth_cols (core Z n)) by (rewrite TZ; intros n Hn Ha NE; rewrite AZ in Ha by auto; auto).
    destruct (gramians_all qr Z r OZ H2' HO) as (g & Eg & Lg & G0 & G1' & G2'). rewrite TZ in Lg, G1', G2'.
    assert (G1 : forall m, node tr m -> m <> r -> active X m = true -> exists G, nth (m - 1) g None = Some G /\ good Z r m G) by (intros m Hm NE Ha; apply G1'; auto; rewrite AZ; auto).
    assert (G2 : forall m, node tr m -> m <> r -> active X m = false -> nth (m - 1) g None = None) by (intros m Hm NE Ha; apply G2'; auto; rewrite AZ; auto).
    set (mrs := hsvd_max_rank t tr). set (ltol := hsvd_tol t (map (active X) (nodes tr))).
    set (F := Fn svd X t Z g). set (kk := kkn svd X t Z g).
    assert (FR : forall n t', okn X r n -> thresholding_parameter t' = None \/ thresholding_parameter t' = Some 0 -> hsvd_frame svd t' mrs ltol g n = Some (set_max_rank t' (nth (n - 1) mrs None), F n)).
    { intros n t' Hn Ht'. apply (frame_n svd X r t mr H2 Emr Lmr Z g G1 n t' Hn Ht'). }
    assert (ANY : forall L, NoDup L -> (forall n, In n L <-> okn X r n) -> exists l, ofold (fun l n => hsvd_mult tr (F n) l n) L (cores Z) = Some l /\
      tb_ok (TB tr l) r /\ (forall m, node tr m -> active (TB tr l) m = active X m) /\ tb_shape (TB tr l) = tb_shape X /\ exts (TB tr l) r = exts X r /\
      (forall m, okn X r m -> csize (TB tr l) m = kk m) /\ tdist Z r (tval Z r) (tval (TB tr l) r) <= lsum (filter (active Z) (hsvd_nodes tr)) (nerr Z (fun n i j => get (gn g n) [i; j]) (fun n i c => get (F n) [i; c]) kk)).
    { intros L ND HL. apply (mult_any svd SVD X r t mr O H2 Ht Emr Lmr Hmr Z SV AZ CZ g G1 L ND HL). }
    assert (POST : forall l, tb_ok (TB tr l) r -> (forall m, node tr m -> active (TB tr l) m = active X m) -> tb_shape (TB tr l) = tb_shape X -> exts (TB tr l) r = exts X r ->
      (forall m, okn X r m -> csize (TB tr l) m = kk m) -> tdist Z r (tval Z r) (tval (TB tr l) r) <= lsum (filter (active Z) (hsvd_nodes tr)) (nerr Z (fun n i j => get (gn g n) [i; j]) (fun n i c => get (F n) [i; c]) kk) ->
      tb_make l tr = Some (TB tr l) /\ exists F, tb_full (TB tr l) = Some F /\ shape F = shape A /\
      (forall n, node tr n -> n <> r -> active X n = true -> match nth (n - 1) mr None with Some m => (last (shape (core (TB tr l) n)) 0 <= m)%nat | None => True end) /\
      ((forall n, node tr n -> n <> r -> nth (n - 1) mr None = None) -> err2 A (get F) <= tolerance t * tolerance t * frob2 A) /\
      (forall f, (forall n, node tr n -> n <> r -> active X n = true -> rank_at_most (shape A) (dims tr n) (last (shape (core (TB tr l) n)) 0%nat) f) -> err2 A (get F) <= INR acts * err2 A f)).
    { intros l OY AY SY EY CY DY. split; [apply (tb_make_ok l tr r); exact OY|]. set (Y := TB tr l) in *. assert (H2Y : (2 <= tb_order Y)%nat) by exact H2.
      destruct (tb_full_ok Y r OY H2Y) as (FY & HF & HsF & _). exists FY. split; auto. destruct (full_inv X r A O H2 HA) as [SA _]. split; [congruence|].
      destruct (tb_full_ok Z r OZ H2') as (B & HB & _).
      assert (EB : err2 A (get FY) = err2 B (get FY) /\ frob2 A = frob2 B).
      { destruct (same_val_full X Z r A O H2 HA SV) as (B' & HB' & HsB & HgB). rewrite HB in HB'. injection HB' as <-. unfold err2, frob2. rewrite HsB. split; apply bsum_ext_R; intros is Hi; rewrite HgB by (rewrite ?HsB; auto); auto. }
      destruct EB as [EB1 EB2].
      assert (CL : forall n, node tr n -> n <> r -> active X n = true -> csize Y n = last (shape (core Y n)) 0%nat) by (intros n Hn NE Ha; unfold csize; rewrite AY, Ha by auto; auto).
      split; [|split].
      - intros n Hn NE Ha. assert (Hok : okn X r n) by (split; auto). specialize (CY n Hok). assert (Ec : csize Y n = last (shape (core Y n)) 0%nat) by (unfold csize; rewrite AY, Ha by auto; auto).
        destruct (nth (n - 1) mr None) as [m|] eqn:Em; auto. rewrite <- Ec, CY. unfold kk, kkn, kn. rewrite (mrs_nth X r t mr O H2 Emr Lmr n Hn NE), Em. cbn [min_opt]. lia.
      - intros Hnone. rewrite EB1, EB2. rewrite (err2_tdist Z Y r B FY OZ OY H2'), (frob2_tdist Z r B OZ H2' HB); auto; try congruence; [|rewrite SY; symmetry; apply SV|rewrite EY; symmetry; apply SV].
        eapply Rle_trans; [exact DY|]. assert (N0 : 0 <= tdist Z r (tval Z r) (fun _ _ => 0)) by (apply bsum_nonneg; intros; apply bsum_nonneg; intros; apply Rle_0_sqr).
        assert (LB : lsum (filter (active Z) (hsvd_nodes tr)) (nerr Z (fun n i j => get (gn g n) [i; j]) (fun n i c => get (F n) [i; c]) kk) <= INR acts * (ltol * ltol * tdist Z r (tval Z r) (fun _ _ => 0))).
        { replace acts with (length (filter (active Z) (hsvd_nodes tr))).
          - apply lsum_le_const. intros n Hn. apply filter_In in Hn. destruct Hn as [Hn Ha]. apply (in_hsvd_nodes tr r T) in Hn. destruct Hn as [Hn NE]. rewrite AZ in Ha by auto.
            apply (nerr_tol svd SVD X r t mr O H2 Emr Lmr Z SV AZ CZ g G1 n); [split; auto|]. auto.
          - rewrite <- nact_len. f_equal. apply filter_ext_in. intros n Hn. apply (in_hsvd_nodes tr r T) in Hn. apply AZ. tauto. }
        destruct acts as [|k] eqn:Ek.
        + eapply Rle_trans; [exact LB|]. cbn [INR]. rewrite Rmult_0_l. apply Rmult_le_pos; auto. apply Rle_0_sqr.
        + eapply Rle_trans; [exact LB|]. apply Req_le. unfold ltol, hsvd_tol. fold acts. rewrite Ek.
          assert (Hp : 0 < INR (S k)) by (apply lt_0_INR; lia). assert (Hs : 0 < sqrt (INR (S k))) by (apply sqrt_lt_R0; auto).
          replace (INR (S k)) with (sqrt (INR (S k)) * sqrt (INR (S k))) at 1 by (apply sqrt_sqrt; lra). field. lra.
      - intros f Hf. rewrite EB1. rewrite (err2_tdist Z Y r B FY OZ OY H2'); auto; try congruence; [|rewrite SY; symmetry; apply SV|rewrite EY; symmetry; apply SV].
        eapply Rle_trans; [exact DY|]. replace acts with (length (filter (active Z) (hsvd_nodes tr))).
        + apply lsum_le_const. intros n Hn. apply filter_In in Hn. destruct Hn as [Hn Ha]. apply (in_hsvd_nodes tr r T) in Hn. destruct Hn as [Hn NE]. rewrite AZ in Ha by auto.
          assert (Hok : okn X r n) by (split; auto). pose proof (nerr_tail svd SVD X r t mr H2 Lmr Z g G1 n Hok) as NT. fold F kk in NT. rewrite NT.
          destruct (same_val_full X Z r A O H2 HA SV) as (B' & HB' & HsB & HgB). rewrite HB in HB'. injection HB' as <-.
          assert (EAB : err2 A f = err2 B f) by (unfold err2; rewrite HsB; apply bsum_ext_R; intros is Hi; rewrite HgB by (rewrite ?HsB; auto); auto). rewrite EAB.
          destruct (G1 n Hn NE Ha) as (G & EG & HG). assert (Egn : gn g n = G) by (unfold gn; rewrite EG; auto). rewrite Egn.
          assert (HnZ : node (ttree Z) n) by (rewrite TZ; auto). assert (HaZ : active Z n = true) by (rewrite AZ; auto).
          apply (node_best svd SVD Z r OZ H2' HO B n G (kk n) f HB HnZ HaZ NE HG). rewrite TZ, HsB. rewrite <- (CY n Hok), CL by auto. auto.
        + rewrite <- nact_len. f_equal. apply filter_ext_in. intros n Hn. apply (in_hsvd_nodes tr r T) in Hn. apply AZ. tauto. }
    unfold hsvd_tb. cbv zeta. rewrite EZ. cbn [bind]. rewrite Eg. cbn [bind fst]. fold mrs ltol.
    assert (Hok : forall n, okn X r n -> In n (nodes tr)) by (intros n (Hn & _); apply in_nodes; auto).
    destruct Hty as [-> | ->].
    - (* type 1 *)
      set (F1 := fun n => if (n =? r)%nat then take_cols (fst (fst (svd one11))) (min_opt (tol_rank (Pw 1) (ltol * ltol) 1 (snd (fst (svd one11)))) (nth (n - 1) mrs None)) else F n).
      destruct (fold_mats svd mrs ltol g F1 (fun t => thresholding_parameter t = None \/ thresholding_parameter t = Some 0) (nodes tr)) with (t := t) (acc := @nil (option (nd R))) as (t' & E1 & _); auto.
      { intros n t' Hn Ht'. apply in_nodes in Hn. destruct (nth (n - 1) g None) as [G|] eqn:E; auto. exists (nth (n - 1) mrs None). unfold F1. destruct (Nat.eqb_spec n r) as [->|NE].
        - assert (EG : G = one11) by congruence. subst G. apply (frame_eq svd t' mrs ltol g r one11 1); auto. unfold mrs. rewrite (hmr_len t tr mr Emr Lmr). unfold node in Hn. lia.
        - apply FR; auto. split; auto. split; auto. destruct (active X n) eqn:Ha; auto. rewrite G2 in E by auto. discriminate. }
      unfold hsvd_mats. rewrite E1. cbn [bind snd fst app].
      set (ints := filter (fun n => negb (is_leaf tr n)) (flat_map (nodes_with_level tr) (seq 1 (max_level tr - 1)))). set (lvs := filter (active Z) (d2i tr)).
      set (mats := map (fun n => match nth (n - 1) g None with None => None | Some _ => Some (F1 n) end) (nodes tr)).
      assert (HL : forall n, In n (ints ++ lvs) <-> okn X r n).
      { intros n. rewrite in_app_iff. unfold ints, lvs. rewrite !filter_In, in_flat_map. split.
        - intros [[(a & Ha & Hn) Hl]|[Hn Ha]].
          + unfold nodes_with_level in Hn. apply filter_In in Hn. destruct Hn as [Hn Ea]. apply in_nodes in Hn. apply Nat.eqb_eq in Ea. apply in_seq in Ha. apply negb_true_iff in Hl. split; auto. split; [apply (ok_internal X r O); auto|].
            intros ->. rewrite (level_root tr r T) in Ea. lia.
          + assert (Hl : is_leaf tr n = true) by (apply inb_spec; auto). assert (Hnn := leaf_node tr r V n Hl). rewrite AZ in Ha by auto. split; auto. split; auto. intros ->. rewrite (root_not_leaf X r O H2) in Hl. discriminate.
        - intros (Hn & Ha & NE). destruct (is_leaf tr n) eqn:Hl.
          + right. split; [apply inb_spec; auto|]. rewrite AZ; auto.
          + left. split; auto. exists (level tr n). split; [|unfold nodes_with_level; apply filter_In; split; [apply in_nodes; auto|apply Nat.eqb_refl]].
            apply in_seq. pose proof (parent_is_edge tr r T n Hn NE) as He. pose proof (level_edge tr r T _ _ He).
            assert (Hc : exists c, edge tr n c). { destruct (children tr n) as [|c cs] eqn:Ec; [|exists c; apply in_children; [auto|rewrite Ec; simpl; auto]]. exfalso. assert (is_leaf tr n = true); [|congruence]. apply (leaf_iff tr r V). split; auto. intros c Hc. apply in_children in Hc; auto. rewrite Ec in Hc. destruct Hc. }
            destruct Hc as (c & Hc). pose proof (level_edge tr r T n c Hc). pose proof (level_le_max tr r T c (proj1 (proj2 Hc))). lia. }
      assert (ND : NoDup (ints ++ lvs)).
      { apply NoDup_app.
        - apply NoDup_filter. generalize (max_level tr - 1)%nat. intros k. generalize 1%nat. induction k as [|k IH]; intros a; cbn [seq flat_map]; [constructor|]. apply NoDup_app; auto.
          + apply NoDup_filter, NoDup_nodes.
          + intros x Hx Hx2. apply in_flat_map in Hx2. destruct Hx2 as (b & Hb & Hx2). unfold nodes_with_level in *. apply filter_In in Hx, Hx2. destruct Hx as [_ Q1]. destruct Hx2 as [_ Q2]. apply Nat.eqb_eq in Q1, Q2. apply in_seq in Hb. lia.
        - apply NoDup_filter. apply (NoDup_d2i tr r V).
        - intros x Hx Hx2. unfold ints in Hx. apply filter_In in Hx. destruct Hx as [_ Hx]. apply negb_true_iff in Hx. unfold lvs in Hx2. apply filter_In in Hx2. destruct Hx2 as [Hx2 _]. apply inb_spec in Hx2. unfold is_leaf in Hx. congruence. }
      destruct (ANY _ ND HL) as (l & E2 & OY & AY & SY & EY & CY & DY).
      assert (E3 : ofold (fun l n => let* U := nth (n - 1) mats None in hsvd_mult tr U l n) (ints ++ lvs) (cores Z) = Some l).
      { rewrite <- E2. apply ofold_ext_in. intros n c Hn. apply HL in Hn. destruct Hn as (Hn & Ha & NE). unfold mats. assert (Hn' := Hn). unfold node in Hn'. unfold nodes.
        rewrite map_nth_in with (da := 0%nat) by (rewrite seq_length; lia). rewrite seq_nth by lia. replace (1 + (n - 1))%nat with n by lia. destruct (G1 n Hn NE Ha) as (G & -> & _). cbn [bind]. unfold F1.
        destruct (Nat.eqb_spec n r); [contradiction|auto]. }
      rewrite E3. cbn [bind]. destruct (POST l OY AY SY EY CY DY) as (Em & FY & HF & HsF & HR & HE & HQ). rewrite Em. cbn [bind].
      exists (TB tr l), false, t', FY. split; auto. split; auto. split; auto. split; auto. split; auto. split; auto. split; auto. split; auto. split; auto. intros K. discriminate.
    - (* type 2 *)
      assert (HL : forall n, In n (filter (active Z) (hsvd_nodes tr)) <-> okn X r n).
      { intros n. rewrite filter_In, (in_hsvd_nodes tr r T). split; [intros ((K1 & K2) & K3)|intros (K1 & K2 & K3)]; rewrite AZ in * by auto; split; auto. }
      destruct (ANY _ (NoDup_filter _ (NoDup_hsvd_nodes tr r T)) HL) as (l & E2 & OY & AY & SY & EY & CY & DY).
      destruct (fold_pair (fun t n => hsvd_frame svd t mrs ltol g n) (fun U l n => hsvd_mult tr U l n) F (fun n => nth (n - 1) mrs None) (fun t => thresholding_parameter t = None \/ thresholding_parameter t = Some 0) (filter (active Z) (hsvd_nodes tr))) with (t := t) (c := cores Z) (l := l) as (t' & E3 & _ & E4); auto.
      { intros n t' Hn Ht'. apply FR; auto. apply HL. auto. }
      rewrite E3. cbn [bind fst snd]. destruct (POST l OY AY SY EY CY DY) as (Em & FY & HF & HsF & HR & HE & HQ). rewrite Em. cbn [bind].
      exists (TB tr l), true, t', FY. split; auto. split; auto. split; auto. split; auto. split; auto. split; auto. split; auto. split; auto. split; auto. intros _. split; auto.
      intros m Hm. rewrite E4. assert (K : forall L t0, max_rank t0 = [m] -> (forall n, In n L -> okn X r n) -> fold_left (fun t n => set_max_rank t (nth (n - 1) mrs None)) L t0 = t0).
      { induction L as [|n L IH]; intros t0 H0 HL'; cbn [fold_left]; auto. assert (E0 : set_max_rank t0 (nth (n - 1) mrs None) = t0).
        { destruct (HL' n (or_introl eq_refl)) as (Hn & _ & NE). unfold mrs. rewrite (mrs_nth X r t mr O H2 Emr Lmr n Hn NE), Emr, Hm. unfold node in Hn. rewrite nth_repeat_in by lia. unfold set_max_rank. rewrite <- H0. destruct t0; auto. }
        rewrite E0. apply IH; auto. intros; apply HL'; simpl; auto. }
      apply K; auto. intros n Hn. apply HL. auto.
  Qed.
End Whole.
