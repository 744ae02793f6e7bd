(** Alternating minimisation: what orth_at_node does to the function; the case of a zero rank. *)
From Coq Require Import List Arith Lia Bool Reals Lra Permutation.
From Verif.Base Require Import ListAux CRing Index RealAux LinAlg.
From Verif.Model Require Import Sorting Numpy FullTensor Diagonal Canonical DimensionTree TreeBased Truncator HSVD HsvdTree OrthNode Learning AltMin.
From Verif.Spec Require Import TensorSpec TreeSpec TreeTensorSpec TruncatorSpec GramSpec LearningSpec FunctionalSpec OrthNodeSpec GradSpec FuncGradSpec AltMinSpec.
From Verif.Proofs Require Import NumpyP FullTensorP FullTensorP4 DimTreeP DimTreeP2 TreeTensorP TreeTensorP2 TreeTensorP3 TreeTensorP4 TreeTensorP6 TreeTensorP7 TreeTensorP12 TreeTensorP13 TreeTensorP14 TreeTensorP15 TreeTensorP29 PolyP5 HsvdP2 HsvdTreeP1 HsvdTreeP2 HsvdTreeP3 HsvdTreeP4 HsvdTreeP5 HsvdTreeP9 HsvdTreeP10 OrthNodeP1 OrthNodeP2 OrthNodeP3 OrthNodeP4 OrthNodeP5.
Import ListNotations.
Local Open Scope R_scope.

Lemma rsum_zero_all n (f : nat -> R) : (forall i, (i < n)%nat -> 0 <= f i) -> rsum n f = 0 -> forall i, (i < n)%nat -> f i = 0.
Proof.
  intros H E i Hi. pose proof (HsvdP5.bsum_zero_iff_R [n] (fun l => f (nth 0 l 0%nat))) as Q. cbn [bsum nth] in Q. apply (Q ltac:(intros is Hv; inversion Hv; subst; cbn; auto) E [i]). apply Forall2_cons; auto.
Qed.
Lemma part_zero s ds (f : list nat -> R) : (forall is, 0 <= f is) -> forall is0 is, Forall (fun d => (d < length is0)%nat) ds -> part s ds f is0 = 0 -> length is = length is0 ->
  (forall d, In d ds -> (nth d is 0 < s d)%nat) -> (forall d, ~ In d ds -> nth d is 0%nat = nth d is0 0%nat) -> f is = 0.
Proof.
  intros F0. induction ds as [|d ds IH]; intros is0 is HL H LE HS HA.
  - cbn in H. assert (is = is0); [|subst; auto]. apply nth_ext' with (d := 0%nat); auto.
  - cbn [part] in H. inversion HL; subst. pose proof (rsum_zero_all (s d) _ (fun i _ => part_nonneg s ds f F0 (ListAux.upd d i is0)) H (nth d is 0%nat) (HS d (or_introl eq_refl))) as Q. cbv beta in Q.
    apply (IH (ListAux.upd d (nth d is 0%nat) is0)); auto.
    + rewrite upd_length. auto.
    + rewrite upd_length. auto.
    + intros d' Hd'. apply HS. right. auto.
    + intros d' Hd'. destruct (Nat.eq_dec d' d) as [->|NE]; [rewrite nth_upd_eq; auto|]. rewrite nth_upd_neq by auto. apply HA. intros [E|Q2]; [congruence|contradiction].
Qed.

Section Zero.
  Variables (Z : tbt R) (r : nat).
  Hypothesis O : tb_ok Z r.
  Local Notation t := (ttree Z).
  Lemma zero_frame n W : node t n -> active Z n = true -> n <> r -> fact Z r n W -> (forall k, (k < csize Z n)%nat -> gm Z r n W [k] [k] = 0) ->
    forall Y, differs_at Z Y r n -> forall is e, valid (tb_shape Z) is -> valid (exts Z r) e -> tval Y r is e = 0.
  Proof.
    intros Hn Ha NE (WL & WV) HG Y (OY & TY & SY & CY) is e Hi He. rewrite (WV Y).
    3: auto.
    2:{ split; auto. split; auto. split.
        - intros m Hm. destruct (Nat.eq_dec m n) as [->|N]; auto. rewrite CY; auto.
        - intros m Hm Hb. apply CY; auto. intros ->. apply Hb. apply below_refl. }
    rewrite (exts_n Z r O n Hn Ha NE). cbn [bsum]. apply rsum_zero_R. intros k Hk.
    assert (W0 : W [k] is e = 0); [|rewrite W0; ring].
    pose proof (HsvdP5.bsum_zero_iff_R (exts Z r) (fun e => nu Z n (fun is => W [k] is e * W [k] is e))) as Q. unfold gm in HG.
    specialize (Q (fun e' _ => part_nonneg _ _ _ (fun is' => Rle_0_sqr (W [k] is' e')) _) (HG k Hk) e He). cbv beta in Q. unfold nu in Q.
    set (is' := map (fun d => if inb d (co Z n) then nth d is 0%nat else 0%nat) (seq 0 (tb_order Z))).
    assert (NI : forall d, nth d is' 0%nat = if inb d (co Z n) then nth d is 0%nat else 0%nat).
    { intros d. destruct (lt_dec d (tb_order Z)) as [Hd|Hd]; [unfold is'; rewrite nth_map_seq; auto|]. unfold is'. rewrite nth_overflow by (rewrite map_length, seq_length; lia).
      destruct (inb d (co Z n)) eqn:E; auto. apply inb_spec in E. apply (in_co Z n d Hn) in E. lia. }
    assert (W1 : W [k] is e = W [k] is' e). { apply (WL [k] e). intros d Hd. rewrite NI. rewrite (proj2 (inb_spec d _) Hd). auto. }
    rewrite W1. assert (W2 : W [k] is' e * W [k] is' e = 0); [|apply Rmult_integral in W2; tauto].
    apply (part_zero (sz Z) (co Z n) (fun is => W [k] is e * W [k] is e) (fun is => Rle_0_sqr (W [k] is e)) (zN Z) is'); auto.
    - apply Forall_forall. intros d Hd. unfold zN. rewrite repeat_length. apply (in_co Z n d Hn) in Hd. tauto.
    - unfold is', zN. rewrite map_length, seq_length, repeat_length. auto.
    - intros d Hd. rewrite NI, (proj2 (inb_spec d _) Hd). apply (in_co Z n d Hn) in Hd. unfold sz. apply (valid_nth _ _ d Hi). rewrite tb_shape_length. tauto.
    - intros d Hd. rewrite NI. rewrite (proj2 (inb_false d _) Hd). unfold zN. destruct (lt_dec d (tb_order Z)); [rewrite nth_repeat; auto|rewrite nth_overflow; auto; rewrite repeat_length; lia].
  Qed.
End Zero.
Lemma full_same_val (X Y : tbt R) r A B : tb_ok X r -> tb_ok Y r -> (2 <= tb_order X)%nat -> ttree Y = ttree X -> tb_full X = Some A -> tb_full Y = Some B -> shape B = shape A ->
  (forall is, valid (shape A) is -> get B is = get A is) -> same_val X Y r.
Proof.
  intros OX OY H2 TY HA HB SB GB. assert (H2' : (2 <= tb_order Y)%nat) by (unfold tb_order; rewrite TY; exact H2).
  destruct (full_inv X r A OX H2 HA) as [SA VA]. destruct (full_inv Y r B OY H2' HB) as [SY VY].
  assert (LE : length (tb_shape Y) = length (tb_shape X)) by (rewrite !tb_shape_length; unfold tb_order; rewrite TY; auto).
  rewrite SA, SY in SB. apply TreeTensorP29.app_inj_len in SB; auto. destruct SB as [E1 E2].
  split; auto. split; auto. split; auto. split; auto. intros is e Hi He. rewrite <- VY, <- VA by (rewrite ?E1, ?E2; auto). apply GB. rewrite SA. apply valid_app; auto.
Qed.
Lemma orth_step_spec svd qr mrank pinv inv : svd_contract svd -> qr_contract qr -> rank_contract mrank -> pinv_contract pinv -> inv_contract inv -> inv_complete inv ->
  forall fl (X : tbt R) r n, tb_ok X r -> (2 <= tb_order X)%nat -> flag_right X r fl -> node (ttree X) n -> active X n = true ->
  exists Z, orth_at_node svd qr mrank pinv inv fl X n = Some Z /\ same_val X Z r /\ same_format X Z r /\ flag_right Z r (orth_flag svd qr mrank pinv inv fl X n) /\
    (n <> r -> orth_flag svd qr mrank pinv inv fl X n = true -> forall Y, differs_at Z Y r n -> forall is e, valid (tb_shape Z) is -> valid (exts Z r) e -> tval Y r is e = 0).
Proof.
  intros SVD QR RK PI IV IC fl X r n O H2 HF Hn Ha. pose proof (proj1 O) as V. pose proof (proj1 V) as T.
  destruct (full_returns X r _ (fun ie => tval X r (firstn (tb_order X) ie) (skipn (tb_order X) ie)) O H2 eq_refl) as (A & HA & _).
  { intros is e Hi He. assert (LE : length is = tb_order X) by (rewrite (valid_length _ _ Hi), tb_shape_length; auto). rewrite <- LE, firstn_app, skipn_app, Nat.sub_diag, firstn_all, skipn_all. cbn. rewrite app_nil_r. auto. }
  destruct (orth_at_node_spec svd qr mrank pinv inv SVD QR RK PI IV IC fl X r A n O H2 HA HF Hn Ha) as (Z & B & E & OZ & TZ & AZ & RZ & HB & SB & GB & CZ & _ & _).
  pose proof (full_same_val X Z r A B O OZ H2 TZ HA HB SB GB) as SV. exists Z. split; auto. split; auto. split.
  { split; auto. split; auto. split; [apply SV|]. split; [apply SV|]. split; auto. }
  unfold orth_flag. rewrite (root_eq _ r T). destruct (Nat.eqb_spec n r) as [->|NE].
  { split; [|congruence]. intros _ m Hm Hma Nm. rewrite TZ in Hm. rewrite AZ in Hma by auto. apply CZ; auto; congruence. }
  destruct (gram_one qr X r fl n QR O H2 HF Hn Ha NE) as (G & Z' & EG & EZ & SV' & AZ' & CZ' & HG). rewrite EG. cbn [nth].
  pose proof (proj1 SV') as OZ'. pose proof (proj1 (proj2 SV')) as TZ'. pose proof HG as (SG & W & FW & VG).
  destruct (orth_factors_spec svd SVD mrank RK pinv PI inv IV IC G (csize Z' n) SG) as (a & LA & [(-> & E' & Z0)|(Pa & L & Sm & E' & SL & SS & E1 & E2)]).
  { intros i j Hi Hj. rewrite !VG by auto. apply gm_sym. }
  { intros v. pose proof (gm_psd Z' r n W v) as Q. eapply Rle_trans; [exact Q|]. apply Req_le. apply rsum_ext_R. intros i Hi. apply rsum_ext_R. intros j Hj. rewrite VG by auto. auto. }
  - rewrite E'. assert (EZZ : Z = Z'). { unfold orth_at_node in E. rewrite (root_eq _ r T), Ha in E. destruct (Nat.eqb_spec n r); [congruence|]. rewrite EG in E. cbn [bind fst snd nth] in E. rewrite E' in E. cbn [bind] in E. congruence. }
    subst Z'. split.
    + intros _ m Hm Hma Nm. rewrite TZ in Hm. rewrite AZ in Hma by auto. apply CZ'; auto.
    + intros _ _ Y HY is e Hi He. apply (zero_frame Z r OZ n W); auto; [rewrite TZ; auto|rewrite AZ; auto|]. intros k Hk. rewrite <- VG by auto. apply Z0; auto.
  - rewrite E'. split; [|discriminate]. intros Q. discriminate.
Qed.
