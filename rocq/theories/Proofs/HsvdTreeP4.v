(** The error of the truncations of all the nodes is at most the sum of the errors; svd of a Gramian. *)
From Coq Require Import List Arith Lia Bool Reals Lra Permutation.
From Verif.Base Require Import ListAux CRing Index RealAux.
From Verif.Model Require Import Sorting Numpy FullTensor Diagonal Canonical DimensionTree TreeBased Truncator HSVD HsvdTree.
From Verif.Spec Require Import TensorSpec TreeSpec TreeTensorSpec TruncatorSpec.
From Verif.Proofs Require Import NumpyP FullTensorP FullTensorP4 DimTreeP TreeTensorP TreeTensorP2 TreeTensorP3 TreeTensorP4 TreeTensorP12 TreeTensorP13 TreeTensorP14 TreeTensorP15 TreeTensorP29 PolyP5 SpectralP LapackP EckartP MeasuresP TruncatorP TruncatorP2 TruncatorP3 TruncatorP4 TruncatorP5 HsvdP2 HsvdP7 HsvdP9 HsvdTreeP1 HsvdTreeP2 HsvdTreeP3.
Import ListNotations.
Local Open Scope R_scope.

(** svd of a symmetric positive semidefinite matrix *)
Section SvdPsd.
  Variable svd : nd R -> nd R * list R * nd R.
  Hypothesis SVD : svd_contract svd.
  Variables (G : nd R) (K : nat).
  Hypothesis HG : shape G = [K; K].
  Hypothesis HS : forall i j, (i < K)%nat -> (j < K)%nat -> get G [i; j] = get G [j; i].
  Hypothesis HP : forall v, 0 <= rsum K (fun i => rsum K (fun j => v i * v j * get G [i; j])).
  Notation U := (fst (fst (svd G))).
  Notation s := (snd (fst (svd G))).
  Notation W := (snd (svd G)).
  Lemma psd_G i j : (i < K)%nat -> (j < K)%nat -> get G [i; j] = rsum K (fun c => get U [i; c] * nth c s 0 * get W [c; j]).
  Proof. intros Hi Hj. destruct (SVD G K K HG) as (_ & _ & _ & _ & _ & _ & _ & E). rewrite Nat.min_id in E. auto. Qed.
  Lemma psd_Gu c i : (c < K)%nat -> (i < K)%nat -> rsum K (fun j => get G [i; j] * get U [j; c]) = nth c s 0 * get W [c; i].
  Proof.
    intros Hc Hi. destruct (SVD G K K HG) as (_ & _ & _ & _ & _ & EU & _ & _). rewrite Nat.min_id in EU.
    transitivity (rsum K (fun j => rsum K (fun d => (nth d s 0 * get W [d; i]) * (get U [j; d] * get U [j; c])))).
    - apply rsum_ext_R. intros j Hj. rewrite HS, psd_G by auto. rewrite <- rsum_scal_r_R. apply rsum_ext_R. intros. ring.
    - rewrite LinAlg.rsum_swap_R. rewrite (rsum_ext_R K _ (fun d => if (d =? c)%nat then nth d s 0 * get W [d; i] else 0)).
      + rewrite LinAlg.rsum_delta_R by auto. auto.
      + intros d Hd. rewrite rsum_scal_l_R, EU by auto. destruct (d =? c)%nat; ring.
  Qed.
  Lemma psd_Gw c i : (c < K)%nat -> (i < K)%nat -> rsum K (fun j => get G [i; j] * get W [c; j]) = nth c s 0 * get U [i; c].
  Proof.
    intros Hc Hi. destruct (SVD G K K HG) as (_ & _ & _ & _ & _ & _ & EW & _). rewrite Nat.min_id in EW.
    transitivity (rsum K (fun j => rsum K (fun d => (nth d s 0 * get U [i; d]) * (get W [d; j] * get W [c; j])))).
    - apply rsum_ext_R. intros j Hj. rewrite psd_G by auto. rewrite <- rsum_scal_r_R. apply rsum_ext_R. intros. ring.
    - rewrite LinAlg.rsum_swap_R. rewrite (rsum_ext_R K _ (fun d => if (d =? c)%nat then nth d s 0 * get U [i; d] else 0)).
      + rewrite LinAlg.rsum_delta_R by auto. auto.
      + intros d Hd. rewrite rsum_scal_l_R, EW by auto. destruct (d =? c)%nat; ring.
  Qed.
  (** left and right singular vectors agree, unless the singular value is 0 *)
  Lemma psd_uw c i : (c < K)%nat -> (i < K)%nat -> nth c s 0 * get U [i; c] = nth c s 0 * get W [c; i].
  Proof.
    intros Hc. assert (S0 : 0 <= nth c s 0) by (destruct (SVD G K K HG) as (_ & _ & _ & E & _); rewrite Nat.min_id in E; auto).
    set (d := fun i => get U [i; c] - get W [c; i]). pose proof (HP d) as Hd.
    assert (E : rsum K (fun i => rsum K (fun j => d i * d j * get G [i; j])) = - nth c s 0 * rsum K (fun i => d i * d i)).
    { rewrite <- rsum_scal_l_R. apply rsum_ext_R. intros j Hj. rewrite (rsum_ext_R K _ (fun l => d j * (get G [j; l] * get U [l; c] - get G [j; l] * get W [c; l]))) by (intros; unfold d; ring).
      rewrite rsum_scal_l_R, rsum_minus_R, psd_Gu, psd_Gw by auto. unfold d. ring. }
    rewrite E in Hd. assert (N0 : 0 <= rsum K (fun i => d i * d i)) by (apply rsum_nonneg; intros; apply Rle_0_sqr).
    intros Hi. destruct (Req_dec (nth c s 0) 0) as [->|NZ]; [ring|]. assert (Z : rsum K (fun i => d i * d i) = 0) by nra.
    assert (D : d i * d i = 0) by (apply (rsum_zero_iff K (fun i => d i * d i)); auto; intros; apply Rle_0_sqr).
    f_equal. unfold d in D. nra.
  Qed.
  Lemma psd_quad c : (c < K)%nat -> rsum K (fun i => rsum K (fun j => get U [i; c] * get U [j; c] * get G [i; j])) = nth c s 0.
  Proof.
    intros Hc. destruct (SVD G K K HG) as (_ & _ & _ & _ & _ & EU & _ & _). rewrite Nat.min_id in EU.
    transitivity (nth c s 0 * rsum K (fun i => get U [i; c] * get U [i; c])).
    - rewrite <- rsum_scal_l_R. apply rsum_ext_R. intros i Hi. rewrite (rsum_ext_R K _ (fun j => get U [i; c] * (get G [i; j] * get U [j; c]))) by (intros; ring).
      rewrite rsum_scal_l_R, psd_Gu by auto. rewrite <- psd_uw by auto. ring.
    - rewrite EU, Nat.eqb_refl by auto. ring.
  Qed.
  Lemma psd_tr : rsum K (fun i => get G [i; i]) = rsum K (fun c => nth c s 0).
  Proof.
    destruct (SVD G K K HG) as (_ & _ & _ & _ & _ & EU & _ & _). rewrite Nat.min_id in EU.
    transitivity (rsum K (fun i => rsum K (fun c => nth c s 0 * (get U [i; c] * get U [i; c])))).
    - apply rsum_ext_R. intros i Hi. rewrite psd_G by auto. apply rsum_ext_R. intros c Hc. transitivity (get U [i; c] * (nth c s 0 * get W [c; i])); [ring|]. rewrite <- psd_uw by auto. ring.
    - rewrite LinAlg.rsum_swap_R. apply rsum_ext_R. intros c Hc. rewrite rsum_scal_l_R, EU, Nat.eqb_refl by auto. ring.
  Qed.
  Lemma psd_err k : (k <= K)%nat -> rsum K (fun i => get G [i; i]) - rsum k (fun c => rsum K (fun i => rsum K (fun j => get U [i; c] * get U [j; c] * get G [i; j]))) = lsum (skipn k s) (fun x => x).
  Proof.
    intros Hk. rewrite psd_tr. rewrite (rsum_ext_R k _ (fun c => nth c s 0)) by (intros; apply psd_quad; lia).
    destruct (SVD G K K HG) as (_ & Ls & _). rewrite Nat.min_id in Ls.
    assert (L : forall l : list R, rsum (length l) (fun c => nth c l 0) = lsum l (fun x => x)).
    { intros l. rewrite <- lsum_seq. rewrite <- (lsum_map (fun k => nth k l 0) (seq 0 (length l)) (fun x => x)). rewrite map_seq_nth. auto. }
    rewrite <- Ls, L. rewrite <- (firstn_skipn k s) at 1. rewrite lsum_app_R. rewrite <- L. rewrite firstn_length_le by lia.
    rewrite (rsum_ext_R k (fun c => nth c (firstn k s) 0) (fun c => nth c s 0)) by (intros; apply nth_firstn_lt; auto). ring.
  Qed.
  Lemma pnorm1 l : (forall x, In x l -> 0 <= x) -> pnorm 1 l = lsum l (fun x => x).
  Proof.
    intros H. assert (E : forall x, 0 <= x -> rpow x 1 = x).
    { intros x Hx. unfold rpow. destruct (Rlt_dec 0 x); [apply Rpower_1; auto|lra]. }
    unfold pnorm. replace (1 / 1) with 1 by lra. rewrite (lsum_ext_R l _ (fun x => x)) by (intros; apply E; auto). apply E. apply lsum_nonneg. auto.
  Qed.
  (** the error committed with the rank selected by the tolerance tol and the power 1 *)
  Lemma psd_tol tol : 0 <= tol -> (0 < K)%nat -> lsum (skipn (tol_rank (Pw 1) tol K s) s) (fun x => x) <= tol * rsum K (fun i => get G [i; i]).
  Proof.
    intros Ht HK. destruct (tol_rank_spec svd SVD G K K HG HK HK tol (Pw 1)) as [A B]; [lra|]. rewrite Nat.min_id in A, B.
    destruct (SVD G K K HG) as (_ & Ls & _). rewrite Nat.min_id in Ls. pose proof (psd_err K (le_n K)) as E0. 
    assert (Hin : forall x, In x s -> 0 <= x) by (intros; eapply (sv_in svd SVD G K K); eauto).
    assert (ET : rsum K (fun i => get G [i; i]) = lsum s (fun x => x)) by (pose proof (psd_err 0 (Nat.le_0_l K)) as E; cbn [skipn] in E; change (rsum 0 _) with 0 in E; lra).
    rewrite ET. assert (N0 : 0 <= lsum s (fun x => x)) by (apply lsum_nonneg; auto).
    assert (NM : 0 <= tol * lsum s (fun x => x)) by (apply Rmult_le_pos; auto).
    destruct (Rle_lt_dec tol 0) as [H0|H0].
    - rewrite skipn_all2 by (apply A; auto). cbn. lra.
    - destruct (Req_dec (lsum s (fun x => x)) 0) as [Z|NZ].
      + assert (Z' : forall x, In x s -> x = 0) by (intros x Hx; apply (lsum_zero_iff s (fun x => x) Hin Z x Hx)). rewrite skipn_all2 by (apply A; auto). cbn. lra.
      + destruct (B H0) as [(_ & C) _]; [intros Z; apply NZ; exact (lsum_zero s (fun x => x) Z)|]. rewrite !pnorm1 in C; auto; [lra|]. intros x Hx. apply Hin. eapply skipn_in; eauto.
  Qed.
End SvdPsd.

Lemma hsvd_below (t : dtree) r (T : rooted_tree t r) l1 n l2 : hsvd_nodes t = l1 ++ n :: l2 -> forall m, below t n m -> m <> n -> In m l1.
Proof.
  intros E m [d Hd]. revert m Hd. induction d as [|d IH]; intros m Hd NE.
  - apply depth_inv0 in Hd. congruence.
  - apply depth_invS in Hd. destruct Hd as (p & Hp & He). destruct (Nat.eq_dec p n) as [->|NP].
    + apply (hsvd_topo t r T l1 n l2 m E He).
    + specialize (IH p Hp NP). apply in_split in IH. destruct IH as (a & b & ->). rewrite <- app_assoc in E. cbn [app] in E.
      pose proof (hsvd_topo t r T a p _ m E He). apply in_or_app. auto.
Qed.

Section Telescope.
  Variables (X : tbt R) (r : nat).
  Hypothesis O : tb_ok X r.
  Hypothesis H2 : (2 <= tb_order X)%nat.
  Hypothesis HO : forall n, node (ttree X) n -> active X n = true -> n <> r -> orth_cols (core X n).
  Local Notation t := (ttree X).
  Let V : dim_tree t r := proj1 O.
  Let T : rooted_tree t r := proj1 V.
  (** for each node: a matrix G (the Gramian), a frame with kk n orthonormal columns *)
  Variables (G : nat -> nat -> nat -> R) (U : nat -> nat -> nat -> R) (kk : nat -> nat).
  Hypothesis HG : forall n, node t n -> active X n = true -> n <> r -> exists W, fact X r n W /\
    forall i j, (i < csize X n)%nat -> (j < csize X n)%nat -> G n i j = gm X r n W [i] [j].
  Hypothesis HU : forall n, node t n -> active X n = true -> n <> r -> orthonormal (csize X n) (kk n) (U n).
  Definition nerr (n : nat) : R := rsum (csize X n) (fun i => G n i i) - rsum (kk n) (fun c => rsum (csize X n) (fun i => rsum (csize X n) (fun j => U n i c * U n j c * G n i j))).
  Definition insl (l : list nat) (m : nat) : option (nat -> nat -> R) := if inb m l && active X m then Some (qf (U m) (kk m)) else None.
  Lemma gm_sym n W i j : gm X r n W i j = gm X r n W j i.
  Proof. unfold gm. apply bsum_ext_R. intros e _. unfold nu. apply (part_ext (sz X) _ (tb_order X)); [|apply repeat_length]. intros is _. ring. Qed.
  Lemma gm_psd n W (v : nat -> R) : 0 <= rsum (csize X n) (fun i => rsum (csize X n) (fun j => v i * v j * gm X r n W [i] [j])).
  Proof.
    set (K := csize X n).
    assert (E : rsum K (fun i => rsum K (fun j => v i * v j * gm X r n W [i] [j])) = bsum (exts X r) (fun e => nu X n (fun is => rsum K (fun i => v i * W [i] is e) * rsum K (fun i => v i * W [i] is e)))).
    { transitivity (rsum K (fun i => bsum (exts X r) (fun e => rsum K (fun j => v i * v j * nu X n (fun is => W [i] is e * W [j] is e))))).
      - apply rsum_ext_R. intros i _. rewrite bsum_rsum_exchange_R. apply rsum_ext_R. intros j _. unfold gm. rewrite bsum_scal_l_R. auto.
      - rewrite <- bsum_rsum_exchange_R. apply bsum_ext_R. intros e _. unfold nu.
        rewrite (part_ext (sz X) _ (tb_order X) _ (fun is => rsum K (fun i => rsum K (fun j => (v i * v j) * (W [i] is e * W [j] is e))))).
        + rewrite part_rsum. apply rsum_ext_R. intros i _. rewrite part_rsum. apply rsum_ext_R. intros j _. rewrite part_scal. auto.
        + intros is _. rewrite <- rsum_scal_r_R. apply rsum_ext_R. intros i _. rewrite <- rsum_scal_l_R. apply rsum_ext_R. intros j _. ring.
        + apply repeat_length. }
    rewrite E. apply bsum_nonneg. intros e _. apply part_nonneg. intros is. apply Rle_0_sqr.
  Qed.
  Lemma err_all : forall l2 l1, hsvd_nodes t = l1 ++ l2 -> tdist X r (tval X r) (tval (insm (insl l2) X) r) <= lsum (filter (active X) l2) nerr.
  Proof.
    induction l2 as [|n l2 IH]; intros l1 E.
    - cbn [filter]. rewrite (insm_ext X (insl []) (fun _ => None)) by auto. rewrite (insm_none X r O). unfold tdist.
      apply Req_le. apply (bsum_zero (R := R)). intros e _. apply (bsum_zero (R := R)). intros is _. rcbn. ring.
    - assert (E' : hsvd_nodes t = (l1 ++ [n]) ++ l2) by (rewrite <- app_assoc; auto). specialize (IH _ E').
      assert (Hin : In n (hsvd_nodes t)) by (rewrite E; apply in_or_app; simpl; auto). apply (in_hsvd_nodes t r T) in Hin. destruct Hin as [Hn NE].
      pose proof (NoDup_hsvd_nodes t r T) as ND. rewrite E in ND. apply NoDup_remove in ND. destruct ND as [ND1 ND2].
      cbn [filter]. destruct (active X n) eqn:Ha.
      + change (lsum (n :: filter (active X) l2) nerr) with (nerr n + lsum (filter (active X) l2) nerr).
        destruct (HG n Hn Ha NE) as (W & HW & EG).
        pose proof (err_step X r O H2 HO n W (insl l2) (U n) (kk n) Hn Ha NE HW (HU n Hn Ha NE)) as S. cbn zeta in S.
        rewrite (insm_ext X (insl (n :: l2)) (fun m => if (m =? n)%nat then Some (qf (U n) (kk n)) else insl l2 m)).
        * eapply Rle_trans; [apply S|].
          -- intros m Hm Hb. unfold insl. rewrite (proj2 (inb_false m l2)); auto. intros Hi. destruct (Nat.eq_dec m n) as [->|Nm]; [apply ND2, in_or_app; auto|].
             pose proof (hsvd_below t r T l1 n l2 E m Hb Nm) as Hi1. apply in_split in Hi1. destruct Hi1 as (a & b & ->). rewrite <- app_assoc in ND1. cbn [app] in ND1. apply NoDup_remove_2 in ND1. apply ND1.
             apply in_or_app. right. apply in_or_app. auto.
          -- apply Rplus_le_compat; auto. unfold nerr. apply Req_le. f_equal; [apply rsum_ext_R; intros; symmetry; apply EG; auto|]. apply rsum_ext_R. intros c _. apply rsum_ext_R. intros i Hi. apply rsum_ext_R. intros j Hj. rewrite EG by auto. auto.
        * intros m Hm. unfold insl. cbn [inb existsb]. destruct (Nat.eqb_spec m n) as [->|Nm]; [rewrite Ha; cbn; auto|]. cbn [orb]. auto.
      + rewrite (insm_ext X (insl (n :: l2)) (insl l2)); auto. intros m Hm. unfold insl. cbn [inb existsb]. destruct (Nat.eqb_spec m n) as [->|Nm]; [rewrite Ha, !andb_false_r; auto|]. auto.
  Qed.
End Telescope.
