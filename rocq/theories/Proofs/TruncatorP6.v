(** Best approximation by trunc_svd and quasi-optimality of hosvd. *)
From Coq Require Import List Arith Lia Bool Reals Lra ChoiceFacts IndefiniteDescription.
From Verif.Base Require Import ListAux CRing Index RealAux.
From Verif.Model Require Import Sorting Numpy FullTensor Diagonal Canonical DimensionTree TreeBased Truncator.
From Verif.Spec Require Import TensorSpec TreeSpec TreeTensorSpec TruncatorSpec.
From Verif.Proofs Require Import NumpyP TruncatorP4 TruncatorP5 LapackP EckartP.
Import ListNotations.
Local Open Scope R_scope.
Section S.
  Variable svd : nd R -> nd R * list R * nd R.
  Hypothesis SVD : svd_contract svd.
  Lemma trunc_svd_best t M m n : shape M = [m; n] -> (0 < m)%nat -> (0 < n)%nat ->
    forall mr tol, max_rank t = [mr] -> thresholding_parameter t = None \/ thresholding_parameter t = Some 0 ->
    forall pw, (match pw with Pw p => 0 < p | Pinf => True end) ->
    exists c, trunc_svd svd t M (Some tol) pw = Some c /\
      forall g, rank_at_most [m; n] [0%nat] (length (cp_core c)) g -> err2 M (cp_val (cp_core c) (cp_space c)) <= err2 M g.
  Proof.
    intros HM Hm Hn mr tol Hmr Ht pw Hp.
    destruct (trunc_svd_kept svd SVD t M m n HM Hm Hn mr tol Hmr Ht pw Hp) as (k0 & U & V & E & _ & _ & _ & _ & _ & Her).
    eexists. split; [exact E|]. cbn [cp_core cp_space]. intros g Hg. rewrite Her.
    pose proof (tail_le_mat svd SVD M m n _ g HM Hg) as Q. rewrite firstn_length in Q.
    destruct (Nat.le_gt_cases (min_opt k0 mr) (length (snd (fst (svd M))))).
    - rewrite Nat.min_l in Q by auto. exact Q.
    - rewrite Nat.min_r in Q by lia. rewrite skipn_all2 by lia. rewrite skipn_all2 in Q by lia. exact Q.
  Qed.
  Lemma lsum_le_const l (f : nat -> R) c : (forall d, In d l -> f d <= c) -> lsum l f <= INR (length l) * c.
  Proof.
    induction l as [|a l IH]; intros H; [cbn; lra|]. change (lsum (a :: l) f) with (f a + lsum l f). cbn [length]. rewrite S_INR. pose proof (H a (or_introl eq_refl)).
    assert (lsum l f <= INR (length l) * c) by (apply IH; intros; apply H; simpl; auto). lra.
  Qed.
  Lemma hosvd_best t A mr : mr = match max_rank t with [m] => repeat m (ndim A) | l => l end -> length mr = ndim A ->
    thresholding_parameter t = None \/ thresholding_parameter t = Some 0 ->
    Forall (fun n => (0 < n)%nat) (shape A) -> Forall (fun m => m <> Some 0%nat) mr -> (2 <= ndim A)%nat ->
    exists X t' F, hosvd svd t A = Some (X, t') /\ tb_full X = Some F /\ shape F = shape A /\
    forall f, (forall d, (d < ndim A)%nat -> rank_at_most (shape A) [d] (last (shape (core X (d + 2))) 0%nat) f) ->
    err2 A (get F) <= INR (ndim A) * err2 A f.
  Proof.
    intros E1 E2 E3 E4 E5 E6. destruct (hosvd_main svd SVD t A mr E1 E2 E3 E4 E5 E6) as (X & t' & F & k0 & M & H1 & H2 & H3 & H4 & H5 & H6 & H7).
    exists X, t', F. split; auto. split; auto. split; auto. intros f Hf. eapply Rle_trans; [exact H7|].
    rewrite <- (seq_length (ndim A) 0) at 2. apply lsum_le_const. intros d Hd. apply in_seq in Hd.
    destruct (H6 d) as (M1 & _ & _ & SC); [lia|]. destruct (Md_spec A d) as (M2 & M3 & M4); [lia|]. assert (EM : M d = Md A d) by congruence. rewrite EM in *.
    specialize (Hf d ltac:(lia)). rewrite SC in Hf. cbn [last] in Hf.
    pose proof (tail_le svd SVD A (Md A d) [d] (length (firstn (min_opt (k0 d) (nth d mr None)) (snd (fst (svd (Md A d)))))) f) as Q. cbv zeta in Q. specialize (Q ltac:(repeat constructor; simpl; tauto) ltac:(repeat constructor; lia)).
    cbn [sel map prodn sub2indF] in Q. rewrite Nat.mul_1_r in Q. specialize (Q M3).
    assert (Q' := fun H => Q H Hf). clear Q.
    assert (Q2 : sumsq (skipn (length (firstn (min_opt (k0 d) (nth d mr None)) (snd (fst (svd (Md A d)))))) (snd (fst (svd (Md A d))))) <= err2 A f).
    { apply Q'. intros is Hv. rewrite <- (M4 is Hv). rewrite Nat.mul_0_r, Nat.add_0_r. auto. }
    rewrite firstn_length in Q2. destruct (Nat.le_gt_cases (min_opt (k0 d) (nth d mr None)) (length (snd (fst (svd (Md A d)))))).
    - rewrite Nat.min_l in Q2 by auto. exact Q2.
    - rewrite Nat.min_r in Q2 by lia. rewrite skipn_all2 by lia. rewrite skipn_all2 in Q2 by lia. exact Q2.
  Qed.
End S.
(** a QR decomposition exists *)
Lemma qr_contract_exists : exists qr : nd R -> nd R * nd R, qr_contract qr.
Proof.
  destruct (functional_choice (fun (M : nd R) (q : nd R * nd R) => forall m n, shape M = [m; n] ->
    exists k, k = Nat.min m n /\ shape (fst q) = [m; k] /\ shape (snd q) = [k; n] /\
      (forall i j, (i < m)%nat -> (j < n)%nat -> get M [i; j] = rsum k (fun c => rmul (get (fst q) [i; c]) (get (snd q) [c; j]))) /\
      (forall a b, (a < k)%nat -> (b < k)%nat ->
         rsum m (fun i => rmul (get (fst q) [i; a]) (get (fst q) [i; b])) = if (a =? b)%nat then r1 else r0))) as (f & Hf).
  - intros M. destruct (shape M) as [|m [|n [|]]] eqn:EM.
    1,2,4: exists (M, M); intros; discriminate.
    destruct (qr_exists m n (fun i j => get M [i; j])) as (q & r & HO & HA).
    exists (ND [m; Nat.min m n] (fun is => q (nth 0 is 0%nat) (nth 1 is 0%nat)), ND [Nat.min m n; n] (fun is => r (nth 0 is 0%nat) (nth 1 is 0%nat))).
    intros m' n' E. inversion E; subst. exists (Nat.min m' n'). cbn [fst snd shape get nth]. split; [reflexivity|]. split; [reflexivity|]. split; [reflexivity|]. split.
    + intros i j Hi Hj. rewrite HA by auto. reflexivity.
    + intros a b Ha Hb. exact (HO a b Ha Hb).
  - exists f. intros M m n E. exact (Hf M m n E).
Qed.
