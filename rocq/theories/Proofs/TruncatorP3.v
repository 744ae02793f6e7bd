(** Truncator: matricisations and the projections of the HOSVD. *)
From Coq Require Import List Arith Lia Bool Reals Lra.
From Verif.Base Require Import ListAux CRing Index RealAux.
From Verif.Model Require Import Sorting Numpy FullTensor Diagonal Canonical DimensionTree TreeBased Truncator.
From Verif.Spec Require Import TensorSpec TreeSpec TreeTensorSpec TruncatorSpec.
From Verif.Proofs Require Import NumpyP FullTensorP TruncatorP TruncatorP2 ProjP.
Import ListNotations.
Local Open Scope R_scope.

(** sum over the entries of a matricisation *)
Lemma bsum_mat s d (F : nat -> nat -> R) : NoDup d -> Forall (fun k => (k < length s)%nat) d ->
  let c := compl (length s) d in
  bsum s (fun is => F (sub2indF (sel 0%nat s d) (sel 0%nat is d)) (sub2indF (sel 0%nat s c) (sel 0%nat is c)))
  = rsum (prodn (sel 0%nat s d)) (fun i => rsum (prodn (sel 0%nat s c)) (fun j => F i j)).
Proof.
  intros Hd Hf c.
  transitivity (bsum (sel 0%nat s d ++ sel 0%nat s c) (fun ks => F (sub2indF (sel 0%nat s d) (firstn (length d) ks)) (sub2indF (sel 0%nat s c) (skipn (length d) ks)))).
  - rewrite <- (bsum_bij s (sel 0%nat s d ++ sel 0%nat s c) (fun is => sel 0%nat is d ++ sel 0%nat is c)
       (fun ks => asm (length s) d (firstn (length d) ks) (skipn (length d) ks))).
    + apply bsum_ext. intros is Hi. rewrite firstn_app, skipn_app, sel_length, Nat.sub_diag, firstn_O, skipn_O, app_nil_r.
      rewrite firstn_all2, skipn_all2 by (rewrite sel_length; auto). auto.
    + intros is Hi. split.
      * apply valid_app; apply sel_valid; auto. apply compl_lt.
      * rewrite firstn_app, skipn_app, sel_length, Nat.sub_diag, firstn_O, skipn_O, app_nil_r.
        rewrite firstn_all2, skipn_all2 by (rewrite sel_length; auto). cbn [app]. apply asm_sel; auto. apply valid_length; auto.
    + intros js Hj. apply valid_app_inv in Hj. destruct Hj as (j1 & j2 & -> & V1 & V2).
      pose proof (valid_length _ _ V1) as L1. pose proof (valid_length _ _ V2) as L2. rewrite sel_length in L1, L2.
      rewrite firstn_app, skipn_app, L1, Nat.sub_diag, firstn_O, skipn_O, app_nil_r. rewrite firstn_all2, skipn_all2 by lia. cbn [app].
      split; [apply valid_asm; auto|]. rewrite sel_asm by auto. unfold c. rewrite sel_asm_compl by auto. auto.
  - rewrite bsum_app. rewrite <- bsum_linear'. apply bsum_ext. intros is Hi. rewrite <- bsum_linear'. apply bsum_ext. intros js Hj.
    pose proof (valid_length _ _ Hi) as L1. rewrite sel_length in L1.
    rewrite firstn_app, skipn_app, L1, Nat.sub_diag, firstn_O, skipn_O, app_nil_r. rewrite firstn_all2, skipn_all2 by lia. cbn [app]. auto.
Qed.

(** the projection on the span of the first k left singular vectors *)
Section SvdProj.
  Variable svd : nd R -> nd R * list R * nd R.
  Hypothesis SVD : svd_contract svd.
  Variables (M : nd R) (m n k : nat).
  Hypothesis HM : shape M = [m; n].
  Definition gram (U : nd R) (r : nat) (i j : nat) : R := rsum r (fun a => get U [i; a] * get U [j; a]).
  Notation U := (fst (fst (svd M))).
  Notation s := (snd (fst (svd M))).
  Notation V := (snd (svd M)).
  Notation r := (Nat.min k (Nat.min m n)).
  Lemma gram_sym i j : gram U r i j = gram U r j i.
  Proof. apply rsum_ext. intros. ring. Qed.
  Lemma gram_idem i j : (i < m)%nat -> (j < m)%nat -> rsum m (fun l => gram U r i l * gram U r l j) = gram U r i j.
  Proof.
    intros Hi Hj. destruct (SVD M m n HM) as (SU & Ls & SV & Sp & Sd & OU & OV & EM). unfold gram.
    transitivity (rsum m (fun l => rsum r (fun a => rsum r (fun b => (get U [i; a] * get U [j; b]) * (get U [l; a] * get U [l; b]))))).
    { apply rsum_ext. intros l _. change (rsum r (fun a => get U [i; a] * get U [l; a]) * rsum r (fun a => get U [l; a] * get U [j; a]))
        with (rmul (rsum r (fun a => get U [i; a] * get U [l; a])) (rsum r (fun a => get U [l; a] * get U [j; a]))).
      rewrite rmul_rsum. apply rsum_ext. intros a _. apply rsum_ext. intros b _. rcbn. ring. }
    rewrite rsum_exchange. apply rsum_ext. intros a Ha. rewrite rsum_exchange.
    transitivity (rsum r (fun b => get U [i; a] * get U [j; b] * (if a =? b then 1 else 0))).
    { apply rsum_ext. intros b Hb. change (fun l => get U [i; a] * get U [j; b] * (get U [l; a] * get U [l; b])) with (fun l => rmul (get U [i; a] * get U [j; b]) (get U [l; a] * get U [l; b])).
      rewrite rsum_scal_l. rcbn. rewrite <- (OU a b) by lia. auto. }
    rewrite (rsum_single r a) by (auto; intros b Hb Hne; rewrite (proj2 (Nat.eqb_neq a b)) by auto; rcbn; ring).
    rewrite Nat.eqb_refl. ring.
  Qed.
  (** projection of the matrix: the truncated decomposition *)
  Lemma gram_mat i j : (i < m)%nat -> (j < n)%nat ->
    rsum m (fun l => gram U r i l * get M [l; j]) = cp_val (firstn k s) [take_cols U k; take_rows_tr V k] [i; j].
  Proof.
    intros Hi Hj. rewrite (trunc_val svd SVD M m n HM) by auto.
    destruct (SVD M m n HM) as (SU & Ls & SV & Sp & Sd & OU & OV & EM). unfold gram.
    transitivity (rsum r (fun a => get U [i; a] * nth a s 0 * get V [a; j])).
    - transitivity (rsum m (fun l => rsum r (fun a => rsum (Nat.min m n) (fun c => (get U [i; a] * nth c s 0 * get V [c; j]) * (get U [l; a] * get U [l; c]))))).
      { apply rsum_ext. intros l Hl. rewrite EM by auto.
        change (rsum r (fun a => get U [i; a] * get U [l; a]) * rsum (Nat.min m n) (fun c => get U [l; c] * nth c s 0 * get V [c; j]))
        with (rmul (rsum r (fun a => get U [i; a] * get U [l; a])) (rsum (Nat.min m n) (fun c => get U [l; c] * nth c s 0 * get V [c; j]))).
        rewrite rmul_rsum. apply rsum_ext. intros a _. apply rsum_ext. intros c _. rcbn. ring. }
      rewrite rsum_exchange. apply rsum_ext. intros a Ha. rewrite rsum_exchange.
      transitivity (rsum (Nat.min m n) (fun c => get U [i; a] * nth c s 0 * get V [c; j] * (if a =? c then 1 else 0))).
      { apply rsum_ext. intros c Hc.
        change (fun l => get U [i; a] * nth c s 0 * get V [c; j] * (get U [l; a] * get U [l; c])) with (fun l => rmul (get U [i; a] * nth c s 0 * get V [c; j]) (get U [l; a] * get U [l; c])).
        rewrite rsum_scal_l. rcbn. rewrite <- (OU a c) by lia. auto. }
      rewrite (rsum_single _ a) by (try lia; intros b Hb Hne; rewrite (proj2 (Nat.eqb_neq a b)) by auto; rcbn; ring).
      rewrite Nat.eqb_refl. ring.
    - replace (Nat.min m n) with (r + (Nat.min m n - r))%nat at 2 by lia. rewrite rsum_add.
      rewrite (rsum_zero (Nat.min m n - r)). 2:{ intros c Hc. destruct (Nat.ltb_spec (r + c) k); [lia|]. rcbn. ring. }
      rcbn. rewrite Rplus_0_r. apply rsum_ext. intros c Hc. destruct (Nat.ltb_spec c k); [|lia]. auto.
  Qed.
End SvdProj.
