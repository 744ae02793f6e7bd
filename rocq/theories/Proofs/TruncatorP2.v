(** Truncator: the error of the truncated singular value decomposition. *)
From Coq Require Import List Arith Lia Bool Reals Lra.
From Verif.Base Require Import ListAux CRing Index RealAux.
From Verif.Model Require Import Sorting Numpy FullTensor Diagonal Canonical DimensionTree TreeBased Truncator.
From Verif.Spec Require Import TensorSpec TreeTensorSpec TruncatorSpec.
From Verif.Proofs Require Import TruncatorP.
Import ListNotations.
Local Open Scope R_scope.

Definition dl (a b : nat) : R := if a =? b then 1 else 0.
Lemma rsum_sq_dl k (w : nat -> R) : rsum k (fun c => rsum k (fun d => w c * w d * (dl c d * dl c d))) = rsum k (fun c => w c * w c).
Proof.
  apply rsum_ext. intros c Hc. rewrite (rsum_single k c) by (auto; intros d Hd Hne; unfold dl; rewrite (proj2 (Nat.eqb_neq c d)) by auto; rcbn; ring).
  unfold dl. rewrite Nat.eqb_refl. ring.
Qed.
Lemma frob_diag m n k (U V : nat -> nat -> R) (w : nat -> R) :
  (forall a b, (a < k)%nat -> (b < k)%nat -> rsum m (fun i => U i a * U i b) = dl a b) ->
  (forall a b, (a < k)%nat -> (b < k)%nat -> rsum n (fun j => V a j * V b j) = dl a b) ->
  rsum m (fun i => rsum n (fun j => rsum k (fun c => U i c * w c * V c j) * rsum k (fun c => U i c * w c * V c j))) = rsum k (fun c => w c * w c).
Proof.
  intros HU HV.
  assert (E1 : forall i j, rsum k (fun c => U i c * w c * V c j) * rsum k (fun c => U i c * w c * V c j)
     = rsum k (fun c => rsum k (fun d => (w c * w d) * (U i c * U i d * (V c j * V d j))))).
  { intros i j. change (rsum k (fun c => U i c * w c * V c j) * rsum k (fun c => U i c * w c * V c j)) with (rmul (rsum k (fun c => U i c * w c * V c j)) (rsum k (fun c => U i c * w c * V c j))).
    rewrite rmul_rsum. apply rsum_ext. intros c _. apply rsum_ext. intros d _. rcbn. ring. }
  transitivity (rsum m (fun i => rsum n (fun j => rsum k (fun c => rsum k (fun d => (w c * w d) * (U i c * U i d * (V c j * V d j))))))).
  { apply rsum_ext. intros i _. apply rsum_ext. intros j _. apply E1. }
  transitivity (rsum k (fun c => rsum k (fun d => w c * w d * (rsum m (fun i => U i c * U i d) * rsum n (fun j => V c j * V d j))))).
  { transitivity (rsum m (fun i => rsum k (fun c => rsum k (fun d => (w c * w d) * (U i c * U i d * rsum n (fun j => V c j * V d j)))))).
    - apply rsum_ext. intros i _. rewrite rsum_exchange. apply rsum_ext. intros c _. rewrite rsum_exchange. apply rsum_ext. intros d _.
      change (fun j => w c * w d * (U i c * U i d * (V c j * V d j))) with (fun j => rmul (w c * w d) (rmul (U i c * U i d) (V c j * V d j))).
      rewrite rsum_scal_l, rsum_scal_l. reflexivity.
    - rewrite rsum_exchange. apply rsum_ext. intros c _. rewrite rsum_exchange. apply rsum_ext. intros d _.
      change (fun i => w c * w d * (U i c * U i d * rsum n (fun j => V c j * V d j))) with (fun i => rmul (w c * w d) (rmul (U i c * U i d) (rsum n (fun j => V c j * V d j)))).
      rewrite rsum_scal_l, rsum_scal_r. reflexivity. }
  rewrite <- rsum_sq_dl. apply rsum_ext. intros c Hc. apply rsum_ext. intros d Hd. rewrite HU, HV by auto. reflexivity.
Qed.
Lemma sumsq_rsum l : sumsq l = rsum (length l) (fun c => nth c l 0 * nth c l 0).
Proof.
  unfold sumsq. rewrite <- lsum_seq. rewrite <- (lsum_map (fun k => nth k l 0) (seq 0 (length l)) (fun x => x * x)).
  rewrite map_seq_nth. auto.
Qed.
Lemma sumsq_skipn k l : sumsq (skipn k l) = rsum (length l) (fun c => (if c <? k then 0 else nth c l 0) * (if c <? k then 0 else nth c l 0)).
Proof.
  destruct (le_lt_dec (length l) k) as [H|H].
  - rewrite skipn_all2 by auto. rewrite rsum_zero; [reflexivity|]. intros i Hi. destruct (Nat.ltb_spec i k); [|lia]. rcbn. ring.
  - rewrite sumsq_rsum, skipn_length. replace (length l) with (k + (length l - k))%nat at 2 by lia. rewrite rsum_add.
    rewrite (rsum_zero k). 2:{ intros i Hi. destruct (Nat.ltb_spec i k); [|lia]. rcbn. ring. }
    rcbn. rewrite Rplus_0_l. apply rsum_ext. intros i Hi. destruct (Nat.ltb_spec (k + i) k); [lia|].
    rewrite <- (firstn_skipn k l) at 3 4. rewrite app_nth2 by (rewrite firstn_length; lia). rewrite firstn_length.
    replace (k + i - Nat.min k (length l))%nat with i by lia. auto.
Qed.

Section TSVD.
  Variable svd : nd R -> nd R * list R * nd R.
  Hypothesis SVD : svd_contract svd.
  Variables (M : nd R) (m n : nat).
  Hypothesis HM : shape M = [m; n].
  Notation U := (fst (fst (svd M))).
  Notation s := (snd (fst (svd M))).
  Notation V := (snd (svd M)).

  Lemma svd_frob : frob2 M = sumsq s.
  Proof.
    destruct (SVD M m n HM) as (SU & Ls & SV & Sp & Sd & OU & OV & EM).
    unfold frob2. rewrite HM. cbn [bsum]. rewrite sumsq_rsum, Ls.
    rewrite <- (frob_diag m n (Nat.min m n) (fun i c => get U [i; c]) (fun c j => get V [c; j]) (fun c => nth c s 0)) by (auto).
    apply rsum_ext. intros i Hi. apply rsum_ext. intros j Hj. rewrite EM by auto. auto.
  Qed.
  (** value of the truncated decomposition *)
  Lemma trunc_val k i j : (i < m)%nat -> (j < n)%nat ->
    cp_val (firstn k s) [take_cols U k; take_rows_tr V k] [i; j] = rsum (Nat.min m n) (fun c => get U [i; c] * (if c <? k then nth c s 0 else 0) * get V [c; j]).
  Proof.
    intros Hi Hj. destruct (SVD M m n HM) as (SU & Ls & SV & _). unfold cp_val. rewrite firstn_length, Ls.
    set (K := Nat.min m n) in *. replace K with (Nat.min k K + (K - Nat.min k K))%nat at 2 by lia. rewrite rsum_add.
    rewrite (rsum_zero (K - Nat.min k K)). 2:{ intros c Hc. destruct (Nat.ltb_spec (Nat.min k K + c) k); [lia|]. rcbn. ring. }
    rcbn. rewrite Rplus_0_r. apply rsum_ext. intros c Hc. destruct (Nat.ltb_spec c k); [|lia].
    assert (E : nth c (firstn k s) 0 = nth c s 0).
    { rewrite <- (firstn_skipn k s) at 2. rewrite app_nth1 by (rewrite firstn_length; lia). auto. }
    rcbn. rewrite E. cbn. ring.
  Qed.
  Lemma trunc_err k : err2 M (cp_val (firstn k s) [take_cols U k; take_rows_tr V k]) = sumsq (skipn k s).
  Proof.
    destruct (SVD M m n HM) as (SU & Ls & SV & Sp & Sd & OU & OV & EM).
    unfold err2. rewrite HM. cbn [bsum]. rewrite sumsq_skipn, Ls.
    rewrite <- (frob_diag m n (Nat.min m n) (fun i c => get U [i; c]) (fun c j => get V [c; j]) (fun c => if c <? k then 0 else nth c s 0)) by auto.
    apply rsum_ext. intros i Hi. apply rsum_ext. intros j Hj. rewrite EM, trunc_val by auto.
    assert (E : forall a b c, a - b = c -> (a - b) * (a - b) = c * c) by (intros; subst; auto). apply E.
    change (rsum (Nat.min m n) (fun c => get U [i; c] * nth c s 0 * get V [c; j]) - rsum (Nat.min m n) (fun c => get U [i; c] * (if c <? k then nth c s 0 else 0) * get V [c; j]))
      with (rsub (rsum (Nat.min m n) (fun c => get U [i; c] * nth c s 0 * get V [c; j])) (rsum (Nat.min m n) (fun c => get U [i; c] * (if c <? k then nth c s 0 else 0) * get V [c; j]))).
    rewrite <- rsum_minus. apply rsum_ext. intros c Hc. rcbn. destruct (c <? k); ring.
  Qed.
  Lemma trunc_cp_ok k : cp_ok (firstn k s) [take_cols U k; take_rows_tr V k] /\ cp_dims [take_cols U k; take_rows_tr V k] = [m; n].
  Proof.
    destruct (SVD M m n HM) as (SU & Ls & SV & _). split.
    - split; [discriminate|]. rewrite firstn_length, Ls. unfold take_cols, take_rows_tr. rewrite SU, SV. cbn.
      repeat constructor; eexists; reflexivity.
    - unfold cp_dims, take_cols, take_rows_tr. rewrite SU, SV. reflexivity.
  Qed.
  Lemma take_cols_orth k : orth_cols (take_cols U k).
  Proof.
    destruct (SVD M m n HM) as (SU & Ls & SV & Sp & Sd & OU & OV & EM). unfold take_cols. rewrite SU. cbn [nth]. intros a b Ha Hb. cbn in Ha, Hb |- *.
    rewrite <- (OU a b) by lia. auto.
  Qed.
  Lemma take_rows_orth k : orth_cols (take_rows_tr V k).
  Proof.
    destruct (SVD M m n HM) as (SU & Ls & SV & Sp & Sd & OU & OV & EM). unfold take_rows_tr. rewrite SV. cbn [nth]. intros a b Ha Hb. cbn in Ha, Hb |- *.
    rewrite <- (OV a b) by lia. auto.
  Qed.
  Lemma sv_in x : In x s -> 0 <= x.
  Proof.
    destruct (SVD M m n HM) as (SU & Ls & SV & Sp & _). intros H. apply (In_nth _ _ 0) in H. destruct H as (c & Hc & <-). apply Sp. lia.
  Qed.
  Lemma sv_all_zero_iff p : lsum s (fun x => rpow x p) = 0 <-> forall x, In x s -> x = 0.
  Proof.
    split.
    - intros E x Hx. pose proof (lsum_zero_iff s _ (fun a _ => rpow_nonneg a p) E x Hx) as H. pose proof (sv_in x Hx).
      destruct (Req_dec x 0); auto. pose proof (rpow_pos x p ltac:(lra)). lra.
    - intros H. rewrite (lsum_zero s (fun x => rpow x p)); [reflexivity|]. intros a Ha. rewrite (H a Ha). apply rpow_0.
  Qed.
  Lemma sumsq_zero l : sumsq l = 0 -> forall x, In x l -> x = 0.
  Proof.
    intros E x Hx. pose proof (lsum_zero_iff l (fun x => x * x) (fun a _ => Rle_0_sqr a) E x Hx) as H. cbn beta in H. nra.
  Qed.
  Lemma pnorm2 l : (forall x, In x l -> 0 <= x) -> pnorm 2 l = sqrt (sumsq l).
  Proof.
    intros H. unfold pnorm. rewrite rpow_half by (apply tsum_nonneg). f_equal. apply lsum_ext. intros x Hx. apply rpow_2. auto.
  Qed.
  Lemma sumsq_nonneg l : 0 <= sumsq l.
  Proof. apply lsum_nonneg. intros. apply Rle_0_sqr. Qed.
  Lemma skipn_in {A} k (l : list A) x : In x (skipn k l) -> In x l.
  Proof. intros H. rewrite <- (firstn_skipn k l). apply in_or_app. auto. Qed.
End TSVD.

Section TSVD2.
  Variable svd : nd R -> nd R * list R * nd R.
  Hypothesis SVD : svd_contract svd.
  Variables (t : truncator) (M : nd R) (m n : nat).
  Hypothesis HM : shape M = [m; n].
  Hypothesis Hm : (0 < m)%nat.
  Hypothesis Hn : (0 < n)%nat.
  Variables (mr : option nat) (tol : R).
  Hypothesis Hmr : max_rank t = [mr].
  Hypothesis Hth : thresholding_parameter t = None \/ thresholding_parameter t = Some 0.

  Lemma trunc_rank_eq pw : trunc_rank t pw tol (Nat.min m n) (snd (fst (svd M))) = Some (min_opt (tol_rank pw tol (Nat.min m n) (snd (fst (svd M)))) mr, snd (fst (svd M))).
  Proof.
    unfold trunc_rank. rewrite Hmr. destruct Hth as [-> | ->]; auto. destruct (Req_EM_T 0 0); auto. lra.
  Qed.
  Lemma trunc_svd_eq pw : trunc_svd svd t M (Some tol) pw =
    let k := min_opt (tol_rank pw tol (Nat.min m n) (snd (fst (svd M)))) mr in
    Some (CP (firstn k (snd (fst (svd M)))) [take_cols (fst (fst (svd M))) k; take_rows_tr (snd (svd M)) k]).
  Proof.
    unfold trunc_svd. pose proof (trunc_rank_eq pw) as E. destruct (svd M) as [[U s] V] eqn:ES. cbn [fst snd] in *. rewrite HM. cbn [nth]. rewrite E. cbn. auto.
  Qed.
  Lemma trunc_svd_default pw : trunc_svd svd t M None pw = trunc_svd svd t M (Some (tolerance t)) pw.
  Proof. reflexivity. Qed.

  (** error bound when max_rank is not reached *)
  Lemma tol_rank_err : 0 < tol -> let k := tol_rank (Pw 2) tol (Nat.min m n) (snd (fst (svd M))) in
    sumsq (skipn k (snd (fst (svd M)))) <= tol * tol * sumsq (snd (fst (svd M))).
  Proof.
    intros Ht. destruct (SVD M m n HM) as (_ & Ls & _). set (s := snd (fst (svd M))) in *. cbn zeta.
    assert (Hin : forall x, In x s -> 0 <= x) by (intros; eapply (sv_in svd SVD M m n); eauto).
    rewrite <- Ls. destruct (Req_dec (lsum s (fun x => rpow x 2)) 0) as [Hz|Hz].
    - rewrite (tol_rank_zero (Pw 2) tol s) by (auto; lia). rewrite skipn_all. unfold sumsq at 1. simpl. rcbn. pose proof (sumsq_nonneg s). nra.
    - destruct (tol_rank_p 2 tol s) as (K1 & K2 & K3); [lra|auto|lia|auto|].
      set (k := tol_rank (Pw 2) tol (length s) s) in *. rewrite !pnorm2 in K2 by (auto; intros; eauto using skipn_in).
      pose proof (sumsq_nonneg s). pose proof (sumsq_nonneg (skipn k s)). pose proof (sqrt_pos (sumsq (skipn k s))). pose proof (sqrt_pos (sumsq s)).
      rewrite <- (sqrt_sqrt (sumsq (skipn k s))) by auto. rewrite <- (sqrt_sqrt (sumsq s)) by auto. nra.
  Qed.
End TSVD2.
