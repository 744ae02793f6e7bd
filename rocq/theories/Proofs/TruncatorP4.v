(** Truncator.hosvd: value and error. *)
From Coq Require Import List Arith Lia Bool Reals Lra.
From Verif.Base Require Import ListAux CRing Index RealAux.
From Verif.Model Require Import Sorting Numpy FullTensor Diagonal Canonical DimensionTree TreeBased Truncator.
From Verif.Spec Require Import TensorSpec TreeSpec TreeTensorSpec TruncatorSpec.
From Verif.Proofs Require Import NumpyP FullTensorP TreeTensorP16 TruncatorP TruncatorP2 TruncatorP3 ProjP.
Import ListNotations.
Local Open Scope R_scope.

Lemma ofold_app {A S} (f : S -> A -> option S) l l' s : ofold f (l ++ l') s = match ofold f l s with Some s' => ofold f l' s' | None => None end.
Proof. revert s. induction l as [|a l IH]; intros s; simpl; auto. destruct (f s a); auto. Qed.

Section Hosvd.
  Variable svd : nd R -> nd R * list R * nd R.
  Hypothesis SVD : svd_contract svd.
  Variables (t : truncator) (A : nd R).
  Notation s := (shape A).
  Notation D := (ndim A).
  Variable mr : list (option nat).
  Hypothesis Hmr : mr = match max_rank t with [m] => repeat m D | l => l end.
  Hypothesis Lmr : length mr = D.
  Hypothesis Hth : thresholding_parameter t = None \/ thresholding_parameter t = Some 0.
  Hypothesis HP : Forall (fun n => (0 < n)%nat) s.
  Hypothesis HR : Forall (fun m => m <> Some 0%nat) mr.
  Variable ltol : R.

  Definition Md (d : nat) : nd R := match ft_matricize A [d] None with Some M => M | None => scalar 0 end.
  Definition oth (d : nat) : list nat := sel 0%nat s (compl D [d]).
  Lemma Md_spec d : (d < D)%nat -> ft_matricize A [d] None = Some (Md d) /\ shape (Md d) = [nth d s 0%nat; prodn (oth d)] /\
    forall is, valid s is -> get (Md d) [nth d is 0%nat; sub2indF (oth d) (sel 0%nat is (compl D [d]))] = get A is.
  Proof.
    intros Hd. destruct (ft_matricize_spec A [d] (compl D [d])) as (M & HM & HsM & HgM); [apply app_compl_perm; auto using NoDup_single, Forall_lt_single|].
    unfold Md. rewrite ft_matricize_default, HM. split; auto. cbn [sel map prodn] in HsM. rewrite Nat.mul_1_r in HsM. split; auto.
    intros is Hv. rewrite <- (HgM is Hv). cbn [sel map sub2indF]. rewrite Nat.mul_0_r, Nat.add_0_r. auto.
  Qed.
  Lemma s_pos d : (d < D)%nat -> (0 < nth d s 0)%nat.
  Proof. intros Hd. apply (proj1 (Forall_nth' _ _ 0%nat) HP). auto. Qed.
  Lemma oth_pos d : (0 < prodn (oth d))%nat.
  Proof.
    apply prodn_pos. apply Forall_forall. intros n Hn. apply in_map_iff in Hn. destruct Hn as (k & <- & Hk). apply in_compl in Hk. apply s_pos. tauto.
  Qed.
  Definition sd (d : nat) : list R := snd (fst (svd (Md d))).
  Definition kd (d : nat) : nat := min_opt (tol_rank (Pw 2) ltol (Nat.min (nth d s 0%nat) (prodn (oth d))) (sd d)) (nth d mr None).
  Definition Ud (d : nat) : nd R := take_cols (fst (fst (svd (Md d)))) (kd d).
  Definition rd (d : nat) : nat := Nat.min (kd d) (Nat.min (nth d s 0%nat) (prodn (oth d))).
  Lemma Ud_shape d : (d < D)%nat -> shape (Ud d) = [nth d s 0%nat; rd d].
  Proof.
    intros Hd. destruct (Md_spec d Hd) as (_ & HM & _). destruct (SVD _ _ _ HM) as (SU & _). unfold Ud, take_cols. rewrite SU. reflexivity.
  Qed.
  Lemma tol_rank_pos pw tol n l : (1 <= tol_rank pw tol n l)%nat.
  Proof. unfold tol_rank. destruct (first_true _); lia. Qed.
  Lemma rd_pos d : (d < D)%nat -> (0 < rd d)%nat.
  Proof.
    intros Hd. unfold rd. pose proof (s_pos d Hd). pose proof (oth_pos d). unfold kd. pose proof (tol_rank_pos (Pw 2) ltol (Nat.min (nth d s 0%nat) (prodn (oth d))) (sd d)).
    assert (HM : nth d mr None <> Some 0%nat) by (apply (proj1 (Forall_nth' _ _ None) HR); lia).
    unfold min_opt. destruct (nth d mr None) as [m|]; [|lia]. assert (m <> 0%nat) by congruence. lia.
  Qed.
  Definition tk (k : nat) : truncator := match k with O => t | S j => set_max_rank t (nth j mr None) end.
  Lemma hosvd_loop k : (k <= D)%nat -> ofold (hosvd_step svd A ltol mr) (seq 0 k) (t, []) = Some (tk k, map Ud (seq 0 k)).
  Proof.
    induction k as [|k IH]; intros Hk; [reflexivity|]. rewrite seq_S_snoc, ofold_app, IH by lia. cbn [plus ofold]. unfold hosvd_step at 1. cbn [fst snd].
    rewrite (nth_error_nth' mr None) by lia. destruct (Md_spec k) as (E & HM & _); [lia|]. rewrite E. cbn [bind].
    rewrite (trunc_svd_eq svd (set_max_rank (tk k) (nth k mr None)) (Md k) _ _ HM (nth k mr None) ltol).
    - cbn [bind cp_space nth]. rewrite map_app. cbn [map]. repeat f_equal. destruct k; reflexivity.
    - reflexivity.
    - destruct k; simpl; auto.
  Qed.
  Definition Us : list (nd R) := map Ud (seq 0 D).
  Definition UT (d : nat) : nd R := ND [rd d; nth d s 0%nat] (fun is => get (Ud d) [nth 1 is 0%nat; nth 0 is 0%nat]).
  Lemma UT_eq d : (d < D)%nat -> exists B, np_transpose (nth d Us (scalar 0)) [1%nat; 0%nat] = Some B /\ shape B = [rd d; nth d s 0%nat] /\ forall a b, get B [a; b] = get (Ud d) [b; a].
  Proof.
    intros Hd. unfold Us. rewrite nth_map_seq by auto. cbn [plus]. rewrite np_transpose_perm.
    - rewrite Ud_shape by auto. eexists. split; [reflexivity|]. split; [reflexivity|]. intros. reflexivity.
    - unfold ndim. rewrite Ud_shape by auto. apply permb_spec. reflexivity.
  Qed.
  Definition UTs : list (nd R) := map (fun d => match np_transpose (nth d Us (scalar 0)) [1%nat; 0%nat] with Some B => B | None => scalar 0 end) (seq 0 D).
  Lemma core_fold : forall k l C, (forall d, In d l -> (d < D)%nat) -> k = length l ->
    ofold (fun C d => let* Vt := np_transpose (nth d Us (scalar 0)) [1%nat; 0%nat] in ft_tensor_matrix_product C [Vt] (Some [d])) l C
    = ofold ft_tmp_step (combine l (map (fun d => match np_transpose (nth d Us (scalar 0)) [1%nat; 0%nat] with Some B => B | None => scalar 0 end) l)) C.
  Proof.
    intros k l C H _. revert C. induction l as [|d l IH]; intros C; [reflexivity|]. cbn [ofold map combine].
    destruct (UT_eq d) as (B & EB & _); [apply H; simpl; auto|]. rewrite EB. cbn [bind].
    unfold ft_tensor_matrix_product. cbn [length Nat.eqb negb combine ofold]. destruct (ft_tmp_step C (d, B)); auto. apply IH. intros; apply H; simpl; auto.
  Qed.
  Lemma UTs_shape d : (d < D)%nat -> shape (nth d UTs (scalar 0)) = [rd d; nth d s 0%nat].
  Proof. intros Hd. unfold UTs. rewrite nth_map_seq by auto. cbn [plus]. destruct (UT_eq d Hd) as (B & -> & HB & _). auto. Qed.
  Lemma UTs_get d a b : (d < D)%nat -> get (nth d UTs (scalar 0)) [a; b] = get (Ud d) [b; a].
  Proof. intros Hd. unfold UTs. rewrite nth_map_seq by auto. cbn [plus]. destruct (UT_eq d Hd) as (B & -> & _ & HB). auto. Qed.
  Definition rs : list nat := map rd (seq 0 D).
  Lemma core_spec : exists C,
    ofold (fun C d => let* Vt := np_transpose (nth d Us (scalar 0)) [1%nat; 0%nat] in ft_tensor_matrix_product C [Vt] (Some [d])) (seq 0 D) A = Some C /\
    shape C = rs /\ forall js, valid rs js -> get C js = bsum s (fun ls => get A ls * factors UTs js ls).
  Proof.
    rewrite (core_fold D) by (try (rewrite seq_length; auto); intros d Hd; apply in_seq in Hd; lia). fold UTs.
    assert (LU : length UTs = D) by (unfold UTs; rewrite map_length, seq_length; auto).
    destruct (ft_tmp_fold (seq 0 D) A UTs) as (C & HC & HsC & HgC).
    - apply seq_NoDup.
    - apply Forall_forall. intros x Hx. apply in_seq in Hx. lia.
    - rewrite seq_length. auto.
    - intros k Hk. rewrite seq_length in Hk. rewrite seq_nth by auto. exists (rd k). apply UTs_shape. auto.
    - exists C. split; auto.
      assert (E : put (seq 0 D) (map (fun M : nd R => nth 0 (shape M) 0%nat) UTs) s = rs).
      { rewrite (put_all D) by (auto; rewrite map_length; auto). unfold rs. apply nth_ext' with (d := 0%nat); [rewrite !map_length, seq_length; auto|].
        rewrite map_length. intros d Hd. rewrite map_nth_in with (da := scalar 0) by auto. rewrite UTs_shape by lia. rewrite nth_map_seq by lia. auto. }
      rewrite E in HsC. split; auto. intros js Hj. rewrite HgC by (rewrite E; auto).
      assert (Lj : length js = D) by (rewrite (valid_length _ _ Hj); unfold rs; rewrite map_length, seq_length; auto).
      replace (sel 0%nat s (seq 0 D)) with s by (symmetry; apply (sel_seq 0%nat s)). apply bsum_ext. intros ls Hl.
      pose proof (valid_length _ _ Hl) as Ll. rewrite (put_all D) by auto. replace (sel 0%nat js (seq 0 D)) with js by (rewrite <- Lj; symmetry; apply sel_seq). auto.
  Qed.

  Definition UTd (d : nat) : nd R := match np_transpose (nth d Us (scalar 0)) [1%nat; 0%nat] with Some B => B | None => scalar 0 end.
  Definition Q0 (d i l : nat) : R := rsum (rd d) (fun a => get (Ud d) [i; a] * get (UTd d) [a; l]).
  Definition Q (d i l : nat) : R := rsum (rd d) (fun a => get (Ud d) [i; a] * get (Ud d) [l; a]).
  Lemma Q0_Q d i l : (d < D)%nat -> Q0 d i l = Q d i l.
  Proof.
    intros Hd. apply rsum_ext. intros a _. f_equal. unfold UTd. destruct (UT_eq d Hd) as (B & -> & _ & HB). auto.
  Qed.
  Lemma factors_q n : forall b is ls, length is = n -> length ls = n ->
    bsum (map rd (seq b n)) (fun js => factors (map UTd (seq b n)) js ls * factors (map Ud (seq b n)) is js) = qprod Q0 b is ls.
  Proof.
    induction n as [|n IH]; intros b is ls Hi Hl; destruct is as [|i is]; destruct ls as [|l ls]; try discriminate; cbn [seq map bsum factors qprod].
    - rcbn. ring.
    - rewrite <- (IH (S b) is ls) by (simpl in *; lia). unfold Q0.
      change (rsum (rd b) (fun a => get (Ud b) [i; a] * get (UTd b) [a; l]) * bsum (map rd (seq (S b) n)) (fun js => factors (map UTd (seq (S b) n)) js ls * factors (map Ud (seq (S b) n)) is js))
       with (rmul (rsum (rd b) (fun a => get (Ud b) [i; a] * get (UTd b) [a; l])) (bsum (map rd (seq (S b) n)) (fun js => factors (map UTd (seq (S b) n)) js ls * factors (map Ud (seq (S b) n)) is js))).
      rewrite <- rsum_scal_r. apply rsum_ext. intros a _. rewrite <- bsum_scal_l. apply bsum_ext. intros js _. rcbn. ring.
  Qed.
  Lemma qprod_ext (P P' : nat -> nat -> nat -> R) : forall is ls b, (forall d i l, (b <= d < b + length is)%nat -> P d i l = P' d i l) -> qprod P b is ls = qprod P' b is ls.
  Proof.
    induction is as [|i is IH]; intros ls b H; destruct ls as [|l ls]; cbn [qprod]; auto. rewrite (H b) by (simpl; lia). f_equal. apply IH. intros d i' l' Hd. apply H. simpl. lia.
  Qed.
  (** value of the result *)
  Lemma hosvd_value C is : (forall js, valid rs js -> get C js = bsum s (fun ls => get A ls * factors UTs js ls)) -> shape C = rs -> length is = D ->
    bsum (shape C) (fun ks => rmul (get C ks) (factors Us is ks)) = fold_right (fun d g => ax d (nth d s 0%nat) (Q d) g) (get A) (seq 0 D) is.
  Proof.
    intros HC HsC Hi. etransitivity; [|exact (ax_all s 0 Q (get A) is Hi)]. rewrite HsC.
    transitivity (bsum rs (fun ks => bsum s (fun ls => get A ls * (factors UTs ks ls * factors Us is ks)))).
    { apply bsum_ext. intros ks Hk. rewrite HC by auto. rewrite <- bsum_scal_r. apply bsum_ext. intros ls _. rcbn. ring. }
    rewrite bsum_exchange. apply bsum_ext. intros ls Hl. pose proof (valid_length _ _ Hl) as Ll.
    rewrite (qprod_ext Q Q0) by (intros; symmetry; apply Q0_Q; lia). rewrite <- (factors_q D) by auto.
    rewrite <- bsum_scal_l_R. reflexivity.
  Qed.
  (** each factor is an orthogonal projector; its error is the tail of the singular values *)
  Lemma Q_gram d i l : Q d i l = gram (fst (fst (svd (Md d)))) (rd d) i l.
  Proof. reflexivity. Qed.
  Lemma Q_proj d : (d < D)%nat -> is_proj s (ax d (nth d s 0%nat) (Q d)).
  Proof.
    intros Hd. destruct (Md_spec d Hd) as (_ & HM & _). apply ax_proj; auto.
    - intros i j _ _. rewrite !Q_gram. unfold rd. apply gram_sym.
    - intros i j Hi Hj. rewrite Q_gram. exact (gram_idem svd SVD (Md d) (nth d s 0%nat) (prodn (oth d)) (kd d) HM i j Hi Hj).
  Qed.
  Lemma Q_err d : (d < D)%nat -> n2 s (fsub (get A) (ax d (nth d s 0%nat) (Q d) (get A))) = sumsq (skipn (kd d) (sd d)).
  Proof.
    intros Hd. destruct (Md_spec d Hd) as (_ & HM & HgM). unfold sd. rewrite <- (trunc_err svd SVD (Md d) _ _ HM). unfold err2. rewrite HM. cbn [bsum].
    set (F := fun i j => (get (Md d) [i; j] - cp_val (firstn (kd d) (snd (fst (svd (Md d))))) [take_cols (fst (fst (svd (Md d)))) (kd d); take_rows_tr (snd (svd (Md d))) (kd d)] [i; j]) *
       (get (Md d) [i; j] - cp_val (firstn (kd d) (snd (fst (svd (Md d))))) [take_cols (fst (fst (svd (Md d)))) (kd d); take_rows_tr (snd (svd (Md d))) (kd d)] [i; j])).
    pose proof (bsum_mat s [d] F (NoDup_single d) (Forall_lt_single _ _ Hd)) as E. cbn zeta in E. cbn [sel map prodn sub2indF] in E. rewrite Nat.mul_1_r in E.
    fold (oth d) in E. change (map (fun k => nth k s 0%nat) (compl (length s) [d])) with (oth d) in E.
    transitivity (bsum s (fun is => F (nth d is 0%nat + nth d s 0%nat * 0)%nat (sub2indF (oth d) (sel 0%nat is (compl D [d]))))); [|exact E].
    unfold n2, ip. apply bsum_ext. intros is Hv. rewrite Nat.mul_0_r, Nat.add_0_r. unfold F.
    assert (HN : (nth d is 0 < nth d s 0)%nat) by (apply valid_nth; auto).
    assert (HO : (sub2indF (oth d) (sel 0%nat is (compl D [d])) < prodn (oth d))%nat) by (apply sub2indF_lt, sel_valid; auto; apply compl_lt).
    rewrite <- (gram_mat svd SVD (Md d) _ _ (kd d) HM) by auto. rewrite HgM by auto.
    assert (G : ax d (nth d s 0%nat) (Q d) (get A) is = rsum (nth d s 0%nat) (fun l => gram (fst (fst (svd (Md d)))) (Nat.min (kd d) (Nat.min (nth d s 0%nat) (prodn (oth d)))) (nth d is 0%nat) l * get (Md d) [l; sub2indF (oth d) (sel 0%nat is (compl D [d]))])).
    { apply rsum_ext. intros j Hj. f_equal. rewrite <- (HgM (upd d j is)) by (apply upd_valid; auto). pose proof (valid_length _ _ Hv) as Lv. rewrite nth_upd_eq by (rewrite Lv; auto). do 4 f_equal.
      unfold sel. apply map_ext_in. intros k Hk. apply in_compl in Hk. apply nth_upd_neq. simpl in Hk. intuition. }
    unfold fsub. rewrite G. auto.
  Qed.
  Lemma hosvd_error_gen (f : list nat -> R) : (forall is, valid s is -> f is = fold_right (fun d g => ax d (nth d s 0%nat) (Q d) g) (get A) (seq 0 D) is) ->
    err2 A f <= lsum (seq 0 D) (fun d => sumsq (skipn (kd d) (sd d))).
  Proof.
    intros Hf. apply Rle_trans with (n2 s (fsub (get A) (fold_right (fun d g => ax d (nth d s 0%nat) (Q d) g) (get A) (seq 0 D)))).
    - right. unfold err2, n2, ip, fsub. apply bsum_ext. intros is Hv. rewrite Hf by auto. auto.
    - set (Ps := map (fun d => ax d (nth d s 0%nat) (Q d)) (seq 0 D)).
      assert (E : fold_right (fun d g => ax d (nth d s 0%nat) (Q d) g) (get A) (seq 0 D) = fold_right (fun P g => P g) (get A) Ps).
      { unfold Ps. clear Hf Ps. induction (seq 0 D); simpl; auto. rewrite IHl. auto. }
      rewrite E. eapply Rle_trans; [apply proj_list_err|].
      + unfold Ps. apply Forall_forall. intros P HP'. apply in_map_iff in HP'. destruct HP' as (d & <- & Hd). apply in_seq in Hd. apply Q_proj. lia.
      + right. unfold Ps. rewrite lsum_map. apply lsum_ext. intros d Hd. apply in_seq in Hd. apply Q_err. lia.
  Qed.
  Lemma frob_sd d : (d < D)%nat -> sumsq (sd d) = frob2 A.
  Proof.
    intros Hd. destruct (Md_spec d Hd) as (_ & HM & HgM). unfold sd. rewrite <- (svd_frob svd SVD (Md d) _ _ HM). unfold frob2. rewrite HM. cbn [bsum].
    pose proof (bsum_mat s [d] (fun i j => get (Md d) [i; j] * get (Md d) [i; j]) (NoDup_single d) (Forall_lt_single _ _ Hd)) as E. cbn zeta in E. cbn [sel map prodn sub2indF] in E. rewrite Nat.mul_1_r in E.
    change (map (fun k => nth k s 0%nat) (compl (length s) [d])) with (oth d) in E. cbn beta in E. etransitivity; [symmetry; exact E|]. apply bsum_ext. intros is Hv. change (sel 0%nat s (compl (length s) [d])) with (oth d). rewrite Nat.mul_0_r, Nat.add_0_r.
    change (compl (length s) [d]) with (compl D [d]). rewrite HgM by auto. auto.
  Qed.
  Hypothesis HD : (2 <= D)%nat.
  Lemma Us_nth d : (d < D)%nat -> nth d Us (scalar 0) = Ud d.
  Proof. intros Hd. unfold Us. rewrite nth_map_seq by auto. auto. Qed.
  Lemma hosvd_run : ltol = tolerance t / sqrt (INR D) -> exists C,
    hosvd svd t A = Some (TB (dt_trivial D) (C :: Us), tk D) /\ shape C = rs /\
    tb_ok (TB (dt_trivial D) (C :: Us)) 1 /\
    returns (tb_full (TB (dt_trivial D) (C :: Us))) s (fun is => fold_right (fun d g => ax d (nth d s 0%nat) (Q d) g) (get A) (seq 0 D) is).
  Proof.
    intros Hlt. destruct core_spec as (C & HC & HsC & HgC). exists C.
    assert (LU : length Us = D) by (unfold Us; rewrite map_length, seq_length; auto).
    assert (ND : ndim C = D) by (unfold ndim at 1; rewrite HsC; unfold rs; rewrite map_length, seq_length; auto).
    assert (Hrs : forall d, (d < D)%nat -> nth d rs 0%nat = rd d) by (intros d Hd; unfold rs; rewrite nth_map_seq by auto; auto).
    assert (HPC : Forall (fun n => (0 < n)%nat) (shape C)).
    { rewrite HsC. apply Forall_forall. intros n Hn. apply in_map_iff in Hn. destruct Hn as (d & <- & Hd). apply in_seq in Hd. apply rd_pos. lia. }
    assert (HUs : forall d, (d < D)%nat -> exists n, shape (nth d Us (scalar r0)) = [n; nth d (shape C) 0%nat] /\ (0 < n)%nat).
    { intros d Hd. exists (nth d s 0%nat). change r0 with 0. rewrite Us_nth, Ud_shape, HsC, Hrs by auto. split; auto. apply s_pos. auto. }
    assert (HMk : tb_make (C :: Us) (dt_trivial D) = Some (TB (dt_trivial D) (C :: Us))) by (apply triv_make; auto).
    split; [|split; [auto|split]].
    - unfold hosvd. rewrite <- Hmr, <- Hlt, hosvd_loop by auto. cbn [bind fst snd]. fold Us. rewrite HC. cbn [bind]. rewrite HMk. reflexivity.
    - apply triv_ok; auto.
    - destruct (triv_full D C Us HD LU HUs ND HPC) as (F & HF & HsF & HgF). exists F. split; auto.
      assert (ES : map (fun M : nd R => nth 0 (shape M) 0%nat) Us = s).
      { apply nth_ext' with (d := 0%nat); [rewrite map_length; auto|]. rewrite map_length, LU. intros d Hd. rewrite map_nth_in with (da := scalar 0) by lia. rewrite Us_nth, Ud_shape by auto. auto. }
      rewrite ES in HsF, HgF. split; auto. intros is Hv. rewrite HgF by auto. apply hosvd_value; auto. apply (valid_length _ _ Hv).
  Qed.
  Lemma hosvd_tail d : 0 < ltol -> (d < D)%nat -> nth d mr None = None -> sumsq (skipn (kd d) (sd d)) <= ltol * ltol * frob2 A.
  Proof.
    intros Ht Hd Hn. destruct (Md_spec d Hd) as (_ & HM & _). unfold kd. rewrite Hn. cbn [min_opt]. rewrite <- (frob_sd d Hd). unfold sd.
    apply (tol_rank_err svd SVD (Md d) _ _ HM); auto; [apply s_pos; auto|apply oth_pos].
  Qed.
End Hosvd.
