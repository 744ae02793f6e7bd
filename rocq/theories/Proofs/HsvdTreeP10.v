(** hsvd of a tree-based tensor: quasi-optimality. *)
From Coq Require Import List Arith Lia Bool Reals Lra Permutation.
From Verif.Base Require Import ListAux CRing Index RealAux LinAlg.
From Verif.Model Require Import Sorting Numpy FullTensor Diagonal Canonical DimensionTree TreeBased Truncator HSVD HsvdTree.
From Verif.Spec Require Import TensorSpec TreeSpec TreeTensorSpec TruncatorSpec GramSpec LearningSpec.
From Verif.Proofs Require Import NumpyP FullTensorP FullTensorP3 FullTensorP4 DiagonalP DimTreeP DimTreeP2 TreeTensorP TreeTensorP2 TreeTensorP3 TreeTensorP4 TreeTensorP6 TreeTensorP7 TreeTensorP12 TreeTensorP13 TreeTensorP14 TreeTensorP15 TreeTensorP29 PolyP5 SpectralP SpectralP2 LapackP EckartP TruncatorP3 EinsumP HsvdP2 HsvdP9 HsvdTreeP1 HsvdTreeP2 HsvdTreeP3 HsvdTreeP4 HsvdTreeP5 HsvdTreeP7 HsvdTreeP8 HsvdTreeP9.
Import ListNotations.
Local Open Scope R_scope.

Lemma pos_prefix K (s : nat -> R) : (forall c, (c < K)%nat -> 0 <= s c) -> (forall c d, (c <= d)%nat -> (d < K)%nat -> s d <= s c) ->
  exists K', (K' <= K)%nat /\ (forall c, (c < K')%nat -> 0 < s c) /\ (forall c, (K' <= c)%nat -> (c < K)%nat -> s c = 0).
Proof.
  induction K as [|K IH]; intros H0 HD.
  - exists 0%nat. split; auto. split; intros; lia.
  - destruct IH as (K' & L & P & Z); [intros; apply H0; lia|intros; apply HD; lia|]. destruct (Req_dec (s K) 0) as [E|E].
    + exists K'. split; [lia|]. split; auto. intros c H1 H2. destruct (Nat.eq_dec c K) as [->|]; auto. apply Z; lia.
    + exists (S K). split; auto. split; [|intros; lia]. intros c Hc. assert (0 <= s K) by (apply H0; lia). assert (s K <= s c) by (apply HD; lia). lra.
Qed.
Section GramTail.
  Variable svd : nd R -> nd R * list R * nd R.
  Hypothesis SVD : svd_contract svd.
  Variables (m n K : nat) (T W : nat -> nat -> R) (G : nd R).
  Hypothesis HG : shape G = [K; K].
  Hypothesis HT : orthonormal m K T.
  Hypothesis HW : forall k l, (k < K)%nat -> (l < K)%nat -> get G [k; l] = rsum n (fun j => W k j * W l j).
  Let s c := nth c (snd (fst (svd G))) 0.
  Let U := fst (fst (svd G)).
  Lemma gram_sym i j : (i < K)%nat -> (j < K)%nat -> get G [i; j] = get G [j; i].
  Proof. intros Hi Hj. rewrite !HW by auto. apply rsum_ext_R. intros; ring. Qed.
  Lemma gram_quad (v w : nat -> R) : rsum K (fun i => rsum K (fun j => v i * w j * get G [i; j])) = rsum n (fun y => rsum K (fun i => v i * W i y) * rsum K (fun j => w j * W j y)).
  Proof.
    rewrite (rsum_ext_R _ _ (fun i => rsum n (fun y => (v i * W i y) * rsum K (fun j => w j * W j y)))).
    - rewrite rsum_swap_R. apply rsum_ext_R. intros y _. apply rsum_scal_r_R.
    - intros i Hi. rewrite (rsum_ext_R _ _ (fun j => rsum n (fun y => (v i * W i y) * (w j * W j y)))).
      + rewrite rsum_swap_R. apply rsum_ext_R. intros y _. apply rsum_scal_l_R.
      + intros j Hj. rewrite HW by auto. rewrite <- rsum_scal_l_R. apply rsum_ext_R. intros; ring.
  Qed.
  Lemma gram_psd (v : nat -> R) : 0 <= rsum K (fun i => rsum K (fun j => v i * v j * get G [i; j])).
  Proof. rewrite gram_quad. apply rsum_nonneg. intros. apply Rle_0_sqr. Qed.
  Lemma gram_tail k a b : lsum (skipn k (snd (fst (svd G)))) (fun x => x) <=
    rsum m (fun i => rsum n (fun j => (rsum K (fun c => T i c * W c j) - rsum k (fun c => a i c * b c j)) * (rsum K (fun c => T i c * W c j) - rsum k (fun c => a i c * b c j)))).
  Proof.
    destruct (SVD G _ _ HG) as (SU & Ls & SV & Sp & Sd & OU & OV & EM). rewrite Nat.min_id in *. fold U in OU.
    assert (UO : orthonormal K K (fun i c => get U [i; c])) by (intros c d Hc Hd; rewrite (OU c d Hc Hd); reflexivity).
    assert (RO : forall i j, (i < K)%nat -> (j < K)%nat -> rsum K (fun c => get U [i; c] * get U [j; c]) = if (i =? j)%nat then 1 else 0).
    { intros i j Hi Hj. apply (rows_orthonormal K (fun i c => get U [i; c])); auto. }
    set (v := fun c j => rsum K (fun l => get U [l; c] * W l j)).
    assert (VV : forall c d, (c < K)%nat -> (d < K)%nat -> rsum n (fun j => v c j * v d j) = if (c =? d)%nat then s d else 0).
    { intros c d Hc Hd. unfold v. rewrite <- (gram_quad (fun i => get U [i; c]) (fun i => get U [i; d])).
      rewrite (rsum_ext_R _ _ (fun i => s d * (get U [i; c] * get U [i; d]))).
      - rewrite rsum_scal_l_R. rewrite (OU c d Hc Hd). destruct (c =? d)%nat; rcbn; ring.
      - intros i Hi. rewrite (rsum_ext_R _ _ (fun j => get U [i; c] * (get G [i; j] * get U [j; d]))) by (intros; ring). rewrite rsum_scal_l_R.
        pose proof (psd_Gu svd SVD G K HG gram_sym d i Hd Hi) as Q1. pose proof (psd_uw svd SVD G K HG gram_sym gram_psd d i Hd Hi) as Q2. fold U in Q1, Q2. fold (s d) in Q1, Q2. rewrite Q1, <- Q2. ring. }
    destruct (pos_prefix K s) as (K' & LK & PK & ZK); auto.
    assert (VZ : forall c j, (K' <= c)%nat -> (c < K)%nat -> (j < n)%nat -> v c j = 0).
    { intros c j H1 H3 Hj. pose proof (VV c c H3 H3) as E. rewrite Nat.eqb_refl, ZK in E by auto. pose proof (rsum_term_le n (fun j => v c j * v c j) j (fun j _ => Rle_0_sqr (v c j)) Hj) as Q. cbv beta in Q. rewrite E in Q. pose proof (Rle_0_sqr (v c j)) as Q2. unfold Rsqr in Q2. assert (Q3 : v c j * v c j = 0) by lra. apply Rmult_integral in Q3. tauto. }
    eapply Rle_trans; [|apply (eckart m n K' (fun i c => rsum K (fun l => T i l * get U [l; c])) (fun c => sqrt (s c)) (fun j c => v c j / sqrt (s c)) k a b (fun i j => rsum K (fun c => T i c * W c j)))].
    - apply Req_le. assert (EL : lsum (skipn k (snd (fst (svd G)))) (fun x => x) = rsum K (fun c => if (c <? k)%nat then 0 else s c)).
      { rewrite <- Ls. unfold s. generalize (snd (fst (svd G))) as l. clear. intros l. revert k. induction l as [|x l IH]; intros k.
        - destruct k; reflexivity.
        - cbn [length]. rewrite rsum_S_l. destruct k as [|k]; cbn [skipn].
          + change (lsum (x :: l) (fun x => x)) with (x + lsum l (fun x => x)). cbn [nth Nat.ltb Nat.leb]. f_equal. specialize (IH 0%nat). cbn [skipn] in IH. rewrite IH. reflexivity.
          + cbn [nth]. change ((0 <? S k)%nat) with true. cbn iota. rewrite IH. rcbn. rewrite Rplus_0_l. reflexivity. }
      rewrite EL. assert (EK : (K = K' + (K - K'))%nat) by lia. rewrite EK, rsum_app_R. rewrite (rsum_zero_R (K - K')).
      + rewrite Rplus_0_r. apply rsum_ext_R. intros c Hc. destruct (c <? k)%nat; auto. rewrite sqrt_sqrt; auto. apply Rlt_le. auto.
      + intros c Hc. destruct (K' + c <? k)%nat; auto. apply ZK; lia.
    - intros c d Hc Hd. transitivity (rsum K (fun l => get U [l; c] * get U [l; d])); [|apply (UO c d); lia].
      transitivity (rsum m (fun i => rsum K (fun l => rsum K (fun l' => (get U [l; c] * get U [l'; d]) * (T i l * T i l'))))).
      { apply rsum_ext_R. intros i _. rewrite <- rsum_scal_r_R. apply rsum_ext_R. intros l _. rewrite <- rsum_scal_l_R. apply rsum_ext_R. intros. ring. }
      rewrite rsum_swap_R. apply rsum_ext_R. intros l Hl. rewrite rsum_swap_R.
      rewrite (rsum_ext_R _ _ (fun l' => if (l' =? l)%nat then get U [l; c] * get U [l'; d] else 0)); [apply rsum_delta_R; auto|].
      intros l' Hl'. rewrite rsum_scal_l_R, (HT l l' Hl Hl'). unfold delta_ij. rewrite Nat.eqb_sym. destruct (l' =? l)%nat; ring.
    - intros c d Hc Hd. assert (Pc := PK c Hc). assert (Pd := PK d Hd). assert (Qc := sqrt_lt_R0 _ Pc). assert (Qd := sqrt_lt_R0 _ Pd).
      rewrite (rsum_ext_R _ _ (fun j => / (sqrt (s c) * sqrt (s d)) * (v c j * v d j))) by (intros; field; lra). rewrite rsum_scal_l_R, VV by lia. unfold delta_ij. destruct (Nat.eqb_spec c d) as [->|NE]; [|ring].
      rewrite sqrt_sqrt by lra. field. lra.
    - intros c _. apply sqrt_pos.
    - intros c d H1 H3. apply sqrt_le_1_alt. unfold s. apply Sd; lia.
    - intros i j Hi Hj. transitivity (rsum K (fun c => rsum K (fun l => T i l * get U [l; c]) * v c j)).
      + unfold v. transitivity (rsum K (fun c => rsum K (fun l => rsum K (fun l' => (T i l * W l' j) * (get U [l; c] * get U [l'; c]))))).
        * rewrite rsum_swap_R. apply rsum_ext_R. intros l Hl. rewrite rsum_swap_R.
          rewrite (rsum_ext_R _ _ (fun l' => if (l' =? l)%nat then T i l * W l' j else 0)); [symmetry; apply rsum_delta_R; auto|].
          intros l' Hl'. rewrite rsum_scal_l_R, RO by auto. rewrite Nat.eqb_sym. destruct (l' =? l)%nat; ring.
        * apply rsum_ext_R. intros c _. rewrite <- rsum_scal_r_R. apply rsum_ext_R. intros l _. rewrite <- rsum_scal_l_R. apply rsum_ext_R. intros. ring.
      + assert (EK : (K = K' + (K - K'))%nat) by lia. rewrite EK at 1. rewrite rsum_app_R. rewrite (rsum_zero_R (K - K')).
        * rewrite Rplus_0_r. apply rsum_ext_R. intros c Hc. assert (Qc := sqrt_lt_R0 _ (PK c Hc)). field. lra.
        * intros c Hc. rewrite VZ by lia. ring.
  Qed.
End GramTail.

Section Best.
  Variable svd : nd R -> nd R * list R * nd R.
  Hypothesis SVD : svd_contract svd.
  Variables (X : tbt R) (r : nat).
  Hypothesis O : tb_ok X r.
  Hypothesis H2 : (2 <= tb_order X)%nat.
  Hypothesis HO : forall n, node (ttree X) n -> active X n = true -> n <> r -> orth_cols (core X n).
  Local Notation t := (ttree X).
  Lemma node_best A n G k f : tb_full X = Some A -> node t n -> active X n = true -> n <> r -> good X r n G -> rank_at_most (shape A) (dims t n) k f ->
    lsum (skipn k (snd (fst (svd G)))) (fun x => x) <= err2 A f.
  Proof.
    intros HA Hn Ha NE (SG & W & FW & EG) (a & b & Hf). destruct (full_inv X r A O H2 HA) as [SA VA].
    assert (LS : length (tb_shape X) = tb_order X) by apply tb_shape_length.
    assert (EC : compl (ndim A) (dims t n) = co X n ++ seq (tb_order X) (length (exts X r))).
    { unfold compl, ndim. rewrite SA, app_length, LS, seq_app, filter_app. f_equal. cbn [plus]. apply filter_true. intros d Hd. apply in_seq in Hd. apply negb_true_iff. apply (proj2 (inb_false d (dims t n))). intros Q.
      pose proof (proj1 (Forall_forall _ _) (dims_N X r O n Hn) d Q). cbv beta in *. lia. }
    assert (HC : Forall (fun d => (d < tb_order X)%nat) (co X n)) by (apply Forall_forall; intros d Hd; apply (in_co X n d Hn) in Hd; tauto).
    assert (NDC : NoDup (co X n)) by (apply NoDup_filter, seq_NoDup).
    assert (NDE : NoDup (dims t n)) by (apply (NoDup_dims' X r O n Hn)).
    assert (HE : Forall (fun d => (d < ndim A)%nat) (dims t n)).
    { apply Forall_forall. intros d Hd. pose proof (proj1 (Forall_forall _ _) (dims_N X r O n Hn) d Hd). cbv beta in *. unfold ndim. rewrite SA, app_length. lia. }
    assert (ES : sel 0%nat (shape A) (compl (ndim A) (dims t n)) = map (sz X) (co X n) ++ exts X r).
    { rewrite EC. unfold sel. rewrite map_app. f_equal.
      - apply map_ext_in. intros d Hd. pose proof (proj1 (Forall_forall _ _) HC d Hd). cbv beta in *. rewrite SA, app_nth1 by lia. auto.
      - rewrite SA, <- LS. apply nth_ext' with (d := 0%nat); [rewrite map_length, seq_length; auto|]. rewrite map_length, seq_length. intros q Hq.
        rewrite map_nth_in with (da := 0%nat) by (rewrite seq_length; auto). rewrite seq_nth by auto. rewrite app_nth2 by lia. f_equal. lia. }
    set (sr := sel 0%nat (shape A) (dims t n)). set (sc := sel 0%nat (shape A) (compl (ndim A) (dims t n))) in *.
    set (c0 := length (co X n)).
    set (TT := fun i k => tval X n (put (dims t n) (ind2subF sr i) (zN X)) [k]).
    set (WW := fun k j => W [k] (put (co X n) (firstn c0 (ind2subF sc j)) (zN X)) (skipn c0 (ind2subF sc j))).
    assert (Lm : length (map (sz X) (co X n)) = c0) by (apply map_length).
    assert (E : err2 A f = rsum (prodn sr) (fun i => rsum (prodn sc) (fun j =>
      (rsum (csize X n) (fun c => TT i c * WW c j) - rsum k (fun c => a c (ind2subF sr i) * b c (ind2subF sc j))) *
      (rsum (csize X n) (fun c => TT i c * WW c j) - rsum k (fun c => a c (ind2subF sr i) * b c (ind2subF sc j)))))).
    { pose proof (bsum_mat (shape A) (dims t n) (fun i j => (rsum (csize X n) (fun c => TT i c * WW c j) - rsum k (fun c => a c (ind2subF sr i) * b c (ind2subF sc j))) *
        (rsum (csize X n) (fun c => TT i c * WW c j) - rsum k (fun c => a c (ind2subF sr i) * b c (ind2subF sc j)))) NDE HE) as B. cbn zeta in B.
      fold sr in B. change (compl (length (shape A)) (dims t n)) with (compl (ndim A) (dims t n)) in B. fold sc in B. rewrite <- B. unfold err2. apply bsum_ext. intros is Hv.
      assert (V1 : valid sr (sel 0%nat is (dims t n))) by (apply sel_valid; auto). assert (V2 : valid sc (sel 0%nat is (compl (ndim A) (dims t n)))) by (apply sel_valid; auto; apply compl_lt).
      unfold TT, WW. rewrite !ind2subF_sub2indF by auto. rewrite Hf by auto. change (filter (fun d => negb (existsb (Nat.eqb d) (dims t n))) (seq 0 (length (shape A)))) with (compl (ndim A) (dims t n)).
      assert (EA : get A is = rsum (csize X n) (fun c => tval X n (put (dims t n) (sel 0%nat is (dims t n)) (zN X)) [c] * W [c] (put (co X n) (firstn c0 (sel 0%nat is (compl (ndim A) (dims t n)))) (zN X)) (skipn c0 (sel 0%nat is (compl (ndim A) (dims t n)))))).
      { rewrite SA in Hv. apply valid_app_inv in Hv. destruct Hv as (i1 & e & -> & Hi1 & He). assert (L1 : length i1 = tb_order X) by (rewrite <- LS; apply (valid_length _ _ Hi1)).
        rewrite VA by auto. rewrite (sum_fact X r O n W) by auto.
        assert (EQ : sel 0%nat (i1 ++ e) (compl (ndim A) (dims t n)) = sel 0%nat i1 (co X n) ++ e).
        { rewrite EC. unfold sel. rewrite map_app. f_equal.
          - apply map_ext_in. intros d Hd. pose proof (proj1 (Forall_forall _ _) HC d Hd). cbv beta in *. apply app_nth1. lia.
          - rewrite <- (valid_length _ _ He), <- L1. apply nth_ext' with (d := 0%nat); [rewrite map_length, seq_length; auto|]. rewrite map_length, seq_length. intros q Hq.
            rewrite map_nth_in with (da := 0%nat) by (rewrite seq_length; auto). rewrite seq_nth by auto. rewrite app_nth2 by lia. f_equal. lia. }
        rewrite EQ. assert (L2 : length (sel 0%nat i1 (co X n)) = c0) by apply sel_length.
        rewrite firstn_app, skipn_app, L2, Nat.sub_diag, firstn_O, app_nil_r, skipn_O, (firstn_all2 (n := c0)), (skipn_all2 (n := c0)) by lia. cbn [app].
        apply rsum_ext_R. intros c Hc. f_equal.
        - apply (loc_tval X r O n [c] Hn). intros d Hd. pose proof (proj1 (Forall_forall _ _) (dims_N X r O n Hn) d Hd). cbv beta in *.
          rewrite put_nth_idx; auto; [|apply sel_length|unfold zN; rewrite repeat_length; auto]. destruct (index_of_nth _ _ Hd) as [K1 K2]. rewrite sel_nth by auto. rewrite K2. rewrite app_nth1 by lia. auto.
        - apply FW. intros d Hd. pose proof (proj1 (Forall_forall _ _) HC d Hd). cbv beta in *.
          rewrite put_nth_idx; auto; [|unfold zN; rewrite repeat_length; auto]. destruct (index_of_nth _ _ Hd) as [K1 K2]. rewrite sel_nth by auto. rewrite K2. auto. }
      rewrite EA. reflexivity. }
    rewrite E. apply (gram_tail svd SVD (prodn sr) (prodn sc) (csize X n) TT WW G SG).
    - intros c d Hc Hd. unfold TT. pose proof (tval_orth X r O H2 HO n c d Hn Ha NE Hc Hd) as Q. unfold delta_ij. rewrite <- Q.
      assert (Esr : sel 0%nat (tb_shape X) (dims t n) = sr).
      { unfold sr, sel. rewrite SA. apply map_ext_in. intros d' Hd'. pose proof (proj1 (Forall_forall _ _) (dims_N X r O n Hn) d' Hd'). cbv beta in *. rewrite app_nth1 by lia. auto. }
      rewrite Esr, bsum_linear. reflexivity.
    - intros c d Hc Hd. rewrite EG by auto. unfold gm, nu.
      transitivity (bsum sc (fun y => W [c] (put (co X n) (firstn c0 y) (zN X)) (skipn c0 y) * W [d] (put (co X n) (firstn c0 y) (zN X)) (skipn c0 y))); [|rewrite bsum_linear; reflexivity].
      rewrite ES, bsum_app, bsum_exchange. apply bsum_ext_R. intros e He. rewrite part_put by auto. apply bsum_ext_R. intros x Hx.
      assert (L2 : length x = c0) by (rewrite (valid_length _ _ Hx); auto).
      rewrite firstn_app, skipn_app, L2, Nat.sub_diag, firstn_O, app_nil_r, skipn_O, (firstn_all2 (n := c0)), (skipn_all2 (n := c0)) by lia. reflexivity.
  Qed.
End Best.
