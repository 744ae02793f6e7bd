(** Truncator.hsvd of a FullTensor: one step of the loop. *)
From Coq Require Import List Arith Lia Bool Reals Lra.
From Verif.Base Require Import ListAux CRing Index RealAux.
From Verif.Model Require Import Sorting Numpy FullTensor Diagonal Canonical DimensionTree TreeBased Truncator HSVD.
From Verif.Spec Require Import TensorSpec TreeSpec TreeTensorSpec TruncatorSpec.
From Verif.Proofs Require Import NumpyP FullTensorP FullTensorP4 TreeTensorP4 TreeTensorP14 TreeTensorP17 TruncatorP TruncatorP2 TruncatorP3 TruncatorP4 FunctionalP4 ProjP PolyP5.
From Verif.Proofs Require EckartP.
Import ListNotations.
Local Open Scope R_scope.

Lemma compl_ext_seq m q rep : Forall (fun j => (j < m)%nat) rep -> compl (m + q) rep = compl m rep ++ seq m q.
Proof.
  intros HF. unfold compl. rewrite seq_app, filter_app. f_equal. apply filter_true. intros x Hx. apply in_seq in Hx.
  apply negb_true_iff, inb_false. intros K. rewrite Forall_forall in HF. apply HF in K. lia.
Qed.
Lemma sel_app_tail (a b : list nat) : sel 0%nat (a ++ b) (seq (length a) (length b)) = b.
Proof.
  apply nth_ext' with (d := 0%nat); [rewrite sel_length, seq_length; auto|]. intros k Hk. rewrite sel_length, seq_length in Hk.
  rewrite sel_nth by (rewrite seq_length; auto). rewrite seq_nth by auto. rewrite app_nth2 by lia. f_equal. lia.
Qed.
Lemma rsum_firstn_skipn k (l : list R) : rsum (Nat.min k (length l)) (fun a => nth a l 0 * nth a l 0) + sumsq (skipn k l) = sumsq l.
Proof.
  transitivity (sumsq (firstn k l ++ skipn k l)); [|rewrite firstn_skipn; auto]. unfold sumsq. rewrite lsum_app_R. f_equal. change (lsum (firstn k l) (fun x => x * x)) with (sumsq (firstn k l)).
  rewrite sumsq_rsum, firstn_length. apply rsum_ext. intros i Hi. rewrite nth_firstn_lt by lia. auto.
Qed.

(** the matrix of the first singular vectors *)
Section Cols.
  Variable svd : nd R -> nd R * list R * nd R.
  Hypothesis SVD : svd_contract svd.
  Variables (M : nd R) (m n : nat).
  Hypothesis HM : shape M = [m; n].
  Lemma svd_cols a j : (a < Nat.min m n)%nat -> (j < n)%nat ->
    rsum m (fun i => get (fst (fst (svd M))) [i; a] * get M [i; j]) = nth a (snd (fst (svd M))) 0 * get (snd (svd M)) [a; j].
  Proof.
    intros Ha Hj. destruct (SVD M m n HM) as (SU & Ls & SV & Sp & Sd & OU & OV & EM).
    set (U := fst (fst (svd M))) in *. set (s := snd (fst (svd M))) in *. set (V := snd (svd M)) in *.
    transitivity (rsum m (fun i => rsum (Nat.min m n) (fun c => (nth c s 0 * get V [c; j]) * (get U [i; a] * get U [i; c])))).
    { apply rsum_ext_R. intros i Hi. rewrite EM by auto. rewrite <- rsum_scal_l_R. apply rsum_ext_R. intros. ring. }
    rewrite rsum_exchange_R.
    transitivity (rsum (Nat.min m n) (fun c => nth c s 0 * get V [c; j] * (if a =? c then 1 else 0))).
    { apply rsum_ext_R. intros c Hc. rewrite rsum_scal_l_R. rewrite OU by auto. auto. }
    rewrite (rsum_single (Nat.min m n) a) by (auto; intros b Hb Hne; rewrite (proj2 (Nat.eqb_neq a b)) by auto; rcbn; ring).
    rewrite Nat.eqb_refl. rcbn. ring.
  Qed.
End Cols.

Section Split.
  Variable svd : nd R -> nd R * list R * nd R.
  Hypothesis SVD : svd_contract svd.
  Variables (t : truncator) (ltol : R) (mr : option nat).
  Hypothesis Hmr : max_rank t = [mr].
  Hypothesis Hmr0 : mr <> Some 0%nat.
  Hypothesis Hth : thresholding_parameter t = None \/ thresholding_parameter t = Some 0.
  Variables (Y : nd R) (s es : list nat) (rep : list nat).
  Hypothesis HS : shape Y = s ++ es.
  Hypothesis Hes : (length es <= 1)%nat.
  Hypothesis HP : Forall (fun n => (0 < n)%nat) (s ++ es).
  Hypothesis ND : NoDup rep.
  Hypothesis HF : Forall (fun j => (j < length s)%nat) rep.
  Notation rc := (compl (length s) rep).
  Notation sr := (sel 0%nat s rep).
  Notation sc := (sel 0%nat s rc).

  Lemma hsvd_split_ok : exists C Y' k,
    hsvd_split svd t (length es =? 1)%nat ltol Y (length s) rep = Some (C, Y') /\
    shape C = sr ++ [k] /\ shape Y' = sc ++ k :: es /\ (0 < k)%nat /\ (match mr with Some m => (k <= m)%nat | None => True end) /\
    (forall a b, (a < k)%nat -> (b < k)%nat -> bsum sr (fun ks => get C (ks ++ [a]) * get C (ks ++ [b])) = if (a =? b)%nat then 1 else 0) /\
    (forall kc a e, valid sc kc -> (a < k)%nat -> valid es e ->
       get Y' (kc ++ a :: e) = bsum sr (fun ks => get C (ks ++ [a]) * get Y (asm (length s) rep ks kc ++ e))) /\
    frob2 Y' <= frob2 Y /\
    (mr = None -> 0 < ltol -> frob2 Y - frob2 Y' <= ltol * ltol * frob2 Y) /\
    (mr = None -> ltol <= 0 -> frob2 Y' = frob2 Y) /\
    (forall g, rank_at_most (shape Y) rep k g -> frob2 Y - frob2 Y' <= err2 Y g).
  Proof.
    assert (nY : ndim Y = (length s + length es)%nat) by (unfold ndim; rewrite HS, app_length; auto).
    assert (HF' : Forall (fun j => (j < ndim Y)%nat) rep) by (eapply Forall_impl; [|exact HF]; cbn; lia).
    assert (Erc : compl (length s) rep ++ (if (length es =? 1)%nat then [(ndim Y - 1)%nat] else []) = compl (ndim Y) rep).
    { rewrite nY, compl_ext_seq by auto. f_equal. destruct es as [|q [|q' es']]; cbn in Hes |- *; auto; [f_equal; lia|lia]. }
    assert (Ssr : sel 0%nat (shape Y) rep = sr) by (rewrite HS; apply sel_app_l; auto).
    assert (Ssc : sel 0%nat (shape Y) (compl (ndim Y) rep) = sc ++ es).
    { rewrite nY, compl_ext_seq by auto. rewrite sel_app_ks, HS. f_equal; [apply sel_app_l, compl_lt|apply sel_app_tail]. }
    assert (PP : forall l, Forall (fun j => (j < length s)%nat) l -> Forall (fun n => (0 < n)%nat) (sel 0%nat s l)).
    { intros l Hl. apply Forall_forall. intros x Hx. apply in_map_iff in Hx. destruct Hx as (j & <- & Hj). rewrite Forall_forall in Hl, HP.
      apply HP. apply in_or_app. left. apply nth_In. auto. }
    assert (Pr : (0 < prodn sr)%nat) by (apply prodn_pos, PP; auto).
    assert (Pc : (0 < prodn (sc ++ es))%nat).
    { apply prodn_pos, Forall_app. split; [apply PP, compl_lt|]. apply Forall_app in HP. tauto. }
    destruct (ft_matricize_spec Y rep (compl (ndim Y) rep)) as (M & HM & HsM & HgM); [apply app_compl_perm; auto|].
    rewrite <- ft_matricize_default in HM. rewrite Ssr, Ssc in HsM, HgM.
    set (m0 := prodn sr) in *. set (n0 := prodn (sc ++ es)) in *.
    destruct (SVD M m0 n0 HsM) as (SU & Ls & SV & Sp & Sd & OU & OV & EM).
    set (U := fst (fst (svd M))) in *. set (sv := snd (fst (svd M))) in *. set (V := snd (svd M)) in *.
    set (kk := min_opt (tol_rank (Pw 2) ltol (Nat.min m0 n0) sv) mr).
    set (k := Nat.min kk (Nat.min m0 n0)).
    assert (Pkk : (0 < kk)%nat).
    { unfold kk. assert (1 <= tol_rank (Pw 2) ltol (Nat.min m0 n0) sv)%nat by (unfold tol_rank; destruct (first_true _); lia). destruct mr as [x|]; cbn [min_opt]; [|lia].
      assert (x <> 0%nat) by congruence. lia. }
    assert (Pk : (0 < k)%nat) by (unfold k; lia).
    assert (ET : trunc_svd svd t M (Some ltol) (Pw 2) = Some (CP (firstn kk sv) [take_cols U kk; take_rows_tr V kk])).
    { rewrite (trunc_svd_eq svd t M m0 n0 HsM mr ltol Hmr Hth). reflexivity. }
    assert (SU' : shape (take_cols U kk) = [m0; k]) by (unfold take_cols; rewrite SU; reflexivity).
    assert (SV' : shape (take_rows_tr V kk) = [n0; k]) by (unfold take_rows_tr; rewrite SV; reflexivity).
    assert (Lk : length (firstn kk sv) = k) by (rewrite firstn_length, Ls; auto).
    (* the core *)
    destruct (ft_reshape_spec (take_cols U kk) (sr ++ [k])) as (C & EC & SC & GC).
    { rewrite SU', prodn_app. cbn [prodn]. reflexivity. }
    assert (GC' : forall ks a, valid sr ks -> (a < k)%nat -> get C (ks ++ [a]) = get U [sub2indF sr ks; a]).
    { intros ks a Hk Ha. pose proof (sub2indF_lt _ _ Hk) as Hlt. rewrite (GC (ks ++ [a]) [sub2indF sr ks; a]); auto.
      - apply valid_app; auto. repeat constructor. auto.
      - rewrite SU'. repeat constructor; auto.
      - rewrite SU', sub2indF_app by auto. cbn [sub2indF]. fold m0. lia. }
    (* the new tensor *)
    destruct (matmul_ok (take_rows_tr V kk) (np_diag (firstn kk sv)) n0 k k) as (W & EW & SW & GW); auto.
    { unfold np_diag. cbn [shape]. rewrite Lk. auto. }
    assert (GW' : forall j a, (a < k)%nat -> get W [j; a] = nth a sv 0 * get V [a; j]).
    { intros j a Ha. rewrite GW. rewrite (rsum_single k a); auto.
      - cbn. rewrite Nat.eqb_refl. rewrite nth_firstn_lt by lia. rcbn. ring.
      - intros b Hb Hne. cbn. rewrite (proj2 (Nat.eqb_neq b a)) by auto. rcbn. ring. }
    destruct (ft_reshape_spec W ((sc ++ es) ++ [k])) as (Y1 & EY1 & SY1 & GY1).
    { rewrite SW, prodn_app. cbn [prodn]. reflexivity. }
    assert (GY1' : forall kc e a, valid sc kc -> valid es e -> (a < k)%nat -> get Y1 ((kc ++ e) ++ [a]) = get W [sub2indF (sc ++ es) (kc ++ e); a]).
    { intros kc e a Hk He Ha. assert (Hv : valid (sc ++ es) (kc ++ e)) by (apply valid_app; auto). pose proof (sub2indF_lt _ _ Hv) as Hlt.
      rewrite (GY1 ((kc ++ e) ++ [a]) [sub2indF (sc ++ es) (kc ++ e); a]); auto.
      - apply valid_app; auto. repeat constructor. auto.
      - rewrite SW. repeat constructor; auto.
      - rewrite SW, sub2indF_app by auto. cbn [sub2indF]. fold n0. lia. }
    assert (TR : exists Y2, (if (length es =? 1)%nat then ft_transpose Y1 (seq 0 (ndim Y1 - 2) ++ [(ndim Y1 - 1)%nat; (ndim Y1 - 2)%nat]) else Some Y1) = Some Y2 /\
        shape Y2 = sc ++ k :: es /\ forall kc a e, valid sc kc -> (a < k)%nat -> valid es e -> get Y2 (kc ++ a :: e) = get Y1 ((kc ++ e) ++ [a])).
    { destruct es as [|q [|q' es']]; cbn [length] in Hes; try lia; cbn [length Nat.eqb].
      - exists Y1. split; auto. rewrite app_nil_r in SY1. split; auto. intros kc a e Hk Ha He. inversion He. subst. rewrite app_nil_r. auto.
      - set (c := length sc). assert (nY1 : ndim Y1 = (c + 2)%nat) by (unfold ndim; rewrite SY1, !app_length; cbn [length]; fold c; lia).
        rewrite nY1. replace (c + 2 - 2)%nat with c by lia. replace (c + 2 - 1)%nat with (S c) by lia.
        assert (Hsel : forall l x y, length l = c -> sel 0%nat (l ++ [x; y]) (seq 0 c ++ [S c; c]) = l ++ [y; x]).
        { intros l x y Hl. rewrite sel_app_ks. f_equal.
          - rewrite sel_app_l by (apply Forall_forall; intros z Hz; apply in_seq in Hz; lia). rewrite <- Hl. apply sel_seq.
          - cbn [sel map]. rewrite !app_nth2 by lia. rewrite Hl. replace (S c - c)%nat with 1%nat by lia. rewrite Nat.sub_diag. reflexivity. }
        assert (SY1' : shape Y1 = sc ++ [q; k]) by (rewrite SY1, <- app_assoc; reflexivity).
        destruct (ft_transpose_spec Y1 (seq 0 c ++ [S c; c])) as (Y2 & E2 & S2 & G2 & _).
        { rewrite nY1. apply is_perm_intro; [rewrite app_length, seq_length; reflexivity| |].
          - apply NoDup_app; [apply seq_NoDup| |].
            + constructor; [cbn [In]; lia|]. constructor; [cbn [In]; tauto|constructor].
            + intros x Hx [Hy|[Hy|[]]]; apply in_seq in Hx; lia.
          - apply Forall_app. split; [apply Forall_forall; intros x Hx; apply in_seq in Hx; lia|]. repeat constructor; lia. }
        exists Y2. split; auto. rewrite SY1', Hsel in S2 by auto. split; auto. intros kc a e Hk Ha He.
        destruct e as [|e0 [|? ?]]; try (apply valid_length in He; discriminate). assert (He0 : (e0 < q)%nat) by (inversion He; auto). rewrite <- app_assoc. cbn [app].
        rewrite <- (G2 (kc ++ [e0; a])); [rewrite Hsel by (apply valid_length in Hk; auto); auto|].
        rewrite SY1'. apply valid_app; auto. repeat constructor; auto. }
    destruct TR as (Y2 & E2 & S2 & G2). exists C, Y2, k.
    assert (G2' : forall kc a e, valid sc kc -> (a < k)%nat -> valid es e -> get Y2 (kc ++ a :: e) = nth a sv 0 * get V [a; sub2indF (sc ++ es) (kc ++ e)]).
    { intros kc a e Hk Ha He. rewrite G2, GY1', GW' by auto. auto. }
    assert (HMg : forall ks kc e, valid sr ks -> valid sc kc -> valid es e -> get M [sub2indF sr ks; sub2indF (sc ++ es) (kc ++ e)] = get Y (asm (length s) rep ks kc ++ e)).
    { intros ks kc e Hk Hc He. pose proof (valid_length _ _ Hk) as L1. pose proof (valid_length _ _ Hc) as L2. pose proof (valid_length _ _ He) as L3. rewrite sel_length in L1, L2.
      rewrite <- HgM.
      - f_equal. rewrite nY, compl_ext_seq by auto. rewrite sel_app_ks. rewrite !sel_app_l by (rewrite asm_length; auto; apply compl_lt).
        rewrite sel_asm, sel_asm_compl by auto. replace (seq (length s) (length es)) with (seq (length (asm (length s) rep ks kc)) (length e)) by (rewrite asm_length, L3; auto).
        rewrite sel_app_tail. auto.
      - rewrite HS. apply valid_app; auto. apply valid_asm; auto. }
    assert (FY : frob2 Y = sumsq sv).
    { unfold sv. rewrite <- (svd_frob svd SVD M m0 n0 HsM). unfold frob2. rewrite HsM. cbn [bsum].
      pose proof (bsum_mat (shape Y) rep (fun i j => get M [i; j] * get M [i; j]) ND HF') as B. cbn zeta in B. fold (ndim Y) in B. rewrite Ssr, Ssc in B. fold m0 n0 in B. rewrite <- B.
      apply bsum_ext. intros is Hv. rewrite HgM by auto. auto. }
    assert (FY2 : frob2 Y2 = rsum k (fun a => nth a sv 0 * nth a sv 0)).
    { unfold frob2. rewrite S2. replace (sc ++ k :: es) with (sc ++ [k] ++ es) by auto. rewrite bsum_app.
      transitivity (bsum sc (fun kc => rsum k (fun a => bsum es (fun e => (nth a sv 0 * nth a sv 0) * (get V [a; sub2indF (sc ++ es) (kc ++ e)] * get V [a; sub2indF (sc ++ es) (kc ++ e)]))))).
      { apply bsum_ext. intros kc Hk. cbn [app bsum]. apply rsum_ext. intros a Ha. apply bsum_ext. intros e He. rewrite G2' by auto. ring. }
      rewrite bsum_rsum_exchange. apply rsum_ext. intros a Ha.
      transitivity (bsum (sc ++ es) (fun z => (nth a sv 0 * nth a sv 0) * (get V [a; sub2indF (sc ++ es) z] * get V [a; sub2indF (sc ++ es) z]))).
      { rewrite bsum_app. auto. }
      rewrite (bsum_linear' (sc ++ es) (fun j => nth a sv 0 * nth a sv 0 * (get V [a; j] * get V [a; j]))). fold n0. rewrite rsum_scal_l_R. rewrite OV by lia. rewrite Nat.eqb_refl. ring. }
    assert (Tail : frob2 Y - frob2 Y2 = sumsq (skipn kk sv)).
    { rewrite FY, FY2. pose proof (rsum_firstn_skipn kk sv) as Q. rewrite Ls in Q. fold k in Q. lra. }
    pose proof (sumsq_nonneg (skipn kk sv)) as Q0.
    split; [|split; [exact SC|split; [exact S2|split; [exact Pk|split; [|split; [|split; [|split; [lra|split; [|split]]]]]]]]].
    - unfold hsvd_split. rewrite Erc, Ssr, Ssc, HM. cbn [bind]. rewrite ET. cbn [bind cp_space cp_core nth]. rewrite SU'. cbn [nth]. fold k. change (@np_reshapeF R) with (@ft_reshape R). rewrite EC. cbn [bind]. rewrite EW. cbn [bind]. rewrite EY1. cbn [bind].
      rewrite E2. reflexivity.
    - destruct mr as [x|]; auto. unfold k, kk. cbn [min_opt]. lia.
    - intros a b Ha Hb. transitivity (bsum sr (fun ks => get U [sub2indF sr ks; a] * get U [sub2indF sr ks; b])).
      { apply bsum_ext. intros ks Hk. rewrite !GC' by auto. auto. }
      rewrite (bsum_linear' sr (fun i => get U [i; a] * get U [i; b])). apply OU; lia.
    - intros kc a e Hk Ha He. rewrite G2' by auto.
      assert (Hv : valid (sc ++ es) (kc ++ e)) by (apply valid_app; auto). pose proof (sub2indF_lt _ _ Hv) as Hlt. fold n0 in Hlt.
      unfold sv, V. rewrite <- (svd_cols svd SVD M m0 n0 HsM a) by lia. fold U.
      transitivity (bsum sr (fun ks => get U [sub2indF sr ks; a] * get M [sub2indF sr ks; sub2indF (sc ++ es) (kc ++ e)])).
      { symmetry. apply (bsum_linear' sr (fun i => get U [i; a] * get M [i; sub2indF (sc ++ es) (kc ++ e)])). }
      apply bsum_ext. intros ks Hks. rewrite GC', HMg by auto. auto.
    - intros Hn Ht. rewrite Tail, FY. unfold kk. rewrite Hn. cbn [min_opt]. apply (tol_rank_err svd SVD M m0 n0 HsM); auto.
    - intros Hn Ht. enough (sumsq (skipn kk sv) = 0) by lra. unfold kk. rewrite Hn. cbn [min_opt]. rewrite tol_rank_notol by auto. rewrite skipn_all2 by lia. reflexivity.
    - intros g Hg. rewrite Tail. assert (EK : skipn kk sv = skipn k sv).
      { unfold k. destruct (Nat.le_gt_cases kk (Nat.min m0 n0)) as [Q|Q]; [rewrite Nat.min_l by auto; auto|]. rewrite Nat.min_r by lia. rewrite !skipn_all2 by lia. auto. }
      rewrite EK. apply (EckartP.tail_le svd SVD Y M rep k g ND HF'); cbv zeta; rewrite ?Ssr, ?Ssc; auto.
  Qed.
End Split.
