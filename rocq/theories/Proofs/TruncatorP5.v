(** Truncator: summary of the truncation rules, thresholding, call histories. *)
From Coq Require Import List Arith Lia Bool Reals Lra.
From Verif.Base Require Import ListAux CRing Index RealAux.
From Verif.Model Require Import Sorting Numpy FullTensor Diagonal Canonical DimensionTree TreeBased Truncator.
From Verif.Spec Require Import TensorSpec TreeSpec TreeTensorSpec TruncatorSpec.
From Verif.Proofs Require Import NumpyP FullTensorP TruncatorP TruncatorP2 TruncatorP3 TruncatorP4 ProjP.
Import ListNotations.
Local Open Scope R_scope.

Lemma is_first_smallest n P k : is_first n P k -> smallest (fun j => (1 <= j)%nat /\ P j) k.
Proof. intros (H1 & H2 & H3). split; [split; auto; lia|]. intros j Hj [Hj1 Hj2]. apply (H3 j); auto. Qed.

Section Kept.
  Variable svd : nd R -> nd R * list R * nd R.
  Hypothesis SVD : svd_contract svd.
  Variables (t : truncator) (M : nd R) (m n : nat).
  Hypothesis HM : shape M = [m; n].
  Hypothesis Hm : (0 < m)%nat.
  Hypothesis Hn : (0 < n)%nat.
  Variables (mr : option nat) (tol : R).
  Hypothesis Hmr : max_rank t = [mr].
  Notation s := (snd (fst (svd M))).
  Lemma s_len : length s = Nat.min m n.
  Proof. destruct (SVD M m n HM) as (_ & Ls & _). auto. Qed.
  Notation sel_rank := (kept_by_tolerance s tol).
  Lemma maxnorm_zero : maxnorm s = 0 <-> forall x, In x s -> x = 0.
  Proof.
    assert (H : forall x, In x s -> 0 <= x) by (intros; eapply (sv_in svd SVD M m n); eauto). revert H. generalize s. intros l H. unfold maxnorm. induction l as [|a l IH]; simpl.
    - split; auto. intros _ x [].
    - assert (Ha : 0 <= a) by (apply H; simpl; auto). assert (Hl : 0 <= fold_right Rmax 0 l) by (apply maxnorm_nonneg).
      specialize (IH (fun x Hx => H x (or_intror Hx))). split.
      + intros E x [<-|Hx].
        * pose proof (Rmax_l a (fold_right Rmax 0 l)). lra.
        * apply IH; auto. pose proof (Rmax_r a (fold_right Rmax 0 l)). lra.
      + intros E. rewrite (proj2 IH) by auto. rewrite (E a) by auto. apply Rmax_left. lra.
  Qed.
  Lemma tol_rank_spec pw : (match pw with Pw p => 0 < p | Pinf => True end) -> sel_rank pw (tol_rank pw tol (Nat.min m n) s).
  Proof.
    intros Hp. unfold kept_by_tolerance. rewrite <- s_len. assert (Hl : (0 < length s)%nat) by (rewrite s_len; lia).
    assert (HZ : (match pw with Pw p => lsum s (fun x => rpow x p) | Pinf => maxnorm s end) = 0 <-> forall x, In x s -> x = 0).
    { destruct pw; [apply (sv_all_zero_iff svd SVD M m n HM)|apply maxnorm_zero]. }
    assert (Hin : forall x, In x s -> 0 <= x) by (intros; eapply (sv_in svd SVD M m n); eauto).
    split.
    - intros [Ht|Hz].
      + rewrite tol_rank_notol; auto; [lia|]. destruct pw; auto.
      + destruct (Rlt_dec 0 tol) as [Ht|Ht].
        * rewrite tol_rank_zero; auto. apply HZ. auto.
        * rewrite tol_rank_notol; auto; [lia|lra|]. destruct pw; auto.
    - intros Ht Hz. destruct pw as [p|].
      + apply is_first_smallest with (n := length s). apply tol_rank_p; auto. intros E. apply Hz, HZ. auto.
      + apply is_first_smallest with (n := length s). apply tol_rank_inf; auto. intros E. apply Hz, HZ. auto. intros c Hc. apply Hin, nth_In. auto.
  Qed.
  Hypothesis Hth : thresholding_parameter t = None \/ thresholding_parameter t = Some 0.
  Lemma trunc_svd_kept pw : (match pw with Pw p => 0 < p | Pinf => True end) ->
    exists k0 U V, trunc_svd svd t M (Some tol) pw = Some (CP (firstn (min_opt k0 mr) s) [U; V]) /\ sel_rank pw k0 /\
      cp_ok (firstn (min_opt k0 mr) s) [U; V] /\ cp_dims [U; V] = [m; n] /\ orth_cols U /\ orth_cols V /\
      err2 M (cp_val (firstn (min_opt k0 mr) s) [U; V]) = sumsq (skipn (min_opt k0 mr) s).
  Proof.
    intros Hp. exists (tol_rank pw tol (Nat.min m n) s). do 2 eexists. rewrite (trunc_svd_eq svd t M m n HM mr tol Hmr Hth). split; [reflexivity|].
    split; [apply tol_rank_spec; auto|]. destruct (trunc_cp_ok svd SVD M m n HM (min_opt (tol_rank pw tol (Nat.min m n) s) mr)) as [H1 H2].
    split; auto. split; auto. split; [eapply take_cols_orth; eauto|]. split; [eapply take_rows_orth; eauto|]. apply (trunc_err svd SVD M m n HM).
  Qed.
  Lemma trunc_svd_error_bound : 0 < tol -> mr = None ->
    exists c, trunc_svd svd t M (Some tol) (Pw 2) = Some c /\ err2 M (cp_val (cp_core c) (cp_space c)) <= tol * tol * frob2 M.
  Proof.
    intros Ht Hn'. eexists. rewrite (trunc_svd_eq svd t M m n HM mr tol Hmr Hth). split; [reflexivity|]. cbn [cp_core cp_space].
    rewrite (trunc_err svd SVD M m n HM), (svd_frob svd SVD M m n HM). rewrite Hn'. cbn [min_opt]. apply (tol_rank_err svd SVD M m n HM); auto.
  Qed.
End Kept.

(** thresholding *)
Lemma last_true_some l k : last_true l = Some k <-> (k < length l)%nat /\ nth k l false = true /\ forall j, (k < j)%nat -> nth j l false = false.
Proof.
  unfold last_true. destruct (first_true (rev l)) as [i|] eqn:E.
  - apply first_true_some in E. rewrite rev_length in E. destruct E as (E1 & E2 & E3). rewrite rev_nth in E2 by auto.
    assert (E3' : forall j, (length l - 1 - i < j)%nat -> nth j l false = false).
    { intros j Hj. destruct (le_lt_dec (length l) j); [apply nth_overflow; auto|]. specialize (E3 (length l - S j)%nat ltac:(lia)). rewrite rev_nth in E3 by lia.
      replace (length l - S (length l - S j))%nat with j in E3 by lia. auto. }
    replace (length l - S i)%nat with (length l - 1 - i)%nat in E2 by lia. split.
    + intros H. injection H as <-. split; [lia|]. split; auto.
    + intros (H1 & H2 & H3). f_equal. destruct (lt_eq_lt_dec (length l - 1 - i) k) as [[H|H]|H]; auto.
      * rewrite E3' in H2 by auto. discriminate.
      * rewrite H3 in E2 by auto. discriminate.
  - split; [discriminate|]. intros (H1 & H2 & H3). pose proof (proj1 (first_true_none (rev l)) E (length l - S k)%nat) as H. rewrite rev_length in H. specialize (H ltac:(lia)).
    rewrite rev_nth in H by lia. replace (length l - S (length l - S k))%nat with k in H by lia. congruence.
Qed.
Lemma last_true_count c l : (forall i j, (i <= j)%nat -> (j < length l)%nat -> nth j l 0 <= nth i l 0) ->
  last_true (map (fun x => if Rle_dec c x then true else false) l) = match count_ge c l with O => None | S k => Some k end.
Proof.
  intros Hs. set (f := fun x => if Rle_dec c x then true else false).
  assert (HF : forall l, (forall i j, (i <= j)%nat -> (j < length l)%nat -> nth j l 0 <= nth i l 0) -> forall i, (i < length l)%nat -> (f (nth i l 0) = true <-> (i < count_ge c l)%nat)).
  { clear Hs l. induction l as [|a l IH]; intros Hs i Hi; [simpl in Hi; lia|].
    assert (Hs' : forall i j, (i <= j)%nat -> (j < length l)%nat -> nth j l 0 <= nth i l 0) by (intros i' j' H1 H2; apply (Hs (S i') (S j')); simpl; lia).
    unfold count_ge. fold f. cbn [filter]. destruct (f a) eqn:Fa.
    - cbn [length]. destruct i as [|i]; [cbn [nth]; rewrite Fa; split; auto; lia|]. cbn [nth]. rewrite (IH Hs' i) by (simpl in Hi; lia). unfold count_ge. fold f. lia.
    - assert (E : filter f l = []).
      { apply filter_none. intros x Hx. apply (In_nth _ _ 0) in Hx. destruct Hx as (k & Hk & <-). specialize (Hs 0%nat (S k) ltac:(lia) ltac:(simpl; lia)). cbn [nth] in Hs.
        unfold f in *. destruct (Rle_dec c a); [discriminate|]. destruct (Rle_dec c (nth k l 0)); auto. lra. }
      rewrite E. cbn [length]. split; [|lia]. intros H. destruct i as [|i]; [cbn [nth] in H; congruence|]. cbn [nth] in H.
      assert (In (nth i l 0) (filter f l)) by (apply filter_In; split; auto; apply nth_In; simpl in Hi; lia). rewrite E in H0. destruct H0. }
  specialize (HF l Hs). assert (HC : (count_ge c l <= length l)%nat) by (unfold count_ge; apply filter_length_le).
  assert (HN : forall i, (i < length l)%nat -> nth i (map f l) false = f (nth i l 0)) by (intros i Hi; rewrite map_nth_in with (da := 0) by auto; auto).
  destruct (count_ge c l) as [|k].
  - destruct (last_true (map f l)) as [k|] eqn:E; auto. apply last_true_some in E. destruct E as (E1 & E2 & _). rewrite map_length in E1. rewrite HN in E2 by auto. apply HF in E2; auto. lia.
  - apply last_true_some. rewrite map_length. split; [lia|]. split.
    + rewrite HN by lia. apply HF; lia.
    + intros j Hj. destruct (le_lt_dec (length l) j); [apply nth_overflow; rewrite map_length; auto|]. rewrite HN by auto. destruct (f (nth j l 0)) eqn:E; auto. apply HF in E; auto. lia.
Qed.
Lemma count_ge_shift c l : count_ge 0 (map (fun x => x - c) l) = count_ge c l.
Proof.
  unfold count_ge. induction l as [|a l IH]; simpl; auto. destruct (Rle_dec 0 (a - c)); destruct (Rle_dec c a); try lra; simpl; auto.
Qed.
Section Thr.
  Variable svd : nd R -> nd R * list R * nd R.
  Hypothesis SVD : svd_contract svd.
  Variables (t t0 : truncator) (M : nd R) (m n : nat).
  Hypothesis HM : shape M = [m; n].
  Variables (tol c : R) (pw : power).
  Hypothesis Hc : c <> 0.
  Hypothesis Hth : thresholding_parameter t = Some c.
  (** the same truncator without thresholding *)
  Hypothesis Ht0 : t0 = Trunc (tolerance t) (max_rank t) (thresholding_type t) None.
  Notation s := (snd (fst (svd M))).
  Variables (mr : option nat).
  Hypothesis Hmr : max_rank t = [mr].
  Lemma thr_common : let k := min_opt (tol_rank pw tol (Nat.min m n) s) mr in
     trunc_svd svd t0 M (Some tol) pw = Some (CP (firstn k s) [take_cols (fst (fst (svd M))) k; take_rows_tr (snd (svd M)) k]).
  Proof. cbn zeta. rewrite (trunc_svd_eq svd t0 M m n HM mr tol); auto; rewrite Ht0; auto. Qed.
  Lemma firstn_firstn' {A} i j (l : list A) : firstn (Nat.min i j) l = firstn j (firstn i l).
  Proof. rewrite firstn_firstn. f_equal. lia. Qed.
  Lemma s_dec i j : (i <= j)%nat -> (j < length s)%nat -> nth j s 0 <= nth i s 0.
  Proof. destruct (SVD M m n HM) as (SU & Ls & SV & Sp & Sd & _). intros. apply Sd; auto. lia. Qed.
  Lemma trunc_svd_hard : thresholding_type t = Hard ->
    trunc_svd svd t M (Some tol) pw =
      match count_ge c s with
      | O => None
      | S _ => option_map (fun x => CP (firstn (count_ge c s) (cp_core x)) (map (fun A => take_cols A (count_ge c s)) (cp_space x))) (trunc_svd svd t0 M (Some tol) pw)
      end.
  Proof.
    intros HT. rewrite thr_common. unfold trunc_svd, trunc_rank. rewrite Hmr, Hth, HT, HM. pose proof (last_true_count c s s_dec) as HL. destruct (svd M) as [[U s'] V]. cbn [fst snd nth] in *.
    destruct (Req_EM_T c 0); [contradiction|]. rewrite HL. destruct (count_ge c s') as [|k]; auto. cbn [bind option_map fst snd cp_core cp_space map].
    rewrite Nat.add_1_r, firstn_firstn'. do 2 f_equal. unfold take_cols, take_rows_tr. cbn [shape nth get]. f_equal; [f_equal; f_equal; f_equal; lia|]. f_equal. f_equal. f_equal. f_equal. lia.
  Qed.
  Lemma trunc_svd_soft : thresholding_type t = Soft ->
    trunc_svd svd t M (Some tol) pw =
      match count_ge c s with
      | O => None
      | S _ => option_map (fun x => CP (map (fun a => a - c) (firstn (count_ge c s) (cp_core x))) (map (fun A => take_cols A (count_ge c s)) (cp_space x))) (trunc_svd svd t0 M (Some tol) pw)
      end.
  Proof.
    intros HT. rewrite thr_common. unfold trunc_svd, trunc_rank. rewrite Hmr, Hth, HT, HM.
    pose proof (last_true_count 0 (map (fun x => x - c) s)) as HL. rewrite count_ge_shift in HL. pose proof s_dec as Hd. destruct (svd M) as [[U s'] V]. cbn [fst snd nth] in *.
    destruct (Req_EM_T c 0); [contradiction|]. rewrite HL.
    2:{ intros i j Hi Hj. rewrite map_length in Hj. rewrite !map_nth_in with (da := 0) by lia. specialize (Hd i j Hi Hj). lra. }
    destruct (count_ge c s') as [|k]; auto. cbn [bind option_map fst snd cp_core cp_space map].
    rewrite Nat.add_1_r, <- firstn_map, <- firstn_map, firstn_firstn'. do 2 f_equal. unfold take_cols, take_rows_tr. cbn [shape nth get]. f_equal; [f_equal; f_equal; f_equal; lia|]. f_equal. f_equal. f_equal. f_equal. lia.
  Qed.
End Thr.

(** call histories *)
Section Hist.
  Variable svd : nd R -> nd R * list R * nd R.
  Lemma hosvd_state_loop A ltol mr m : (forall d x, nth_error mr d = Some x -> x = m) -> forall l st st', max_rank (fst st) = [m] ->
    ofold (hosvd_step svd A ltol mr) l st = Some st' -> fst st' = fst st.
  Proof.
    intros Hr. induction l as [|d l IH]; intros st st' Hm E; cbn [ofold] in E; [congruence|].
    destruct (hosvd_step svd A ltol mr st d) as [st1|] eqn:E1; [|discriminate].
    assert (H1 : fst st1 = fst st).
    { unfold hosvd_step in E1. destruct (nth_error mr d) as [x|] eqn:Ex; [|discriminate]. apply Hr in Ex. subst x. destruct (ft_matricize A [d] None); [|discriminate]. cbn [bind] in E1.
      destruct (trunc_svd _ _ _ _ _); [|discriminate]. cbn [bind] in E1. injection E1 as <-. cbn [fst]. destruct st as [t L]. cbn [fst] in *. unfold set_max_rank. rewrite <- Hm. destruct t; auto. }
    rewrite <- H1. apply (IH st1 st'); auto. rewrite H1. auto.
  Qed.
  Lemma hosvd_state t A m X t' : max_rank t = [m] -> hosvd svd t A = Some (X, t') -> t' = t.
  Proof.
    intros Hm E. unfold hosvd in E. rewrite Hm in E. destruct (ofold _ _ _) as [st|] eqn:E1; [|discriminate]. cbn [bind] in E.
    assert (H1 : fst st = t).
    { apply (hosvd_state_loop A _ (repeat m (ndim A)) m) in E1; auto. intros d x Hx. apply nth_error_In in Hx. apply repeat_spec in Hx. auto. }
    clear E1. destruct (ofold _ _ _) as [C|]; [|discriminate]. cbn [bind] in E. destruct (tb_make _ _); [|discriminate]. cbn [bind] in E. injection E as _ <-. auto.
  Qed.
End Hist.

Section HosvdMain.
  Variable svd : nd R -> nd R * list R * nd R.
  Hypothesis SVD : svd_contract svd.
  Lemma hosvd_main t A mr : mr = match max_rank t with [m] => repeat m (ndim A) | l => l end -> length mr = ndim A ->
    thresholding_parameter t = None \/ thresholding_parameter t = Some 0 ->
    Forall (fun n => (0 < n)%nat) (shape A) -> Forall (fun m => m <> Some 0%nat) mr -> (2 <= ndim A)%nat ->
    exists X t' F (k0 : nat -> nat) (M : nat -> nd R),
      hosvd svd t A = Some (X, t') /\ ttree X = dt_trivial (ndim A) /\ tb_ok X 1 /\ tb_full X = Some F /\ shape F = shape A /\
      (forall d, (d < ndim A)%nat -> ft_matricize A [d] None = Some (M d) /\
         kept_by_tolerance (snd (fst (svd (M d)))) (tolerance t / sqrt (INR (ndim A))) (Pw 2) (k0 d) /\
         orth_cols (core X (d + 2)) /\ shape (core X (d + 2)) = [nth d (shape A) 0%nat; length (firstn (min_opt (k0 d) (nth d mr None)) (snd (fst (svd (M d)))))]) /\
      err2 A (get F) <= lsum (seq 0 (ndim A)) (fun d => sumsq (skipn (min_opt (k0 d) (nth d mr None)) (snd (fst (svd (M d)))))).
  Proof.
    intros Hmr Lmr Hth HP HR HD. set (lt := tolerance t / sqrt (INR (ndim A))).
    destruct (hosvd_run svd SVD t A mr Hmr Lmr Hth HP HR lt HD eq_refl) as (C & H1 & H2 & H3 & (F & HF & HsF & HgF)).
    exists (TB (dt_trivial (ndim A)) (C :: Us svd A mr lt)), (tk t mr (ndim A)), F.
    exists (fun d => tol_rank (Pw 2) lt (Nat.min (nth d (shape A) 0%nat) (prodn (oth A d))) (sd svd A d)), (Md A).
    split; [exact H1|]. split; [reflexivity|]. split; [exact H3|]. split; [exact HF|]. split; [exact HsF|]. split.
    - intros d Hd. destruct (Md_spec A d Hd) as (E & HM & _). split; [exact E|].
      assert (H0 : (0 < nth d (shape A) 0)%nat) by (apply (proj1 (Forall_nth' _ _ 0%nat) HP); auto).
      assert (H0' : (0 < prodn (oth A d))%nat) by (apply prodn_pos; apply Forall_forall; intros n Hn; apply in_map_iff in Hn; destruct Hn as (k & <- & Hk); apply in_compl in Hk; apply (proj1 (Forall_nth' _ _ 0%nat) HP); tauto).
      split; [apply (tol_rank_spec svd SVD (Md A d) _ _ HM); auto; lra|].
      assert (EC : core (TB (dt_trivial (ndim A)) (C :: Us svd A mr lt)) (d + 2) = Ud svd A mr lt d).
      { unfold core, nthc. replace (d + 2 - 1)%nat with (S d) by lia. cbn [cores nth]. unfold Us. rewrite nth_map_seq by auto. auto. }
      rewrite EC. split; [apply (take_cols_orth svd SVD _ _ _ HM)|].
      destruct (SVD _ _ _ HM) as (SU & LS & _). unfold Ud, take_cols. rewrite SU. cbn [shape nth]. rewrite firstn_length, LS. reflexivity.
    - apply (hosvd_error_gen svd SVD t A mr Lmr Hth lt (get F)). intros is Hv. apply HgF. auto.
  Qed.
  Lemma hosvd_tol t A : max_rank t = [None] -> thresholding_parameter t = None \/ thresholding_parameter t = Some 0 ->
    Forall (fun n => (0 < n)%nat) (shape A) -> (2 <= ndim A)%nat -> 0 < tolerance t ->
    exists X t' F, hosvd svd t A = Some (X, t') /\ tb_full X = Some F /\ shape F = shape A /\
      err2 A (get F) <= tolerance t * tolerance t * frob2 A.
  Proof.
    intros Hmr Hth HP HD Ht. set (mr := repeat (@None nat) (ndim A)). set (lt := tolerance t / sqrt (INR (ndim A))).
    assert (E : mr = match max_rank t with [m] => repeat m (ndim A) | l => l end) by (rewrite Hmr; auto).
    assert (L : length mr = ndim A) by (apply repeat_length).
    destruct (hosvd_run svd SVD t A mr E L Hth HP) with (ltol := lt) as (C & H1 & H2 & H3 & (F & HF & HsF & HgF)); auto.
    { apply Forall_forall. intros m Hm. apply repeat_spec in Hm. subst. discriminate. }
    do 3 eexists. split; [exact H1|]. split; [exact HF|]. split; [exact HsF|].
    assert (HI : 0 < INR (ndim A)) by (apply lt_0_INR; lia). pose proof (sqrt_lt_R0 _ HI) as Hs.
    assert (Hl : 0 < lt) by (apply Rdiv_lt_0_compat; auto).
    eapply Rle_trans; [apply (hosvd_error_gen svd SVD t A mr L Hth lt (get F)); intros is Hv; apply HgF; auto|].
    apply Rle_trans with (lsum (seq 0 (ndim A)) (fun _ => lt * lt * frob2 A)).
    - apply lsum_le. intros d Hd. apply in_seq in Hd. apply (hosvd_tail svd SVD t A mr Hth HP lt d); auto; [lia|]. unfold mr. apply nth_repeat.
    - right. assert (G : forall n a c, lsum (seq a n) (fun _ => c) = INR n * c).
      { induction n; intros a c; [simpl; rcbn; ring|]. cbn [seq]. rewrite lsum_cons_R, IHn, S_INR. ring. }
      rewrite G. unfold lt. rewrite <- (sqrt_sqrt (INR (ndim A))) at 1 by lra. field. lra.
  Qed.
  Lemma hosvd_hist (m : option nat) l : forall t t', max_rank t = [m] -> after_hosvds svd l t = Some t' -> t' = t.
  Proof.
    induction l as [|A l IH]; intros t t' Hm E; cbn in E; [congruence|]. destruct (hosvd svd t A) as [[X t1]|] eqn:E1; [|discriminate]. cbn in E.
    apply (hosvd_state svd t A m) in E1; auto. subst t1. apply (IH t t'); auto.
  Qed.
  (** with one max_rank per dimension, the second call does not give the result of the first *)
  Lemma hosvd_twice : let t := Trunc 0 [Some 1; Some 2; Some 2]%nat Hard None in let A := ND [2;2;2]%nat (fun _ => 1) in
    exists X1 t1 X2 t2, hosvd svd t A = Some (X1, t1) /\ hosvd svd t1 A = Some (X2, t2) /\
      shape (core X1 1) = [1;2;2]%nat /\ shape (core X2 1) = [2;2;2]%nat.
  Proof.
    cbn zeta. set (A := ND [2;2;2]%nat (fun _ => 1)). set (t := Trunc 0 [Some 1; Some 2; Some 2]%nat Hard None).
    assert (HP : Forall (fun n => (0 < n)%nat) (shape A)) by (repeat constructor).
    assert (G : forall t mr, mr = match max_rank t with [m] => repeat m (ndim A) | l => l end -> tolerance t = 0 -> length mr = ndim A -> thresholding_parameter t = None -> Forall (fun m => m <> Some 0%nat) mr ->
       exists X, hosvd svd t A = Some (X, tk t mr 3) /\ shape (core X 1) = map (fun d => Nat.min (min_opt 3 (nth d mr None)) 2) (seq 0 3)).
    { intros t0 mr E1 E2 E3 E4 E5. destruct (hosvd_run svd SVD t0 A mr E1 E3 (or_introl E4) HP E5 (tolerance t0 / sqrt (INR (ndim A)))) as (C & H1 & H2 & _); [cbn; lia|reflexivity|].
      eexists. split; [exact H1|]. unfold core, nthc. cbn [cores Nat.sub nth]. rewrite H2. unfold rs. change (ndim A) with 3%nat. apply map_ext_in. intros d Hd. apply in_seq in Hd.
      unfold rd, kd. rewrite E2. unfold Rdiv. rewrite Rmult_0_l.
      assert (EO : Nat.min (nth d (shape A) 0%nat) (prodn (oth A d)) = 2%nat) by (destruct d as [|[|[|d]]]; [reflexivity|reflexivity|reflexivity|lia]).
      rewrite EO. rewrite tol_rank_notol; [reflexivity|lra|auto]. }
    destruct (G t [Some 1; Some 2; Some 2]%nat) as (X1 & H1 & H2); auto; [repeat constructor; discriminate|].
    destruct (G (tk t [Some 1; Some 2; Some 2]%nat 3) [Some 2; Some 2; Some 2]%nat) as (X2 & H3 & H4); auto; [repeat constructor; discriminate|].
    do 4 eexists. split; [exact H1|]. split; [exact H3|]. split; [exact H2|exact H4].
  Qed.
End HosvdMain.
