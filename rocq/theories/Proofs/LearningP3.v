(** Property-level statements for least-squares learning, and selection along a path. *)
From Coq Require Import List Arith Lia Reals Lra Bool Permutation.
From Verif.Base Require Import ListAux CRing Index RealAux LinAlg.
From Verif.Model Require Import Measures Learning.
From Verif.Spec Require Import LearningSpec.
From Verif.Proofs Require Import LearningP LearningP2.
Import ListNotations.
Local Open Scope R_scope.

Lemma mean_ext l f g : (forall i, In i l -> f i = g i) -> mean l f = mean l g.
Proof. intros H. unfold mean. f_equal. apply lsum_ext_in; auto. Qed.

Lemma cv_loo L A y sol f o fit : lapack_ok L -> least_squares A y (all_rows A) sol -> facs_ok A f ->
  (mcols A < mrows A)%nat -> loo_determined A -> cv_kind o = LeaveOut -> loo_fits A y fit ->
  exists delta e, compute_cv_error L o A y sol f = Some (CvFin e delta) /\ (forall i, (i < mrows A)%nat -> delta i = y i - prediction A (fit i) i) /\
    (cv_correction o = false -> e = sqrt (loo_error A y fit)) /\
    (cv_correction o = true -> (forall q r, f = FQR q r -> feps <= 1 / l_cond L r) -> forall C, gram_inverse A C -> 0 < correction A C (cv_gram o) -> e = sqrt (loo_error A y fit * correction A C (cv_gram o))).
Proof.
  intros HL HS Hf Hlt D Hk Hfit. unfold compute_cv_error, cv_kind_used. rewrite Hk. destruct (Nat.ltb_spec (mrows A) (mcols A + 1)); [lia|].
  assert (ED : forall i, (i < mrows A)%nat -> (y i - matvec A sol i) / (1 - leverage A f i) = y i - prediction A (fit i) i).
  { intros i Hi. apply (loo_delta A y sol f HS Hf); auto; lia. }
  do 2 eexists. split; [reflexivity|]. split; [exact ED|].
  assert (EM : np_mean (mrows A) (fun i => ((y i - matvec A sol i) / (1 - leverage A f i)) ^ 2) = mean (all_rows A) (fun i => (y i - prediction A (fit i) i) ^ 2)).
  { rewrite np_mean_seq. apply mean_ext. intros i Hi. apply in_seq in Hi. rewrite ED by lia. auto. }
  rewrite EM. split.
  - intros Hc. rewrite cv_finish_plain by (auto; lia). reflexivity.
  - intros Hc Hcond C HC Hpos. rewrite (cv_finish_corrected L o A y f _ C); auto. apply determined_all with (F := [0%nat]). apply D. lia.
Qed.
Lemma cv_kfold L A y sol f o fit : lapack_ok L -> least_squares A y (all_rows A) sol -> facs_ok A f ->
  (mcols A <= mrows A)%nat -> (0 < mrows A)%nat -> folds_ok (mrows A) (cv_folds o) -> (forall F, In F (cv_folds o) -> determined A (without A F)) ->
  cv_kind o = KFold -> cv_nfolds o = Some (length (cv_folds o)) -> (length (cv_folds o) < mrows A)%nat ->
  INR (mcols A) <= INR (mrows A) * (1 - 1 / INR (length (cv_folds o))) ->
  (forall F, In F (cv_folds o) -> least_squares A y (without A F) (fit F)) ->
  exists delta e, compute_cv_error L o A y sol f = Some (CvFin e delta) /\ (forall F i, In F (cv_folds o) -> In i F -> delta i = y i - prediction A (fit F) i) /\
    (cv_correction o = false -> e = sqrt (fold_error A y (cv_folds o) fit)) /\
    (cv_correction o = true -> (mcols A < mrows A)%nat -> (forall q r, f = FQR q r -> feps <= 1 / l_cond L r) -> forall C, gram_inverse A C -> 0 < correction A C (cv_gram o) -> e = sqrt (fold_error A y (cv_folds o) fit * correction A C (cv_gram o))).
Proof.
  intros HL HS Hf Hle HN (ND & Hcov & Hne) D Hk Hnf Hlt Hen Hfit. unfold compute_cv_error, cv_kind_used, cv_nfolds_used. rewrite Hk, Hnf.
  destruct (Nat.eqb_spec (length (cv_folds o)) (mrows A)); [lia|]. rewrite Nat.min_r by lia. destruct (Rlt_dec _ _); [lra|].
  assert (HF : forall F, In F (cv_folds o) -> determined A (without A F) /\ least_squares A y (without A F) (fit F) /\ NoDup F /\ forall i, In i F -> (i < mrows A)%nat).
  { intros F HF. repeat split; auto.
    - clear - ND HF. induction (cv_folds o) as [|G l IH]; [destruct HF|]. cbn [concat] in ND. apply NoDup_app_inv in ND as (N1 & N2 & _). destruct HF as [->|HF]; auto.
    - intros i Hi. apply Hcov. apply in_concat. eauto. }
  destruct (kfold_loop_spec L A y sol f HL HS Hf (cv_folds o) fit Hle HF ND [] (fun _ => 0)) as (delta & E & ED & _).
  rewrite E. do 2 eexists. split; [reflexivity|]. split; [exact ED|]. cbn [app]. rewrite map_length.
  assert (EM : lsum (map (fun F => mean F (fun i => (y i - prediction A (fit F) i) ^ 2)) (cv_folds o)) (fun e => e) = lsum (cv_folds o) (fun F => mean F (fun i => (y i - prediction A (fit F) i) ^ 2))).
  { generalize (fun F => mean F (fun i => (y i - prediction A (fit F) i) ^ 2)). intros h. generalize (cv_folds o). induction l as [|F l IH]; [reflexivity|]. cbn [map]. rewrite !lsum_cons_R, IH. auto. }
  rewrite EM. split.
  - intros Hc. rewrite cv_finish_plain by auto. reflexivity.
  - intros Hc Hl Hcond C HC Hpos. rewrite (cv_finish_corrected L o A y f _ C); auto.
    assert (H0 : In 0%nat (concat (cv_folds o))) by (apply Hcov; auto). apply in_concat in H0 as [F [HF0 _]]. apply determined_all with (F := F). auto.
Qed.
Lemma solve_ols_shape L s o A y : solve_ols L s o A y = (ols L s A y, compute_cv_error L o A y (ols L s A y) (facs L s A)).
Proof. reflexivity. Qed.

Lemma solve_ols_loo L s o A y fit : lapack_ok L -> (mcols A < mrows A)%nat -> loo_determined A -> cv_kind o = LeaveOut -> loo_fits A y fit ->
  exists delta e, snd (solve_ols L s o A y) = Some (CvFin e delta) /\ (forall i, (i < mrows A)%nat -> delta i = y i - prediction A (fit i) i) /\
    (cv_correction o = false -> e = sqrt (loo_error A y fit)) /\
    (cv_correction o = true -> feps <= 1 / l_cond L (snd (l_qr L A)) -> forall C, gram_inverse A C -> 0 < correction A C (cv_gram o) -> e = sqrt (loo_error A y fit * correction A C (cv_gram o))).
Proof.
  intros HL Hlt D Hk Hfit. rewrite solve_ols_shape. cbn [snd].
  destruct (cv_loo L A y (ols L s A y) (facs L s A) o fit) as (delta & e & E & E1 & E2 & E3); auto.
  - apply ols_correct; auto.
  - apply facs_are_ok; auto. apply determined_all with (F := [0%nat]). apply D. lia.
  - exists delta, e. repeat split; auto. intros Hc Hcond C HC Hp. apply E3; auto. intros q r Eq. unfold facs in Eq. destruct s; [discriminate|]. destruct (l_qr L A) as [q' r']. injection Eq as <- <-. auto.
Qed.
Lemma solve_ols_kfold L s o A y fit : lapack_ok L -> (mcols A <= mrows A)%nat -> (0 < mrows A)%nat -> folds_ok (mrows A) (cv_folds o) ->
  (forall F, In F (cv_folds o) -> determined A (without A F)) ->
  cv_kind o = KFold -> cv_nfolds o = Some (length (cv_folds o)) -> (length (cv_folds o) < mrows A)%nat ->
  INR (mcols A) <= INR (mrows A) * (1 - 1 / INR (length (cv_folds o))) ->
  (forall F, In F (cv_folds o) -> least_squares A y (without A F) (fit F)) ->
  exists delta e, snd (solve_ols L s o A y) = Some (CvFin e delta) /\ (forall F i, In F (cv_folds o) -> In i F -> delta i = y i - prediction A (fit F) i) /\
    (cv_correction o = false -> e = sqrt (fold_error A y (cv_folds o) fit)) /\
    (cv_correction o = true -> (mcols A < mrows A)%nat -> feps <= 1 / l_cond L (snd (l_qr L A)) -> forall C, gram_inverse A C -> 0 < correction A C (cv_gram o) -> e = sqrt (fold_error A y (cv_folds o) fit * correction A C (cv_gram o))).
Proof.
  intros HL Hle HN HF D Hk Hnf Hlt Hen Hfit. rewrite solve_ols_shape. cbn [snd].
  destruct (cv_kfold L A y (ols L s A y) (facs L s A) o fit) as (delta & e & E & E1 & E2 & E3); auto.
  - apply ols_correct; auto.
  - apply facs_are_ok; auto. destruct HF as (_ & Hcov & _). assert (H0 : In 0%nat (concat (cv_folds o))) by (apply Hcov; auto). apply in_concat in H0 as [F [HF0 _]]. apply determined_all with (F := F). auto.
  - exists delta, e. repeat split; auto. intros Hc Hl Hcond C HC Hp. apply E3; auto. intros q r Eq. unfold facs in Eq. destruct s; [discriminate|]. destruct (l_qr L A) as [q' r']. injection Eq as <- <-. auto.
Qed.
Lemma residual_error_spec A y sol : (0 < mrows A)%nat -> residual_error A y sol
  = (mean (all_rows A) (fun i => (y i - prediction A sol i) ^ 2) / mean (all_rows A) (fun i => y i ^ 2), fun i => y i - prediction A sol i).
Proof. intros HN. unfold residual_error. rewrite second_moment_spec, np_mean_seq by auto. reflexivity. Qed.

(** ** selection along a path *)
Lemma upd_at l i e : (i < length l)%nat -> upd l i e = firstn i l ++ e :: skipn (S i) l.
Proof. auto. Qed.
Lemma select_loop_spec L s o stop A y pats : forall i errs sols, length errs = (i + length pats)%nat ->
  (exists p, In p pats /\ snd (reduced_fit L s o A y (support p)) = None) /\ select_loop L s o stop A y pats i errs sols = None
  \/ exists es, map (fun p => snd (reduced_fit L s o A y (support p))) pats = map Some es /\
     select_loop L s o stop A y pats i errs sols = Some (firstn i errs ++ es, sols ++ map (fun p => spread (support p) (fst (reduced_fit L s o A y (support p)))) pats).
Proof.
  induction pats as [|p pats IH]; intros i errs sols Hl; cbn [select_loop map length] in *.
  - right. exists []. rewrite !app_nil_r, firstn_all2 by lia. auto.
  - destruct (reduced_fit L s o A y (support p)) as [x [e|]] eqn:E.
    2:{ left. split; auto. exists p. split; [left; auto|]. rewrite E. auto. }
    set (errs1 := upd errs i e). assert (L1 : length errs1 = length errs).
    { unfold errs1, upd. rewrite app_length, firstn_length, Nat.min_l by lia. cbn [length]. rewrite skipn_length. lia. }
    assert (F1 : firstn (S i) errs1 = firstn i errs ++ [e]).
    { unfold errs1, upd. rewrite firstn_app, firstn_length, Nat.min_l by lia. rewrite firstn_firstn, Nat.min_r by lia. replace (S i - i)%nat with 1%nat by lia. auto. }
    set (errs2 := if ((1 <? i)%nat && stop && cv_gt2 (nth i errs1 CvInf) (nth (i - 1) errs1 CvInf)) then firstn (S i) errs1 ++ map (fun _ : cv_result => CvInf) (skipn (S i) errs1) else errs1).
    assert (L2 : length errs2 = length errs).
    { unfold errs2. destruct (_ && _ && _); auto. rewrite app_length, map_length, <- app_length, firstn_skipn. auto. }
    assert (F2 : firstn (S i) errs2 = firstn i errs ++ [e]).
    { unfold errs2. destruct (_ && _ && _); auto. rewrite firstn_app, firstn_length, Nat.min_l by lia. rewrite firstn_firstn, Nat.min_r, F1 by lia. rewrite Nat.sub_diag. cbn [firstn]. apply app_nil_r. }
    destruct (IH (S i) errs2 (sols ++ [spread (support p) x])) as [[[q [Hq E1]] E2]|[es [E1 E2]]]; [lia| |].
    + left. split; auto. exists q. split; auto. right; auto.
    + right. exists (e :: es). split; [cbn [map]; rewrite E1; auto|]. rewrite E2, F2, <- !app_assoc. auto.
Qed.
Lemma select_stop L s o A y path b b' : select_optimal_path L s o b A y path = select_optimal_path L s o b' A y path.
Proof.
  unfold select_optimal_path. destruct (admissible_patterns (mrows A) path) as [|p l] eqn:E; auto. rewrite <- E. set (pats := admissible_patterns _ _).
  assert (Hl : length (map (fun _ : list bool => CvFin 0 (fun _ : nat => 0)) pats) = (0 + length pats)%nat) by apply map_length.
  destruct (select_loop_spec L s o b A y pats 0 _ [] Hl) as [[[q [Hq E1]] E2]|[es [E1 E2]]];
  destruct (select_loop_spec L s o b' A y pats 0 _ [] Hl) as [[[q' [Hq' E1']] E2']|[es' [E1' E2']]]; rewrite E2, E2'; auto.
  - exfalso. assert (In None (map (fun p => snd (reduced_fit L s o A y (support p))) pats)) by (rewrite <- E1; apply in_map_iff; eauto).
    rewrite E1' in H. apply in_map_iff in H as [? [? _]]. discriminate.
  - exfalso. assert (In None (map (fun p => snd (reduced_fit L s o A y (support p))) pats)) by (rewrite <- E1'; apply in_map_iff; eauto).
    rewrite E1 in H. apply in_map_iff in H as [? [? _]]. discriminate.
  - assert (es = es'); [|subst; auto]. rewrite E1 in E1'. clear - E1'. revert es' E1'. induction es as [|x es IH]; intros [|y es'] E; try discriminate; auto. cbn in E. injection E as -> E. f_equal; auto.
Qed.

Definition cv_le (a b : cv_result) : Prop := match a, b with CvFin x _, CvFin y _ => x <= y | _, CvInf => True | CvInf, CvFin _ _ => False end.
Lemma cv_le_refl a : cv_le a a.
Proof. destruct a; cbn; auto; lra. Qed.
Lemma cv_le_trans a b c : cv_le a b -> cv_le b c -> cv_le a c.
Proof. destruct a, b, c; cbn; auto; try tauto; lra. Qed.
Lemma cv_lt_le a b : cv_lt a b = true -> cv_le a b.
Proof. destruct a, b; cbn; auto; try discriminate. destruct (Rlt_dec _ _); [lra|discriminate]. Qed.
Lemma cv_nlt_le a b : cv_lt a b = false -> cv_le b a.
Proof. destruct a, b; cbn; auto; try discriminate. destruct (Rlt_dec _ _); [discriminate|lra]. Qed.
Lemma argmin_from_spec l : forall full best k e, (best < k)%nat -> nth best full CvInf = e -> skipn k full = l ->
  (forall j, (j < k)%nat -> cv_le e (nth j full CvInf)) -> (k <= length full)%nat ->
  let m := argmin_from best k e l in (m < length full)%nat /\ forall j, (j < length full)%nat -> cv_le (nth m full CvInf) (nth j full CvInf).
Proof.
  induction l as [|x l IH]; intros full best k e Hb He Hs Hmin Hk; cbn [argmin_from].
  - assert (k = length full). { assert (length (skipn k full) = 0%nat) by (rewrite Hs; auto). rewrite skipn_length in H. lia. }
    split; [lia|]. intros j Hj. rewrite He. apply Hmin. lia.
  - assert (Hkl : (k < length full)%nat). { assert (length (skipn k full) = S (length l)) by (rewrite Hs; auto). rewrite skipn_length in H. lia. }
    assert (Hx : nth k full CvInf = x). { rewrite <- (firstn_skipn k full), app_nth2; rewrite firstn_length, Nat.min_l by lia; [|lia]. rewrite Nat.sub_diag, Hs. auto. }
    assert (Hs' : skipn (S k) full = l). { clear - Hs. revert full Hs. induction k as [|k IHk]; intros [|z full] Hs; try discriminate; cbn [skipn] in *; [congruence|auto]. }
    destruct (cv_lt x e) eqn:E.
    + apply IH; auto; try lia. intros j Hj. destruct (Nat.eq_dec j k) as [->|]; [rewrite Hx; apply cv_le_refl|]. eapply cv_le_trans; [apply cv_lt_le; eauto|apply Hmin; lia].
    + apply IH; auto; try lia. intros j Hj. destruct (Nat.eq_dec j k) as [->|]; [rewrite Hx; apply cv_nlt_le; auto|]. apply Hmin; lia.
Qed.
Lemma np_argmin_spec l : l <> [] -> (np_argmin l < length l)%nat /\ forall j, (j < length l)%nat -> cv_le (nth (np_argmin l) l CvInf) (nth j l CvInf).
Proof.
  destruct l as [|x l]; [congruence|]. intros _. apply (argmin_from_spec l (x :: l) 0 1 x); auto; cbn [length]; try lia.
  intros j Hj. replace j with 0%nat by lia. apply cv_le_refl.
Qed.

Lemma beqb_spec p q : beqb p q = true <-> p = q.
Proof.
  revert q. induction p as [|a p IH]; intros [|b q]; cbn; try (split; [discriminate|discriminate]); [tauto|].
  rewrite andb_true_iff, IH, eqb_true_iff. split; [intros [-> ->]; auto|]. intros E; injection E as -> ->; auto.
Qed.
Lemma first_occurrences_in l : forall seen p, In p (first_occurrences seen l) <-> In p l /\ ~ In p seen.
Proof.
  induction l as [|q l IH]; intros seen p; cbn [first_occurrences]; [cbn; tauto|].
  assert (HB : existsb (beqb q) seen = true <-> In q seen).
  { rewrite existsb_exists. split; [intros [r [Hr E]]; apply beqb_spec in E; subst; auto|]. intros H. exists q. split; auto. apply beqb_spec; auto. }
  destruct (existsb (beqb q) seen) eqn:E.
  - rewrite IH. cbn [In]. split; [intros [H1 H2]; split; auto|]. intros [[<-|H1] H2]; [exfalso; apply H2, HB; auto|auto].
  - cbn [In]. rewrite IH. cbn [In]. assert (Hq : ~ In q seen) by (rewrite <- HB; congruence). split.
    + intros [<-|[H1 H2]]; [auto|]. split; auto.
    + intros [[<-|H1] H2]; [auto|]. destruct (list_eq_dec bool_dec q p) as [->|Hne]; [auto|]. right. split; auto. intros [?|?]; auto.
Qed.
Lemma positions_length p : length (positions p) = count_true p.
Proof.
  unfold positions, count_true. induction p as [|a p IH]; [reflexivity|]. cbn [length seq filter nth].
  rewrite <- seq_shift. assert (E : forall l, length (filter (fun j => nth j (a :: p) false) (map S l)) = length (filter (fun j => nth j p false) l)).
  { induction l as [|k l IHl]; [reflexivity|]. cbn [map filter]. change (nth (S k) (a :: p) false) with (nth k p false). destruct (nth k p false); cbn [length]; rewrite IHl; auto. }
  destruct a; cbn [length]; rewrite E, IH; auto.
Qed.
Lemma has_true_positions p : has_true p = true <-> positions p <> [].
Proof.
  assert (H : has_true p = true <-> (0 < count_true p)%nat).
  { unfold has_true, count_true. induction p as [|a p IH]; cbn; [split; [discriminate|lia]|]. destruct a; cbn; [split; [lia|auto]|auto]. }
  rewrite H, <- positions_length. destruct (positions p); cbn; split; intros; try lia; congruence.
Qed.
Lemma admissible_in A path p : In p (admissible_patterns (mrows A) path) <-> candidate A path p.
Proof.
  unfold admissible_patterns, candidate. rewrite filter_In, first_occurrences_in, filter_In, Nat.leb_le, positions_length, has_true_positions. cbn [In]. tauto.
Qed.

(** prediction with spread coefficients *)
Lemma support_positions p : support p = positions p.
Proof. reflexivity. Qed.
Lemma positions_NoDup p : NoDup (positions p).
Proof. apply NoDup_filter, seq_NoDup. Qed.
Lemma prediction_columns A ind x i : NoDup ind -> (forall j, In j ind -> (j < mcols A)%nat) -> prediction A (spread ind x) i = prediction (columns A ind) x i.
Proof.
  intros ND HI. unfold prediction. cbn [columns mcols ment].
  assert (E : forall j, spread ind x j = embed ind x j).
  { intros j. destruct (in_dec Nat.eq_dec j ind) as [Hj|Hj].
    - apply (In_nth ind j 0%nat) in Hj as [a [Ha <-]]. unfold spread. rewrite scatter_at, embed_at by auto. auto.
    - unfold spread. rewrite scatter_out, embed_out by auto. auto. }
  rewrite (rsum_ext_R' _ _ (fun j => ment A i j * embed ind x j)) by (intros; rewrite E; auto). rewrite embed_sum by auto. auto.
Qed.
Lemma sparse_of_columns A y rows ind x : NoDup ind -> (forall j, In j ind -> (j < mcols A)%nat) -> least_squares (columns A ind) y rows x ->
  sparse_least_squares A y rows ind (spread ind x).
Proof.
  intros ND HI H. split; [intros j _ Hj; unfold spread; rewrite scatter_out; auto|]. intros x' Hx'.
  assert (E : forall z, rss A y rows (spread ind z) = rss (columns A ind) y rows z).
  { intros z. apply lsum_ext_in. intros i _. rewrite prediction_columns by auto. auto. }
  rewrite E. assert (E' : rss A y rows x' = rss A y rows (spread ind (fun a => x' (nth a ind 0%nat)))).
  { apply lsum_ext_in. intros i _. do 2 f_equal. apply prediction_ext. intros j Hj. destruct (in_dec Nat.eq_dec j ind) as [Hin|Hout].
    - apply (In_nth ind j 0%nat) in Hin as [a [Ha <-]]. unfold spread. rewrite scatter_at by auto. auto.
    - unfold spread. rewrite scatter_out by auto. apply Hx'; auto. }
  rewrite E', E. apply H.
Qed.
Lemma reduced_fit_ls L s o A y ind : lapack_ok L -> least_squares (columns A ind) y (all_rows A) (fst (reduced_fit L s o A y ind)).
Proof.
  intros HL. unfold reduced_fit. change (take_columns A ind) with (columns A ind). change (all_rows A) with (all_rows (columns A ind)).
  destruct (if (mrows A <? length ind)%nat then Solve else s).
  - cbn [fst]. apply try_inv_gram; auto.
  - assert (HQ := proj1 HL (columns A ind)). destruct (l_qr L (columns A ind)) as [q r]. cbn [fst]. apply try_solve_qr; auto.
Qed.
Lemma reduced_fit_loo L s o A y ind fit : lapack_ok L -> (length ind < mrows A)%nat -> loo_determined (columns A ind) -> cv_kind o = LeaveOut -> cv_correction o = false -> loo_fits (columns A ind) y fit ->
  exists delta, snd (reduced_fit L s o A y ind) = Some (CvFin (sqrt (loo_error (columns A ind) y fit)) delta).
Proof.
  intros HL Hlt D Hk Hc Hfit. assert (LS := reduced_fit_ls L s o A y ind HL).
  assert (DA : determined (columns A ind) (all_rows (columns A ind))) by (apply determined_all with (F := [0%nat]); apply D; cbn; lia).
  unfold reduced_fit in *. change (take_columns A ind) with (columns A ind) in *.
  destruct (if (mrows A <? length ind)%nat then Solve else s); cbn [fst snd] in *.
  - destruct (cv_loo L (columns A ind) y _ (facs L Solve (columns A ind)) o fit HL LS (facs_are_ok L Solve _ HL DA)) as (d & e & E & _ & Ee & _); auto.
    exists d. cbn [facs] in E. rewrite E. rewrite Ee by auto. auto.
  - assert (FO := facs_are_ok L QR _ HL DA). cbn [facs] in FO. destruct (l_qr L (columns A ind)) as [q r]. cbn [fst snd] in *.
    destruct (cv_loo L (columns A ind) y _ (FQR q r) o fit HL LS FO) as (d & e & E & _ & Ee & _); auto.
    exists d. rewrite E. rewrite Ee by auto. auto.
Qed.
(** in leave-one-out mode no exception can occur *)
Lemma reduced_fit_some L s o A y ind : cv_kind o = LeaveOut -> exists e, snd (reduced_fit L s o A y ind) = Some e.
Proof.
  intros Hk. unfold reduced_fit, compute_cv_error, cv_kind_used. destruct (if (mrows A <? length ind)%nat then Solve else s); [|destruct (l_qr L _)]; cbn [snd]; rewrite Hk; destruct (_ <? _)%nat; eauto.
Qed.

Lemma select_spec L s o stop A y path : lapack_ok L -> Forall (fun p => length p = mcols A) path -> (exists p, candidate A path p) ->
  forall x e q, select_optimal_path L s o stop A y path = Some (x, e, q) ->
  exists p er, q = Some p /\ e = Some er /\ candidate A path p /\ sparse_least_squares A y (all_rows A) (positions p) x /\
    (forall p', candidate A path p' -> exists er', snd (reduced_fit L s o A y (positions p')) = Some er' /\ cv_le er er') /\
    snd (reduced_fit L s o A y (positions p)) = Some er.
Proof.
  intros HL HP [p0 Hp0] x e q. unfold select_optimal_path. set (pats := admissible_patterns (mrows A) path).
  assert (Hne : pats <> []). { intros E. apply admissible_in in Hp0. fold pats in Hp0. rewrite E in Hp0. destruct Hp0. }
  destruct pats as [|p1 l] eqn:EP; [congruence|]. rewrite <- EP in *. 
  assert (Hl : length (map (fun _ : list bool => CvFin 0 (fun _ : nat => 0)) pats) = (0 + length pats)%nat) by apply map_length.
  destruct (select_loop_spec L s o stop A y pats 0 _ [] Hl) as [[_ E2]|[es [E1 E2]]]; rewrite E2; [discriminate|].
  cbn [firstn app]. intros E. injection E as <- <- <-.
  assert (Les : length es = length pats) by (rewrite <- (map_length Some es), <- E1, map_length; auto).
  assert (Nes : es <> []) by (intros Z; rewrite Z in Les; destruct pats; [congruence|discriminate]).
  destruct (np_argmin_spec es Nes) as [Hm Hmin]. set (m := np_argmin es) in *.
  assert (Hes : forall k, (k < length pats)%nat -> snd (reduced_fit L s o A y (support (nth k pats []))) = Some (nth k es CvInf)).
  { intros k Hk. assert (E := f_equal (fun l => nth k l None) E1). cbn beta in E.
    rewrite (nth_indep _ _ (snd (reduced_fit L s o A y (support [])))) in E by (rewrite map_length; auto).
    rewrite (map_nth (fun p => snd (reduced_fit L s o A y (support p)))) in E.
    rewrite (nth_indep (map Some es) _ (Some CvInf)) in E by (rewrite map_length; lia). rewrite (map_nth Some) in E. auto. }
  assert (Hpm : candidate A path (nth m pats [])) by (apply admissible_in; fold pats; apply nth_In; lia).
  exists (nth m pats []), (nth m es CvInf). repeat split; auto; try apply Hpm.
  - intros j Hj Hout. rewrite (nth_indep _ _ (spread (support []) (fst (reduced_fit L s o A y (support []))))) by (rewrite map_length; lia).
    rewrite (map_nth (fun p => spread (support p) (fst (reduced_fit L s o A y (support p))))). unfold spread. rewrite scatter_out; auto.
  - rewrite (nth_indep _ _ (spread (support []) (fst (reduced_fit L s o A y (support []))))) by (rewrite map_length; lia).
    rewrite (map_nth (fun p => spread (support p) (fst (reduced_fit L s o A y (support p))))).
    apply sparse_of_columns.
    + apply positions_NoDup.
    + intros j Hj. unfold support in Hj. apply filter_In in Hj as [Hj _]. apply in_seq in Hj. rewrite Forall_forall in HP. rewrite (HP (nth m pats [])) in Hj by apply Hpm. lia.
    + apply reduced_fit_ls; auto.
  - intros p' Hp'. apply admissible_in in Hp'. fold pats in Hp'. apply (In_nth pats p' []) in Hp' as [k [Hk <-]].
    exists (nth k es CvInf). split; [apply Hes; auto|]. apply Hmin. lia.
  - apply Hes. lia.
Qed.
Lemma select_total L s o stop A y path : cv_kind o = LeaveOut -> exists r, select_optimal_path L s o stop A y path = Some r.
Proof.
  intros Hk. unfold select_optimal_path. destruct (admissible_patterns (mrows A) path) as [|p1 l] eqn:EP; [destruct (solve_ols L s o A y); eauto|].
  set (pats := p1 :: l).
  assert (Hl : length (map (fun _ : list bool => CvFin 0 (fun _ : nat => 0)) pats) = (0 + length pats)%nat) by apply map_length.
  destruct (select_loop_spec L s o stop A y pats 0 _ [] Hl) as [[[q [Hq E1]] E2]|[es [E1 E2]]].
  - destruct (reduced_fit_some L s o A y (support q) Hk) as [e E]. congruence.
  - rewrite E2. eauto.
Qed.
Lemma select_loo L s o stop A y path : lapack_ok L -> Forall (fun p => length p = mcols A) path -> (exists p, candidate A path p) ->
  cv_kind o = LeaveOut -> cv_correction o = false ->
  exists x p er, select_optimal_path L s o stop A y path = Some (x, Some er, Some p) /\ candidate A path p /\
    sparse_least_squares A y (all_rows A) (positions p) x /\
    (forall p' fit, candidate A path p' -> (length (positions p') < mrows A)%nat -> loo_determined (columns A (positions p')) -> loo_fits (columns A (positions p')) y fit ->
       exists e delta, er = CvFin e delta /\ e <= sqrt (loo_error (columns A (positions p')) y fit)) /\
    (forall fit, (length (positions p) < mrows A)%nat -> loo_determined (columns A (positions p)) -> loo_fits (columns A (positions p)) y fit ->
       exists delta, er = CvFin (sqrt (loo_error (columns A (positions p)) y fit)) delta).
Proof.
  intros HL HP HE Hk Hc. destruct (select_total L s o stop A y path Hk) as [[[x e] q] E].
  destruct (select_spec L s o stop A y path HL HP HE x e q E) as (p & er & -> & -> & Hp & Hls & Hmin & Her).
  exists x, p, er. split; auto. split; auto. split; auto. split.
  - intros p' fit Hp' Hlt D Hfit. destruct (Hmin p' Hp') as (er' & E1 & E2). destruct (reduced_fit_loo L s o A y (positions p') fit) as [d Ed]; auto.
    rewrite E1 in Ed. injection Ed as ->. destruct er as [|e0 d0]; [destruct E2|]. exists e0, d0. auto.
  - intros fit Hlt D Hfit. destruct (reduced_fit_loo L s o A y (positions p) fit) as [d Ed]; auto. rewrite Her in Ed. injection Ed as ->. eauto.
Qed.
