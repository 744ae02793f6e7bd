(** Leave-one-out error of L2 density estimation. *)
From Coq Require Import List Arith Lia Reals Lra Bool.
From Verif.Base Require Import ListAux CRing Index RealAux LinAlg.
From Verif.Model Require Import Learning DensityL2.
From Verif.Spec Require Import LearningSpec DensitySpec.
From Verif.Proofs Require Import LearningP LearningP2 LearningP3.
Import ListNotations.
Local Open Scope R_scope.

Definition colmean (A : mx) (rows : list nat) (j : nat) : R := lsum rows (fun i => ment A i j) / INR (length rows).
Lemma lsum_lsum_swap {T U} (l : list T) (m : list U) (f : T -> U -> R) : lsum l (fun a => lsum m (f a)) = lsum m (fun b => lsum l (fun a => f a b)).
Proof. induction l as [|a l IH]; [symmetry; apply lsum_zero_R; reflexivity|]. rewrite lsum_cons_R, IH, <- lsum_plus_R. apply lsum_ext_in. intros. rewrite lsum_cons_R. auto. Qed.
Lemma lsum_const {T} (l : list T) c : lsum l (fun _ => c) = INR (length l) * c.
Proof. induction l as [|a l IH]; [cbn; ring|]. rewrite lsum_cons_R, IH. cbn [length]. rewrite S_INR. ring. Qed.
Lemma contrast_cols A b ind c i : contrast A b ind c i = lsum ind (fun j => c j ^ 2 - 2 * (ment A i j * c j) + 2 * (b j * c j)).
Proof. unfold contrast. rewrite lsum_plus_R, lsum_minus_R, !lsum_scal_l_R. auto. Qed.
Lemma empirical_cols A b ind rows c : (0 < length rows)%nat ->
  empirical_contrast A b ind rows c = lsum ind (fun j => (c j - (colmean A rows j - b j)) ^ 2) - lsum ind (fun j => (colmean A rows j - b j) ^ 2).
Proof.
  intros HN. assert (H0 : INR (length rows) <> 0) by (apply not_0_INR; lia).
  unfold empirical_contrast. rewrite (lsum_ext_in rows _ (fun i => lsum ind (fun j => c j ^ 2 - 2 * (ment A i j * c j) + 2 * (b j * c j)))) by (intros; apply contrast_cols).
  rewrite lsum_lsum_swap, <- lsum_minus_R. unfold Rdiv at 1. rewrite <- lsum_scal_r_R. apply lsum_ext_in. intros j _.
  rewrite lsum_plus_R, lsum_minus_R, !lsum_const, lsum_scal_l_R, lsum_scal_r_R. unfold colmean. field. auto.
Qed.
Lemma standard_minimises A b ind rows c : (0 < length rows)%nat -> (forall j, In j ind -> c j = colmean A rows j - b j) -> minimises_contrast A b ind rows c.
Proof.
  intros HN H c'. rewrite !empirical_cols by auto. rewrite (lsum_zero_R ind (fun j => (c j - _) ^ 2)) by (intros j Hj; rewrite H by auto; ring).
  assert (0 <= lsum ind (fun j => (c' j - (colmean A rows j - b j)) ^ 2)) by (apply lsum_nonneg; intros; apply pow2_ge_0). lra.
Qed.
Lemma minimiser_is A b ind rows c : (0 < length rows)%nat -> minimises_contrast A b ind rows c -> forall j, In j ind -> c j = colmean A rows j - b j.
Proof.
  intros HN H j Hj. specialize (H (fun j => colmean A rows j - b j)). rewrite !empirical_cols in H by auto.
  rewrite (lsum_zero_R ind (fun j => (colmean A rows j - b j - _) ^ 2)) in H by (intros; ring).
  assert (N0 : 0 <= lsum ind (fun j => (c j - (colmean A rows j - b j)) ^ 2)) by (apply lsum_nonneg; intros; apply pow2_ge_0).
  assert (N1 : lsum ind (fun j => (c j - (colmean A rows j - b j)) ^ 2) = 0) by lra.
  assert (Z := lsum_zero_iff ind (fun j => (c j - (colmean A rows j - b j)) ^ 2) (fun a _ => pow2_ge_0 _) N1 j Hj).
  cbn beta in Z. assert (c j - (colmean A rows j - b j) = 0) by (apply Rsqr_0_uniq; unfold Rsqr; cbn in Z; lra). lra.
Qed.
Lemma dl2_sol_is A b j : dl2_sol A b j = colmean A (all_rows A) j - b_or_zero b j.
Proof. unfold dl2_sol, colmean, all_rows. rewrite seq_length, lsum_seq_rsum. destruct b; auto. Qed.

Lemma without_one_sum A i (f : nat -> R) : (i < mrows A)%nat -> lsum (without A [i]) f = rsum (mrows A) f - f i.
Proof.
  intros Hi. rewrite lsum_without. f_equal. rewrite (rsum_ext_R' _ _ (fun k => if (k =? i)%nat then f k else 0)); [apply rsum_delta_R; auto|].
  intros k _. unfold memb. cbn [existsb]. rewrite orb_false_r. auto.
Qed.
Lemma without_one_length A i : (i < mrows A)%nat -> INR (length (without A [i])) = INR (mrows A) - 1.
Proof.
  intros Hi. assert (E := without_one_sum A i (fun _ => 1) Hi). rewrite lsum_const in E. rewrite Rmult_1_r in E. rewrite E. f_equal.
  rewrite <- lsum_seq_rsum, lsum_const, seq_length. ring.
Qed.
(** one column *)
Lemma column_identity n (a : nat -> R) b s (c : nat -> R) : (2 <= n)%nat -> s = rsum n a / INR n - b ->
  (forall i, (i < n)%nat -> c i = (rsum n a - a i) / (INR n - 1) - b) ->
  rsum n (fun i => c i ^ 2 - 2 * (a i * c i) + 2 * (b * c i)) / INR n
  = (INR n ^ 2 - 2 * INR n) / (INR n - 1) ^ 2 * s ^ 2 + 1 / (INR n - 1) ^ 2 * b ^ 2 - 2 / (INR n - 1) ^ 2 * (rsum n a * b)
    + (2 * INR n - 1) / (INR n * (INR n - 1) ^ 2) * rsum n (fun i => a i ^ 2) - 2 / (INR n - 1) * (rsum n a * s) + 2 * (s * b).
Proof.
  intros Hn Hs Hc. set (N := INR n). assert (HN : 2 <= N) by (unfold N; apply (le_INR 2 n Hn)).
  set (S := rsum n a) in *. set (Q := rsum n (fun i => a i ^ 2)).
  rewrite (rsum_ext_R' n _ (fun i => (S / (N - 1) - b) ^ 2 + 2 * b * (S / (N - 1) - b) + (1 / (N - 1) ^ 2 + 2 / (N - 1)) * a i ^ 2
     + (- 2 * (S / (N - 1) - b) / (N - 1) - 2 * (S / (N - 1) - b) - 2 * b / (N - 1)) * a i)).
  2:{ intros i Hi. rewrite Hc by auto. fold N. field. lra. }
  rewrite !rsum_plus_R, !rsum_scal_l_R. fold S Q.
  assert (EC : forall k, rsum n (fun _ => k) = N * k). { intros k. rewrite <- lsum_seq_rsum, lsum_const, seq_length. auto. }
  rewrite !EC. rewrite Hs. fold N. field. lra.
Qed.
Lemma dl2_error_loo A b ind fit : (2 <= mrows A)%nat -> 
  (forall i, (i < mrows A)%nat -> minimises_contrast A (b_or_zero b) ind (without A [i]) (fit i)) ->
  dl2_error A b (dl2_sol A b) ind = loo_contrast A (b_or_zero b) ind fit.
Proof.
  intros HN Hfit. assert (H2 : 2 <= INR (mrows A)) by apply (le_INR 2 _ HN).
  assert (HL : forall i, (i < mrows A)%nat -> (0 < length (without A [i]))%nat).
  { intros i Hi. apply INR_lt. rewrite without_one_length by auto. cbn. lra. }
  assert (HC : forall i j, (i < mrows A)%nat -> In j ind -> fit i j = (rsum (mrows A) (fun l => ment A l j) - ment A i j) / (INR (mrows A) - 1) - b_or_zero b j).
  { intros i j Hi Hj. rewrite (minimiser_is A _ ind (without A [i]) (fit i) (HL i Hi) (Hfit i Hi) j Hj). unfold colmean. rewrite without_one_length, without_one_sum by auto. auto. }
  unfold loo_contrast. rewrite (lsum_ext_in _ _ (fun i => lsum ind (fun j => fit i j ^ 2 - 2 * (ment A i j * fit i j) + 2 * (b_or_zero b j * fit i j)))) by (intros; apply contrast_cols).
  rewrite lsum_lsum_swap. unfold Rdiv at 1. rewrite <- lsum_scal_r_R.
  rewrite (lsum_ext_in ind (fun j => lsum _ _ * _) (fun j =>
     (INR (mrows A) ^ 2 - 2 * INR (mrows A)) / (INR (mrows A) - 1) ^ 2 * dl2_sol A b j ^ 2 + 1 / (INR (mrows A) - 1) ^ 2 * b_or_zero b j ^ 2 - 2 / (INR (mrows A) - 1) ^ 2 * (rsum (mrows A) (fun i => ment A i j * b_or_zero b j))
    + (2 * INR (mrows A) - 1) / (INR (mrows A) * (INR (mrows A) - 1) ^ 2) * rsum (mrows A) (fun i => ment A i j ^ 2) - 2 / (INR (mrows A) - 1) * (rsum (mrows A) (fun i => ment A i j * dl2_sol A b j)) + 2 * (dl2_sol A b j * b_or_zero b j))).
  2:{ intros j Hj. rewrite lsum_seq_rsum. rewrite !rsum_scal_r_R.
      apply (column_identity (mrows A) (fun i => ment A i j) (b_or_zero b j) (dl2_sol A b j) (fun i => fit i j)); auto.
      rewrite dl2_sol_is. unfold colmean, all_rows. rewrite seq_length, lsum_seq_rsum. auto. }
  destruct b as [b|]; cbn [b_or_zero dl2_error].
  - rewrite lsum_plus_R, lsum_minus_R, lsum_plus_R, lsum_minus_R, lsum_plus_R, !lsum_scal_l_R.
    assert (SW : forall v : vec, rsum (mrows A) (fun i => lsum ind (fun j => ment A i j * v j)) = lsum ind (fun j => rsum (mrows A) (fun i => ment A i j * v j))).
    { intros v. symmetry. apply lsum_rsum_swap. }
    rewrite !SW. reflexivity.
  - unfold dl2_error. rewrite <- !lsum_scal_l_R, <- lsum_plus_R. apply lsum_ext_in. intros j _. rewrite !rsum_scal_r_R.
    replace (rsum (mrows A) (fun i => ment A i j)) with (INR (mrows A) * dl2_sol A None j) by (unfold dl2_sol; field; lra). field. lra.
Qed.

(** ** choice of the candidate *)
Lemma rargmin_from_spec l : forall full best k e, (best < k)%nat -> nth best full 0 = e -> skipn k full = l ->
  (forall j, (j < k)%nat -> e <= nth j full 0) -> (k <= length full)%nat ->
  let m := rargmin_from best k e l in (m < length full)%nat /\ forall j, (j < length full)%nat -> nth m full 0 <= nth j full 0.
Proof.
  induction l as [|x l IH]; intros full best k e Hb He Hs Hmin Hk; cbn [rargmin_from].
  - assert (k = length full). { assert (length (skipn k full) = 0%nat) by (rewrite Hs; auto). rewrite skipn_length in H. lia. }
    split; [lia|]. intros j Hj. rewrite He. apply Hmin. lia.
  - assert (Hkl : (k < length full)%nat). { assert (length (skipn k full) = S (length l)) by (rewrite Hs; auto). rewrite skipn_length in H. lia. }
    assert (Hx : nth k full 0 = x). { rewrite <- (firstn_skipn k full), app_nth2; rewrite firstn_length, Nat.min_l by lia; [|lia]. rewrite Nat.sub_diag, Hs. auto. }
    assert (Hs' : skipn (S k) full = l). { clear - Hs. revert full Hs. induction k as [|k IHk]; intros [|z full] Hs; try discriminate; cbn [skipn] in *; [congruence|auto]. }
    destruct (Rlt_dec x e) as [E|E].
    + apply IH; auto; try lia. intros j Hj. destruct (Nat.eq_dec j k) as [->|]; [lra|]. assert (e <= nth j full 0) by (apply Hmin; lia). lra.
    + apply IH; auto; try lia. intros j Hj. destruct (Nat.eq_dec j k) as [->|]; [lra|]. apply Hmin; lia.
Qed.
Lemma rargmin_spec l : l <> [] -> (rargmin l < length l)%nat /\ forall j, (j < length l)%nat -> nth (rargmin l) l 0 <= nth j l 0.
Proof.
  destruct l as [|x l]; [congruence|]. intros _. apply (rargmin_from_spec l (x :: l) 0 1 x); auto; cbn [length]; try lia.
  intros j Hj. replace j with 0%nat by lia. cbn. lra.
Qed.
Lemma dl2_best_spec A b inds : (2 <= mrows A)%nat -> inds <> [] -> let (x, e) := dl2_best A b (dl2_sol A b) inds in best_candidate A (b_or_zero b) inds x e.
Proof.
  intros HN Hne. unfold dl2_best. set (errs := map (dl2_error A b (dl2_sol A b)) inds).
  assert (En : errs <> []) by (unfold errs; destruct inds; [congruence|discriminate]).
  destruct (rargmin_spec errs En) as [Hm Hmin]. assert (Le : length errs = length inds) by apply map_length. set (m := rargmin errs) in *.
  assert (EE : forall k, (k < length inds)%nat -> nth k errs 0 = dl2_error A b (dl2_sol A b) (nth k inds [])).
  { intros k Hk. unfold errs. rewrite (nth_indep _ _ (dl2_error A b (dl2_sol A b) [])) by (rewrite map_length; auto). apply map_nth. }
  exists (nth m inds []). split; [apply nth_In; lia|]. 
  assert (MS : forall j, (In j (nth m inds []) -> dl2_restrict (dl2_sol A b) (nth m inds []) j = colmean A (all_rows A) j - b_or_zero b j) /\ (~ In j (nth m inds []) -> dl2_restrict (dl2_sol A b) (nth m inds []) j = 0)).
  { intros j. unfold dl2_restrict. fold (memb (nth m inds []) j). destruct (memb (nth m inds []) j) eqn:E.
    + apply memb_spec in E. split; [intros _; apply dl2_sol_is|tauto].
    + assert (~ In j (nth m inds [])) by (rewrite <- memb_spec; congruence). tauto. }
  split; [|split; [|split]].
  - apply standard_minimises; [unfold all_rows; rewrite seq_length; lia|]. intros j. apply MS.
  - intros j. apply MS.
  - intros fit Hfit. rewrite EE by lia. apply dl2_error_loo; auto.
  - intros ind' fit Hin Hfit. apply (In_nth inds ind' []) in Hin as [k [Hk <-]]. rewrite <- (dl2_error_loo A b (nth k inds []) fit) by auto.
    rewrite <- EE by auto. apply Hmin. lia.
Qed.
Lemma regularized_spec A b order : (2 <= mrows A)%nat -> order <> [] ->
  exists x e, dl2_solve_regularized A b order None = Some (x, Some e) /\ best_candidate A (b_or_zero b) (map (fun k => firstn (S k) order) (seq 0 (length order))) x e.
Proof.
  intros HN Hne. unfold dl2_solve_regularized. destruct order as [|j order]; [congruence|]. cbn [length Nat.eqb].
  assert (E := dl2_best_spec A b (map (fun i => firstn (S i) (j :: order)) (seq 0 (length (j :: order)))) HN). cbn [length] in *.
  destruct (dl2_best _ _ _ _) as [x e]. exists x, e. split; [destruct b; auto|]. apply E. discriminate.
Qed.
Lemma regularized_included_spec A order incl : (2 <= mrows A)%nat -> (exists j, In j order /\ ~ In j incl) ->
  exists x e, dl2_solve_regularized A None order (Some incl) = Some (x, Some e) /\
    let rest := filter (fun j => negb (existsb (Nat.eqb j) incl)) order in
    best_candidate A (fun _ => 0) (incl :: map (fun k => incl ++ firstn (S k) rest) (seq 0 (length rest))) x e.
Proof.
  intros HN (j0 & Hj & Hn). unfold dl2_solve_regularized. set (rest := filter _ order).
  assert (HR : rest <> []). { intros E. assert (H : In j0 rest). { apply filter_In. split; auto. fold (memb incl j0). destruct (memb incl j0) eqn:EM; auto. apply memb_spec in EM. contradiction. } rewrite E in H. destruct H. }
  destruct (Nat.eqb_spec (length rest) 0) as [Z|_]; [destruct rest; [congruence|discriminate]|].
  assert (E := dl2_best_spec A None (incl :: map (fun i => incl ++ firstn (S i) rest) (seq 0 (length rest))) HN ltac:(discriminate)).
  destruct (dl2_best _ _ _ _) as [x e]. exists x, e. split; auto.
Qed.
Lemma dl2_select_spec A b path : (2 <= mrows A)%nat -> (exists p, candidate A path p) ->
  let (x, e) := dl2_select A b path in
  exists inds, (forall ind, In ind inds <-> exists p, candidate A path p /\ ind = positions p) /\ best_candidate A (b_or_zero b) inds x e.
Proof.
  intros HN [p0 Hp0]. unfold dl2_select. destruct (admissible_patterns (mrows A) path) as [|p l] eqn:E.
  { apply admissible_in in Hp0. rewrite E in Hp0. destruct Hp0. }
  rewrite <- E. set (pats := admissible_patterns _ _) in *.
  assert (H := dl2_best_spec A b (map support pats) HN). destruct (dl2_best _ _ _ _) as [x e]. exists (map support pats). split.
  - intros ind. rewrite in_map_iff. split; intros [q [H1 H2]]; exists q; [split; [apply admissible_in; auto|auto]|split; [auto|apply admissible_in; auto]].
  - apply H. rewrite E. discriminate.
Qed.
Lemma standard_spec A b fit : (2 <= mrows A)%nat ->
  (forall i, (i < mrows A)%nat -> minimises_contrast A (b_or_zero b) (seq 0 (mcols A)) (without A [i]) (fit i)) ->
  let (x, e) := dl2_solve_standard A b in
  minimises_contrast A (b_or_zero b) (seq 0 (mcols A)) (all_rows A) x /\ e = loo_contrast A (b_or_zero b) (seq 0 (mcols A)) fit.
Proof.
  intros HN Hfit. cbn. split; [|apply dl2_error_loo; auto]. apply standard_minimises; [unfold all_rows; rewrite seq_length; lia|]. intros j _. apply dl2_sol_is.
Qed.
