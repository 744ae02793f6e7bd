(** Three-term recurrences: evaluation, monomial coefficients, derivatives. *)
From Coq Require Import List Arith Reals Bool Lia Lra Factorial.
From Verif.Base Require Import ListAux CRing RealAux Poly.
From Verif.Model Require Import Polynomials.
From Verif.Spec Require Import PolySpec.
Import ListNotations.
Local Open Scope R_scope.

Lemma maxl_le l i : In i l -> (i <= maxl l)%nat.
Proof. induction l as [|a l IH]; cbn; [tauto|]. intros [-> |H]; [lia|]. apply IH in H. unfold maxl in H. lia. Qed.

Lemma maxl_seq n : maxl (seq 0 (S n)) = n.
Proof.
  enough (H : forall s, maxl (seq s (S n)) = (s + n)%nat) by apply (H 0%nat).
  induction n as [|n IH]; intros s.
  - cbn. lia.
  - change (seq s (S (S n))) with (s :: seq (S s) (S n)). cbn [maxl fold_right]. fold (maxl (seq (S s) (S n))). rewrite IH. lia.
Qed.

(** ** The reference sequence *)
Fixpoint pvs (a b : nat -> R) (n : nat) (x : R) : R * R :=  (* (p_n, p_(n+1)) *)
  match n with
  | O => (1, (x - a 0%nat) / sqrt (b 1%nat))
  | S m => let q := pvs a b m x in
           (snd q, ((x - a n) * snd q - sqrt (b n) * fst q) / sqrt (b (S n)))
  end.
Definition pval (a b : nat -> R) (n : nat) (x : R) : R := fst (pvs a b n x).

Lemma pval_0 a b x : pval a b 0 x = 1. Proof. reflexivity. Qed.
Lemma pval_1 a b x : pval a b 1 x = (x - a 0%nat) / sqrt (b 1%nat). Proof. reflexivity. Qed.
Lemma pval_SS a b n x : pval a b (S (S n)) x =
  ((x - a (S n)) * pval a b (S n) x - sqrt (b (S n)) * pval a b n x) / sqrt (b (S (S n))).
Proof. reflexivity. Qed.

Lemma pv_length a b m x : length (pv a b m x) = S m.
Proof.
  unfold pv. destruct m as [|m]; cbn [Nat.eqb]; auto.
  replace (S m - 1)%nat with m by lia.
  enough (H : forall s l, length (fold_left (pv_step a b x) (seq s m) l) = (length l + m)%nat) by (rewrite H; auto).
  induction m as [|m IH]; intros s l; cbn [seq fold_left]; [lia|]. rewrite IH. unfold pv_step. rewrite app_length. cbn. lia.
Qed.

Lemma pv_eq a b m x : pv a b m x = map (fun i => pval a b i x) (seq 0 (S m)).
Proof.
  unfold pv. destruct m as [|m]; cbn [Nat.eqb]; auto. replace (S m - 1)%nat with m by lia.
  induction m as [|m IH]; auto.
  rewrite seq_S_snoc, fold_left_app, IH. cbn [fold_left]. unfold pv_step.
  rewrite (seq_S_snoc 0 (S (S m))), map_app. f_equal. cbn [map]. f_equal.
  replace (2 + m - 1)%nat with (S m) by lia. replace (2 + m - 2)%nat with m by lia.
  rewrite !nth_map_seq by lia. cbn [Nat.add]. rewrite pval_SS. auto.
Qed.

Lemma polyval_eq a b mass ind x : polyval a b mass ind x = map (fun i => pval a b i x / sqrt mass) ind.
Proof.
  unfold polyval. apply map_ext_in. intros i Hi. apply maxl_le in Hi. rewrite pv_eq, map_map.
  rewrite nth_map_seq by lia. auto.
Qed.

(** ** Monic polynomials *)
Fixpoint monic2 (a b : nat -> R) (n : nat) : list R * list R :=
  match n with
  | O => ([1], [- a 0%nat; 1])
  | S m => let q := monic2 a b m in
           (snd q, padd (0 :: snd q) (padd (pscal (- a n) (snd q)) (pscal (- b n) (fst q))))
  end.
Definition monic (a b : nat -> R) (n : nat) : list R := fst (monic2 a b n).
Lemma monic_SS a b n : monic a b (S (S n)) =
  padd (0 :: monic a b (S n)) (padd (pscal (- a (S n)) (monic a b (S n))) (pscal (- b (S n)) (monic a b n))).
Proof. reflexivity. Qed.
Lemma peval_monic_0 a b x : peval (monic a b 0) x = 1.
Proof. cbn. lra. Qed.
Lemma peval_monic_1 a b x : peval (monic a b 1) x = x - a 0%nat.
Proof. cbn. lra. Qed.
Lemma peval_monic_SS a b n x : peval (monic a b (S (S n))) x =
  (x - a (S n)) * peval (monic a b (S n)) x - b (S n) * peval (monic a b n) x.
Proof. rewrite monic_SS, !peval_padd, !peval_pscal. cbn [peval]. lra. Qed.

Lemma monic_length a b n : length (monic a b n) = S n.
Proof.
  enough (H : length (monic a b n) = S n /\ length (monic a b (S n)) = S (S n)) by tauto.
  induction n as [|n [IH1 IH2]]; [cbn; auto|]. split; auto.
  rewrite monic_SS, !padd_length, !pscal_length. cbn [length]. rewrite IH1, IH2. lia.
Qed.
Lemma monic_lead a b n : nth n (monic a b n) 0 = 1.
Proof.
  enough (H : nth n (monic a b n) 0 = 1 /\ nth (S n) (monic a b (S n)) 0 = 1) by tauto.
  induction n as [|n [IH1 IH2]]; [cbn; auto|]. split; auto.
  rewrite monic_SS, !nth_padd, !nth_pscal. cbn [nth]. rewrite IH2.
  rewrite (nth_overflow (monic a b (S n))) by (rewrite monic_length; lia).
  rewrite (nth_overflow (monic a b n)) by (rewrite monic_length; lia). lra.
Qed.

(** normalising constant: sqrt(b_1) ... sqrt(b_n) *)
Fixpoint cprod (b : nat -> R) (n : nat) : R := match n with O => 1 | S m => cprod b m * sqrt (b n) end.
Lemma cprod_pos b n : (forall k, (1 <= k <= n)%nat -> 0 < b k) -> 0 < cprod b n.
Proof. induction n as [|n IH]; intros H; cbn [cprod]; [lra|]. apply Rmult_lt_0_compat; [apply IH; intros; apply H; lia|apply sqrt_lt_R0; apply H; lia]. Qed.

Lemma pval_monic a b n x : (forall k, (1 <= k <= n)%nat -> 0 < b k) -> pval a b n x = peval (monic a b n) x / cprod b n.
Proof.
  enough (H : forall n, ((forall k, (1 <= k <= n)%nat -> 0 < b k) -> pval a b n x = peval (monic a b n) x / cprod b n) /\
     ((forall k, (1 <= k <= S n)%nat -> 0 < b k) -> pval a b (S n) x = peval (monic a b (S n)) x / cprod b (S n))) by apply H.
  clear n. induction n as [|n [IH1 IH2]].
  - split; intros H.
    + rewrite pval_0, peval_monic_0. cbn. field.
    + rewrite pval_1, peval_monic_1. cbn [cprod]. f_equal. lra.
  - split; auto. intros H. rewrite pval_SS, peval_monic_SS, IH1, IH2 by (intros; apply H; lia). cbn [cprod].
    assert (0 < cprod b n) by (apply cprod_pos; intros; apply H; lia).
    assert (H1 : 0 < b (S n)) by (apply H; lia). assert (H2 : 0 < b (S (S n))) by (apply H; lia).
    pose proof (sqrt_lt_R0 _ H1). pose proof (sqrt_lt_R0 _ H2).
    assert (E : b (S n) = sqrt (b (S n)) * sqrt (b (S n))) by (rewrite sqrt_sqrt; lra).
    set (sb := sqrt (b (S n))) in *. rewrite E. field. lra.
Qed.

(** ** Monomial coefficients *)
Lemma rsum_S_l_R n (f : nat -> R) : rsum (S n) f = f 0%nat + rsum n (fun i => f (S i)).
Proof. exact (rsum_S_l n f). Qed.
Lemma nth_firstn_lt' {A} (d : A) n l j : (j < n)%nat -> nth j (firstn n l) d = nth j l d.
Proof. revert n l. induction j as [|j IH]; intros [|n] [|a l] H; cbn; auto; try lia. apply IH. lia. Qed.
Lemma monomial_value_peval c x : monomial_value c x = peval c x.
Proof.
  unfold monomial_value. induction c as [|a c IH]; [reflexivity|].
  cbn [length peval]. rewrite rsum_S_l_R. cbn [nth pow].
  rewrite <- IH. f_equal; [cbn; lra|].
  rewrite <- rsum_scal_l_R. apply rsum_ext. intros j Hj. cbn. ring.
Qed.

Definition row_ok (a b : nat -> R) (m i : nat) (row : list R) : Prop :=
  length row = S m /\ (forall j, (i < j)%nat -> nth j row 0 = 0) /\ (forall x, peval row x = pval a b i x) .

Lemma removelast_peval row x m : length row = S m -> nth m row 0 = 0 -> peval (removelast row) x = peval row x.
Proof.
  intros L H. assert (Hne : row <> []) by (intros ->; discriminate).
  rewrite (app_removelast_last 0 Hne) at 2. rewrite peval_app. cbn.
  assert (E : last row 0 = 0).
  { rewrite (app_removelast_last 0 Hne) in H.
    assert (LR : length (removelast row) = m) by (rewrite removelast_firstn_len, firstn_length, L; lia).
    rewrite app_nth2 in H by lia. rewrite LR, Nat.sub_diag in H. exact H. }
  rewrite E. lra.
Qed.

Lemma shift_row_length row : row <> [] -> length (shift_row row) = length row.
Proof.
  intros H. unfold shift_row. cbn. rewrite removelast_firstn_len, firstn_length. destruct row; [congruence|]. cbn. lia.
Qed.

Lemma shift_row_nth row j : (j < length row)%nat -> nth j (shift_row row) 0 = match j with O => 0 | S j' => nth j' row 0 end.
Proof.
  intros H. unfold shift_row. destruct j; auto. cbn [nth]. rewrite removelast_firstn_len.
  apply nth_firstn_lt'. lia.
Qed.

Lemma peval_map2 f c1 c2 (r s : list R) x : length r = length s -> (forall u v, f (u, v) = c1 * u + c2 * v) ->
  peval (map f (combine r s)) x = c1 * peval r x + c2 * peval s x.
Proof.
  intros L H. revert s L. induction r as [|u r IH]; intros [|v s]; cbn; intros L; try discriminate; [lra|].
  rewrite H, IH by lia. lra.
Qed.

Lemma peval_map3 f c1 c2 c3 (r s t : list R) x : length r = length s -> length s = length t ->
  (forall u v w, f (u, (v, w)) = c1 * u + c2 * v + c3 * w) ->
  peval (map f (combine r (combine s t))) x = c1 * peval r x + c2 * peval s x + c3 * peval t x.
Proof.
  intros L L' H. revert s t L L'. induction r as [|u r IH]; intros [|v s] [|w t]; cbn; intros L L'; try discriminate; [lra|].
  rewrite H, IH by lia. lra.
Qed.

Lemma row0_ok a b m : row_ok a b m 0 (1 :: repeat 0 m).
Proof.
  split; [cbn; rewrite repeat_length; auto|]. split.
  - intros [|j] Hj; [lia|]. cbn. apply nth_repeat.
  - intros x. cbn [peval]. rewrite peval_zeros, pval_0. lra.
Qed.

Lemma row1_ok a b m : (1 <= m)%nat -> row_ok a b m 1 (pc_row1 a b (1 :: repeat 0 m)).
Proof.
  intros Hm. destruct (row0_ok a b m) as [L [Z E]]. set (r := 1 :: repeat 0 m) in *.
  assert (Hne : r <> []) by discriminate.
  assert (LS : length (shift_row r) = length r) by (apply shift_row_length; auto).
  unfold pc_row1. split; [|split].
  - rewrite map_length, combine_length, LS, L. lia.
  - intros j Hj. destruct (Nat.lt_ge_cases j (S m)) as [Hlt|]; [|apply nth_overflow; rewrite map_length, combine_length, LS, L; lia].
    rewrite (map_nth_in _ _ _ (0, 0)) by (rewrite combine_length, LS, L; lia).
    rewrite combine_nth by auto. cbn [fst snd]. rewrite shift_row_nth by lia. destruct j as [|j]; [lia|].
    rewrite (Z j), (Z (S j)) by lia. unfold Rdiv. ring.
  - intros x. rewrite (peval_map2 _ (/ sqrt (b 1%nat)) (- a 0%nat / sqrt (b 1%nat))); auto; [|intros; cbn; unfold Rdiv; ring].
    unfold shift_row. cbn [peval]. rewrite (removelast_peval r x m) by (auto; apply Z; lia).
    rewrite E, pval_0, pval_1. unfold Rdiv. ring.
Qed.

Lemma pc_step_ok a b m deg r1 r0 : (S deg < m)%nat -> row_ok a b m (S deg) r1 -> row_ok a b m deg r0 ->
  row_ok a b m (S (S deg)) (map (fun p => (fst p - a (S deg) * fst (snd p) - sqrt (b (S deg)) * snd (snd p)) / sqrt (b (S (S deg))))
             (combine (shift_row r1) (combine r1 r0))).
Proof.
  intros Hd [L1 [Z1 E1]] [L0 [Z0 E0]]. assert (Hne : r1 <> []) by (intros ->; discriminate).
  assert (LS : length (shift_row r1) = length r1) by (apply shift_row_length; auto).
  split; [|split].
  - rewrite map_length, !combine_length, LS, L1, L0. lia.
  - intros j Hj. destruct (Nat.lt_ge_cases j (S m)) as [Hlt|]; [|apply nth_overflow; rewrite map_length, !combine_length, LS, L1, L0; lia].
    rewrite (map_nth_in _ _ _ (0, (0, 0))) by (rewrite !combine_length, LS, L1, L0; lia).
    rewrite combine_nth by (rewrite combine_length; lia). rewrite combine_nth by lia. cbn [fst snd].
    rewrite shift_row_nth by lia. destruct j as [|j]; [lia|].
    rewrite (Z1 j), (Z1 (S j)), (Z0 (S j)) by lia. unfold Rdiv. ring.
  - intros x. rewrite (peval_map3 _ (/ sqrt (b (S (S deg)))) (- a (S deg) / sqrt (b (S (S deg)))) (- sqrt (b (S deg)) / sqrt (b (S (S deg)))));
      try lia; [|intros; cbn; unfold Rdiv; ring].
    unfold shift_row. cbn [peval]. rewrite (removelast_peval r1 x m) by (auto; apply Z1; lia).
    rewrite E1, E0, pval_SS. unfold Rdiv. ring.
Qed.

Lemma poly_coeff_rows a b m k : (k < m)%nat ->
  let coef := fold_left (pc_step a b) (seq 1 k) [1 :: repeat 0 m; pc_row1 a b (1 :: repeat 0 m)] in
  length coef = S (S k) /\ forall i, (i <= S k)%nat -> row_ok a b m i (nth i coef []).
Proof.
  induction k as [|k IH]; intros Hk coef.
  - cbn in coef. split; auto. intros i Hi. unfold coef. destruct i as [|[|i]]; [apply row0_ok|apply row1_ok; lia|lia].
  - unfold coef. rewrite seq_S_snoc, fold_left_app. cbn [fold_left]. destruct (IH ltac:(lia)) as [L H]. clear IH.
    set (c := fold_left (pc_step a b) (seq 1 k) [1 :: repeat 0 m; pc_row1 a b (1 :: repeat 0 m)]) in *.
    unfold pc_step. split; [rewrite app_length, L; cbn; lia|].
    intros i Hi. destruct (Nat.eq_dec i (S (S k))) as [-> |Hn].
    + rewrite app_nth2 by lia. rewrite L, Nat.sub_diag. cbn [nth]. replace (1 + k)%nat with (S k) by lia.
      replace (S k - 1)%nat with k by lia. apply pc_step_ok; [lia|apply H; lia|apply H; lia].
    + rewrite app_nth1 by lia. apply H; lia.
Qed.

Lemma poly_coeff_ok a b ind :
  length (poly_coeff a b ind) = length ind /\
  forall k, (k < length ind)%nat -> row_ok a b (maxl ind) (nth k ind 0%nat) (nth k (poly_coeff a b ind) []).
Proof.
  unfold poly_coeff. split; [apply map_length|]. intros k Hk. rewrite (map_nth_in _ _ _ 0%nat) by auto.
  assert (Hi := maxl_le ind (nth k ind 0%nat) (nth_In _ _ Hk)). set (m := maxl ind) in *. set (i := nth k ind 0%nat) in *.
  destruct m as [|m].
  - cbn. replace i with 0%nat by lia. apply (row0_ok a b 0).
  - cbn [Nat.eqb]. replace (S m - 1)%nat with m by lia.
    destruct (poly_coeff_rows a b (S m) m ltac:(lia)) as [_ H]. apply H. lia.
Qed.
