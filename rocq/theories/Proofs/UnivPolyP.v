From Coq Require Import List Arith Reals Bool Lia Lra.
From Verif.Base Require Import ListAux CRing RealAux Poly.
From Verif.Model Require Import Polynomials UnivPoly.
From Verif.Spec Require Import PolySpec.
From Verif.Proofs Require Import PolyP PolyP2 PolyP3 PolyP4 PolyP5 PolyP6.
Import ListNotations.
Local Open Scope R_scope.

Lemma np_polyval_rev c x : np_polyval (rev c) x = peval c x.
Proof.
  unfold np_polyval. induction c as [|a c IH]; auto. cbn [rev peval]. rewrite fold_left_app, IH. cbn. ring.
Qed.

(** families whose poly_coeff rows only depend on the degree *)
Definition rows_of (pc : list nat -> list (list R)) (m : nat) (row : nat -> list R) : Prop :=
  pc (seq 0 (m + 1)) = map row (seq 0 (m + 1)) /\ forall i, (i <= m)%nat -> length (row i) = S m.

Lemma u_polyval_ok pc ind row x : rows_of pc (maxl ind) row -> u_polyval pc ind x = map (fun i => peval (row i) x) ind.
Proof.
  intros [H1 H2]. unfold u_polyval. rewrite H1, map_map. apply map_ext_in. intros i Hi. apply maxl_le in Hi.
  rewrite nth_map_seq by lia. rewrite np_polyval_rev. auto.
Qed.

Definition dn_row (n m : nat) (row : list R) : list R := map (fun p => fst p * dn_factor n (snd p)) (combine (skipn n row) (seq 0 (m - n + 1))).
Lemma dn_row_length n m row : length row = S m -> (n <= m)%nat -> length (dn_row n m row) = (S m - n)%nat.
Proof. intros L H. unfold dn_row. rewrite map_length, combine_length, skipn_length, seq_length, L. lia. Qed.
Lemma nth_skipn_R (n j : nat) (l : list R) : nth j (skipn n l) 0 = nth (n + j) l 0.
Proof. revert l; induction n as [|n IH]; intros [|a l]; cbn; auto. destruct j; auto. Qed.
Lemma dn_row_nth n m row j : length row = S m -> (n <= m)%nat -> nth j (dn_row n m row) 0 = nth (n + j) row 0 * dn_factor n j.
Proof.
  intros L H. destruct (le_lt_dec (S m - n) j) as [Hj|Hj].
  - rewrite !nth_overflow; [ring|lia|]. rewrite dn_row_length; auto.
  - unfold dn_row. rewrite (map_nth_in _ _ _ (0, 0%nat)) by (rewrite combine_length, skipn_length, seq_length; lia).
    rewrite combine_nth by (rewrite skipn_length, seq_length; lia). cbn [fst snd]. rewrite nth_skipn_R, seq_nth by lia. auto.
Qed.
Lemma dn_factor_S n j : dn_factor (S n) j = INR (S j) * dn_factor n (S j).
Proof.
  unfold dn_factor. rewrite <- mult_INR. f_equal. cbn [seq map fold_right]. f_equal; [lia|]. f_equal.
  rewrite <- seq_shift, map_map. apply map_ext. intros; lia.
Qed.
Lemma nth_pderiv p j : nth j (pderiv p) 0 = INR (S j) * nth (S j) p 0.
Proof.
  unfold pderiv. replace (nth (S j) p 0) with (nth j (tl p) 0) by (destruct p; cbn; auto; destruct j; auto).
  generalize (tl p). intros q. replace (S j) with (1 + j)%nat by lia. generalize 1%nat. revert q. induction j as [|j IH]; intros [|c q] k; cbn [pderiv_from nth]; try lra.
  - rewrite Nat.add_0_r. ring.
  - rewrite IH. f_equal. f_equal. lia.
Qed.
Lemma dn_row_deriv n m row x : length row = S m -> (S n <= m)%nat -> peval (dn_row (S n) m row) x = peval (pderiv (dn_row n m row)) x.
Proof.
  intros L H. apply peval_ext. intros j. rewrite nth_pderiv, !dn_row_nth by (auto; lia). rewrite dn_factor_S.
  replace (S n + j)%nat with (n + S j)%nat by lia. ring.
Qed.
Lemma dn_row_0 m row : length row = S m -> dn_row 0 m row = row.
Proof.
  intros L. apply (nth_ext _ _ 0 0); [rewrite dn_row_length; lia|]. intros j Hj. rewrite dn_row_nth by (auto; lia).
  unfold dn_factor. cbn. ring.
Qed.

Lemma u_dn_polyval_ok pc n ind row x : rows_of pc (maxl ind) row -> (n <= maxl ind)%nat ->
  u_dn_polyval pc n ind x = Some (map (fun i => peval (dn_row n (maxl ind) (row i)) x) ind).
Proof.
  intros [H1 H2] Hn. unfold u_dn_polyval. destruct (Nat.leb_spec n (maxl ind)); [|lia]. f_equal.
  unfold dn_poly_coeff. rewrite H1, !map_map. apply map_ext_in. intros i Hi. apply maxl_le in Hi.
  rewrite nth_map_seq by lia. rewrite np_polyval_rev. unfold dn_row. replace (maxl ind + 1)%nat with (S (maxl ind)) by lia. rewrite maxl_seq. auto.
Qed.

Lemma u_dn_deriv pc n ind row k x : rows_of pc (maxl ind) row -> (S n <= maxl ind)%nat -> (k < length ind)%nat ->
  exists f d, (forall y, exists l, u_dn_polyval pc n ind y = Some l /\ nth k l 0 = f y) /\
    (exists l, u_dn_polyval pc (S n) ind x = Some l /\ nth k l 0 = d) /\ derivable_pt_lim f x d.
Proof.
  intros HR Hn Hk. assert (HR' := HR). destruct HR' as [_ H2].
  exists (peval (dn_row n (maxl ind) (row (nth k ind 0%nat)))), (peval (dn_row (S n) (maxl ind) (row (nth k ind 0%nat))) x).
  assert (Hi : (nth k ind 0 <= maxl ind)%nat) by (apply maxl_le, nth_In; auto).
  split; [|split].
  - intros y. eexists. split; [apply (u_dn_polyval_ok pc _ ind row); auto; lia|]. rewrite (nth_map_in0 _ _ _ 0%nat) by auto. auto.
  - eexists. split; [apply (u_dn_polyval_ok pc _ ind row); auto; lia|]. rewrite (nth_map_in0 _ _ _ 0%nat) by auto. auto.
  - rewrite dn_row_deriv by auto. apply peval_deriv.
Qed.
Lemma u_dn_0 pc ind row x : rows_of pc (maxl ind) row -> u_dn_polyval pc 0 ind x = Some (u_polyval pc ind x).
Proof.
  intros HR. rewrite (u_dn_polyval_ok pc 0 ind row) by (auto; lia). rewrite (u_polyval_ok _ _ row) by auto. f_equal.
  apply map_ext_in. intros i Hi. apply maxl_le in Hi. rewrite dn_row_0; auto. apply HR. auto.
Qed.
Lemma d_poly_coef_ok pc ind k x : (k < length ind)%nat -> length (nth k (pc ind) []) = S (maxl ind) -> (k < length (pc ind))%nat ->
  monomial_value (nth k (d_poly_coef pc ind) []) x = peval (pderiv (nth k (pc ind) [])) x.
Proof.
  intros Hk HL HK. rewrite monomial_value_peval. unfold d_poly_coef. rewrite (map_nth_in _ _ _ []) by auto.
  set (row := nth k (pc ind) []) in *. apply peval_ext. intros j. rewrite nth_pderiv.
  assert (LT : length (tl row) = maxl ind) by (destruct row; cbn in *; lia).
  destruct (le_lt_dec (maxl ind) j) as [Hj|Hj].
  - rewrite !nth_overflow; [ring|lia|]. rewrite map_length, combine_length, seq_length. lia.
  - rewrite (map_nth_in _ _ _ (0, 0%nat)) by (rewrite combine_length, seq_length; lia).
    rewrite combine_nth by (rewrite seq_length; lia). cbn [fst snd]. rewrite seq_nth by auto.
    replace (nth j (tl row) 0) with (nth (S j) row 0) by (destruct row; cbn; auto; destruct j; auto). change (1 + j)%nat with (S j). ring.
Qed.

(** canonical polynomials *)
Lemma canon_rows m : rows_of canon_pc m (fun i => map (fun j => if (j =? i)%nat then 1 else 0) (seq 0 (m + 1))).
Proof.
  split; [|intros; rewrite map_length, seq_length; lia].
  unfold canon_pc. assert (E : maxl (seq 0 (m + 1)) = m) by (replace (m + 1)%nat with (S m) by lia; apply maxl_seq). rewrite E. auto.
Qed.
Lemma canon_row_eval m i x : (i <= m)%nat -> peval (map (fun j => if (j =? i)%nat then 1 else 0) (seq 0 (m + 1))) x = x ^ i.
Proof.
  intros H. rewrite <- monomial_value_peval. unfold monomial_value. rewrite map_length, seq_length.
  rewrite (rsum_ext_R _ _ (fun j => if (j =? i)%nat then x ^ j else 0)).
  - rewrite rsum_pick. destruct (Nat.ltb_spec i (m + 1)); [auto|lia].
  - intros j Hj. rewrite nth_map_seq by auto. destruct (Nat.eqb_spec j i); ring.
Qed.
Lemma canon_polyval ind x : u_polyval canon_pc ind x = map (fun i => x ^ i) ind.
Proof.
  rewrite (u_polyval_ok canon_pc ind _ x (canon_rows (maxl ind))). apply map_ext_in. intros i Hi. apply canon_row_eval. apply maxl_le. auto.
Qed.
Lemma canon_d ind k x : (k < length ind)%nat ->
  derivable_pt_lim (fun y => nth k (u_polyval canon_pc ind y) 0) x (nth k (canon_d_polyval ind x) 0).
Proof.
  intros Hk. unfold canon_d_polyval. rewrite (nth_map_in0 _ _ _ 0%nat) by auto.
  apply (derivable_pt_lim_ext (fun y => y ^ nth k ind 0%nat)).
  - intros y. rewrite canon_polyval, (nth_map_in0 _ _ _ 0%nat) by auto. auto.
  - destruct (Nat.eqb_spec (nth k ind 0%nat) 0) as [->|E].
    + cbn. apply (derivable_pt_lim_const 1).
    + replace (x ^ (nth k ind 0 - 1)%nat * INR (nth k ind 0%nat)) with (INR (nth k ind 0%nat) * x ^ pred (nth k ind 0%nat)); [apply derivable_pt_lim_pow|].
      rewrite Nat.sub_1_r. ring.
Qed.

(** moments of products *)
Definition deg_le (p : nat -> R -> R) : Prop := forall d, exists coef, (length coef <= S d)%nat /\ forall x, p d x = peval coef x.
Lemma prod_poly p r x0 : deg_le p -> r <> [] -> exists coef, (length coef <= S (fold_right Nat.add 0 r))%nat /\
  forall x, fold_left (fun acc d => acc * p d x) (tl r) (p (hd x0 r) x) = peval coef x.
Proof.
  intros HD Hr. destruct r as [|d0 r]; [congruence|]. clear Hr. cbn [tl hd fold_right].
  assert (K : forall r c s, (length c <= S s)%nat -> exists coef, (length coef <= S (s + fold_right Nat.add 0 r))%nat /\
    forall x, fold_left (fun acc d => acc * p d x) r (peval c x) = peval coef x).
  { clear r d0. induction r as [|d r IH]; intros c s Hc; [exists c; cbn; rewrite Nat.add_0_r; auto|].
    destruct (HD d) as [q [Lq Eq]]. cbn [fold_left fold_right].
    destruct q as [|q0 q].
    - destruct (IH [] (s + d)%nat ltac:(cbn; lia)) as [coef [L E]]. exists coef. split; [lia|]. intros x. rewrite <- E, Eq. cbn. f_equal. ring.
    - destruct c as [|c0 c].
      + destruct (IH [] (s + d)%nat ltac:(cbn; lia)) as [coef [L E]]. exists coef. split; [lia|]. intros x. rewrite <- E, Eq. cbn. f_equal. ring.
      + destruct (IH (pmul (c0 :: c) (q0 :: q)) (s + d)%nat) as [coef [L E]].
        * rewrite pmul_length by discriminate. lia.
        * exists coef. split; [lia|]. intros x. rewrite <- E, peval_pmul, Eq. auto. }
  destruct (HD d0) as [c [Lc Ec]]. destruct (K r c d0 Lc) as [coef [L E]]. exists coef. split; auto.
  intros x. rewrite Ec. apply E.
Qed.

Lemma u_moment_exact p G ind k (isv : (R -> R) -> R -> Prop) v :
  deg_le p -> (k < length ind)%nat -> nth k ind [] <> [] ->
  (forall n coef w f, (1 <= n)%nat -> (length coef <= 2 * n)%nat -> (forall x, f x = peval coef x) -> isv f w ->
      integrate (fst (G n)) (snd (G n)) f = w) ->
  isv (fun x => fold_left (fun acc d => acc * p d x) (tl (nth k ind [])) (p (hd 0%nat (nth k ind [])) x)) v ->
  nth k (u_moment p G ind) 0 = v.
Proof.
  intros HD Hk Hne HG Hv. unfold u_moment. rewrite (map_nth_in _ _ _ []) by auto.
  set (M := maxl _). set (r := nth k ind []) in *.
  assert (HM : (fold_right Nat.add 0 r <= M)%nat).
  { unfold M. apply maxl_le. apply in_map_iff. exists r. split; auto. apply nth_In. auto. }
  destruct (prod_poly p r 0%nat HD Hne) as [coef [L E]].
  assert (HN : (M + 1 <= 2 * ((M + 2) / 2))%nat).
  { pose proof (Nat.div_mod (M + 2) 2 ltac:(lia)). pose proof (Nat.mod_upper_bound (M + 2) 2 ltac:(lia)). lia. }
  apply (HG _ coef); auto; lia.
Qed.

Lemma hermite_deg_le mass : deg_le (fun d x => nth 0 (polyval hermite_a hermite_b mass [d] x) 0).
Proof.
  intros d. exists (pscal (/ sqrt mass / cprod hermite_b d) (monic hermite_a hermite_b d)). split; [rewrite pscal_length, monic_length; lia|].
  intros x. rewrite polyval_eq. cbn [map nth]. rewrite pval_monic by (intros k Hk; unfold hermite_b; apply lt_0_INR; lia).
  rewrite peval_pscal. unfold Rdiv. ring.
Qed.
Lemma legendre_deg_le mass : deg_le (fun d x => nth 0 (polyval legendre_a legendre_b mass [d] x) 0).
Proof.
  intros d. exists (pscal (/ sqrt mass / cprod legendre_b d) (monic legendre_a legendre_b d)). split; [rewrite pscal_length, monic_length; lia|].
  intros x. rewrite polyval_eq. cbn [map nth]. rewrite pval_monic by (intros k Hk; apply legendre_b_pos; lia).
  rewrite peval_pscal. unfold Rdiv. ring.
Qed.
Lemma canon_deg_le : deg_le (fun d x => nth 0 (u_polyval canon_pc [d] x) 0).
Proof.
  intros d. exists (repeat 0 d ++ [1]). split; [rewrite app_length, repeat_length; cbn; lia|].
  intros x. rewrite canon_polyval. cbn [map nth]. rewrite peval_app, peval_zeros, repeat_length. cbn. ring.
Qed.

Lemma u_moment_normal p G mu sigma ind k v lam V :
  deg_le p -> (k < length ind)%nat -> nth k ind [] <> [] ->
  (forall n, (1 <= n)%nat -> eig_contract n (jacobi hermite_a hermite_b) (lam n) (V n) /\
     G n = (map (gauss_point mu sigma (lam n)) (seq 0 n), map (gauss_weight n (V n)) (seq 0 n))) ->
  moment_is gauss_moment (fun z => fold_left (fun acc d => acc * p d (mu + sigma * z)) (tl (nth k ind [])) (p (hd 0%nat (nth k ind [])) (mu + sigma * z))) v ->
  nth k (u_moment p G ind) 0 = v.
Proof.
  intros HD Hk Hne HG Hv.
  apply (u_moment_exact p G ind k (fun f w => moment_is gauss_moment (fun z => f (mu + sigma * z)) w)); auto.
  intros n coef w f Hn Lc Ef Hw. destruct (HG n Hn) as [HE ->]. cbn [fst snd].
  transitivity (integrate (map (gauss_point mu sigma (lam n)) (seq 0 n)) (map (gauss_weight n (V n)) (seq 0 n)) (monomial_value coef)).
  - apply (lsum_ext (R := R)). intros a _. rewrite Ef, monomial_value_peval. auto.
  - apply gauss_hermite; auto. destruct Hw as [c [H1 H2]]. exists c. split; auto. intros x. rewrite monomial_value_peval, <- Ef. auto.
Qed.
Lemma u_moment_uniform p G s t ind k v lam V : s < t ->
  deg_le p -> (k < length ind)%nat -> nth k ind [] <> [] ->
  (forall n, (1 <= n)%nat -> eig_contract n (jacobi legendre_a legendre_b) (lam n) (V n) /\
     G n = (map (gauss_point ((s + t) / 2) ((t - s) / 2) (lam n)) (seq 0 n), map (gauss_weight n (V n)) (seq 0 n))) ->
  integral_is s t (fun z => fold_left (fun acc d => acc * p d z) (tl (nth k ind [])) (p (hd 0%nat (nth k ind [])) z)) v ->
  nth k (u_moment p G ind) 0 = v / (t - s).
Proof.
  intros Hst HD Hk Hne HG Hv.
  apply (u_moment_exact p G ind k (fun f w => exists u, w = u / (t - s) /\ integral_is s t f u)); auto; [|exists v; auto].
  intros n coef w f Hn Lc Ef [u [-> Hw]]. destruct (HG n Hn) as [HE ->]. cbn [fst snd].
  transitivity (integrate (map (gauss_point ((s + t) / 2) ((t - s) / 2) (lam n)) (seq 0 n)) (map (gauss_weight n (V n)) (seq 0 n)) (monomial_value coef)).
  - apply (lsum_ext (R := R)). intros a _. rewrite Ef, monomial_value_peval. auto.
  - apply gauss_legendre; auto. revert Hw. apply integral_ext. intros x. rewrite monomial_value_peval. auto.
Qed.
