(** Orthogonality of monic polynomials given by a three-term recurrence. *)
From Coq Require Import List Arith Reals Bool Lia Lra.
From Verif.Base Require Import ListAux CRing RealAux Poly.
From Verif.Model Require Import Polynomials.
From Verif.Spec Require Import PolySpec.
From Verif.Proofs Require Import PolyP.
Import ListNotations.
Local Open Scope R_scope.

Record functional (L : list R -> R) : Prop := {
  L_ext : forall p q, (forall x, peval p x = peval q x) -> L p = L q;
  L_add : forall p q, L (padd p q) = L p + L q;
  L_scal : forall c p, L (pscal c p) = c * L p }.

Section Orth.
Variable L : list R -> R.
Hypothesis HL : functional L.
Definition ip (p q : list R) : R := L (pmul p q).

Ltac pe := apply (L_ext L HL); intros; rewrite ?peval_padd, ?peval_pscal, ?peval_pmul; cbn [peval]; rewrite ?peval_padd, ?peval_pscal, ?peval_pmul; try ring.

Lemma ip_sym p q : ip p q = ip q p.
Proof. unfold ip. pe. Qed.
Lemma ip_X p q : ip (0 :: p) q = ip p (0 :: q).
Proof. unfold ip. pe. Qed.
Lemma ip_add p q r : ip (padd p q) r = ip p r + ip q r.
Proof. unfold ip. rewrite <- (L_add L HL). pe. Qed.
Lemma ip_scal c p r : ip (pscal c p) r = c * ip p r.
Proof. unfold ip. rewrite <- (L_scal L HL). pe. Qed.
Lemma ip_ext p p' q q' : (forall x, peval p x = peval p' x) -> (forall x, peval q x = peval q' x) -> ip p q = ip p' q'.
Proof. intros H1 H2. unfold ip. apply (L_ext L HL). intros x. rewrite !peval_pmul, H1, H2. auto. Qed.

Variables a b : nat -> R.
Notation P := (monic a b).
Definition orth_upto (n : nat) : Prop := forall i j, (i <= n)%nat -> (j <= n)%nat -> i <> j -> ip (P i) (P j) = 0.

(** P_(n+1) = X P_n - a_n P_n - b_n P_(n-1) *)
Lemma ip_rec n q : ip (P (S n)) q = ip (0 :: P n) q - a n * ip (P n) q - match n with O => 0 | S m => b n * ip (P m) q end.
Proof.
  destruct n as [|n].
  - replace (ip (P 1) q) with (ip (padd (0 :: P 0) (pscal (- a 0%nat) (P 0))) q).
    + rewrite ip_add, ip_scal. lra.
    + apply ip_ext; auto. intros x. rewrite peval_padd, peval_pscal. cbn. lra.
  - rewrite monic_SS, !ip_add, !ip_scal. lra.
Qed.
Lemma ip_rec_X n q : ip (0 :: P n) q = ip (P (S n)) q + a n * ip (P n) q + match n with O => 0 | S m => b n * ip (P m) q end.
Proof. rewrite ip_rec. destruct n; lra. Qed.

Lemma orth_step n : orth_upto n -> ip (0 :: P n) (P n) = a n * ip (P n) (P n) ->
  (forall m, n = S m -> ip (P n) (P n) = b n * ip (P m) (P m)) -> orth_upto (S n).
Proof.
  intros H Ha Hb.
  assert (K : forall j, (j <= n)%nat -> ip (P (S n)) (P j) = 0).
  { intros j Hj. rewrite ip_rec. destruct (Nat.eq_dec j n) as [-> |Hn].
    - rewrite Ha. destruct n as [|m]; [lra|]. rewrite (H m (S m)) by lia. lra.
    - rewrite (H n j) by lia. rewrite ip_X, ip_sym, ip_rec_X.
      destruct n as [|m]; [lia|].
      destruct (Nat.eq_dec j m) as [-> |Hm].
      + rewrite (Hb m eq_refl). rewrite (H m (S m)) by lia. destruct m as [|l]; [lra|]. rewrite (H l (S (S l))) by lia. lra.
      + rewrite (H (S j) (S m)), (H j (S m)), (H m j) by lia. destruct j as [|l]; [lra|]. rewrite (H l (S m)) by lia. lra. }
  intros i j Hi Hj Hij. destruct (Nat.eq_dec i (S n)) as [-> |Hi'].
  - apply K. lia.
  - destruct (Nat.eq_dec j (S n)) as [-> |Hj'].
    + rewrite ip_sym. apply K. lia.
    + apply H; lia.
Qed.

Lemma orth_0 : orth_upto 0.
Proof. intros i j Hi Hj Hij. lia. Qed.

Lemma orth_all N : (forall n, (n < N)%nat -> orth_upto n -> ip (0 :: P n) (P n) = a n * ip (P n) (P n) /\
    (forall m, n = S m -> ip (P n) (P n) = b n * ip (P m) (P m))) -> orth_upto N.
Proof.
  induction N as [|N IH]; intros H; [apply orth_0|].
  assert (HN : orth_upto N) by (apply IH; intros; apply H; auto; lia).
  destruct (H N ltac:(lia) HN). apply orth_step; auto.
Qed.

(** <P_n, X P_(n-1)> = <P_n, P_n> *)
Lemma ip_X_pred n : orth_upto (S n) -> ip (0 :: P n) (P (S n)) = ip (P (S n)) (P (S n)).
Proof.
  intros H. rewrite ip_rec_X. rewrite (H n (S n)) by lia. destruct n as [|m]; [lra|]. rewrite (H m (S (S m))) by lia. lra.
Qed.

Lemma norm_prod N n : (forall n, (n <= N)%nat -> forall m, n = S m -> ip (P n) (P n) = b n * ip (P m) (P m)) ->
  (forall k, (1 <= k <= N)%nat -> 0 < b k) -> (n <= N)%nat -> ip (P n) (P n) = cprod b n * cprod b n * L [1].
Proof.
  intros H Hb. induction n as [|n IH]; intros Hn.
  - cbn [cprod]. unfold ip. replace (L (pmul (P 0) (P 0))) with (L [1]); [lra|]. pe.
    change (P 0) with [1]. cbn. ring.
  - rewrite (H (S n) Hn n eq_refl), IH by lia. cbn [cprod].
    assert (0 < b (S n)) by (apply Hb; lia).
    rewrite <- (sqrt_sqrt (b (S n))) at 1 by lra. ring.
Qed.
End Orth.

(** ** Functionals given by moments *)
Fixpoint Lm (m : nat -> R) (p : list R) : R :=
  match p with [] => 0 | c :: p' => c * m 0%nat + Lm (fun k => m (S k)) p' end.
Lemma Lm_rsum m p : Lm m p = rsum (length p) (fun j => nth j p 0 * m j).
Proof.
  revert m; induction p as [|c p IH]; intros m; [reflexivity|].
  cbn [Lm length]. rewrite rsum_S_l_R, IH. reflexivity.
Qed.
Lemma Lm_zero m p : (forall k, nth k p 0 = 0) -> Lm m p = 0.
Proof.
  revert m; induction p as [|c p IH]; intros m H; auto. cbn. rewrite IH by (intros k; apply (H (S k))).
  pose proof (H 0%nat) as H0. cbn in H0. rewrite H0. lra.
Qed.
Lemma Lm_nth m p q : (forall k, nth k p 0 = nth k q 0) -> Lm m p = Lm m q.
Proof.
  revert m q; induction p as [|c p IH]; intros m q H.
  - cbn. symmetry. apply Lm_zero. intros k. rewrite <- H. destruct k; auto.
  - destruct q as [|d q].
    + apply (Lm_zero m (c :: p)). intros k. rewrite H. destruct k; auto.
    + cbn. pose proof (H 0%nat) as H0. cbn in H0. rewrite H0. f_equal. apply IH. intros k. apply (H (S k)).
Qed.
Lemma Lm_functional m : functional (Lm m).
Proof.
  constructor.
  - intros p q H. apply Lm_nth. apply peval_unique. auto.
  - intros p q. revert m q; induction p as [|a p IH]; intros m [|b q]; cbn; try lra. rewrite IH. lra.
  - intros c p. revert m; induction p as [|a p IH]; intros m; cbn; [lra|]. unfold pscal in IH. rewrite IH. lra.
Qed.

Lemma moment_is_Lm m f p : (forall x, f x = peval p x) -> moment_is m f (Lm m p).
Proof. intros H. exists p. split; [intros x; rewrite monomial_value_peval; auto|apply Lm_rsum]. Qed.

Lemma moment_is_unique m f v w : moment_is m f v -> moment_is m f w -> v = w.
Proof.
  intros [p [Hp ->]] [q [Hq ->]]. rewrite <- !Lm_rsum. apply (L_ext _ (Lm_functional m)).
  intros x. rewrite <- !monomial_value_peval, <- Hp, <- Hq. auto.
Qed.

(** ** Hermite *)
Lemma gauss_moment_rec k : gauss_moment (S (S k)) = INR (S k) * gauss_moment k.
Proof. reflexivity. Qed.

(** E[X q] = E[q'] *)
Lemma Lm_deriv_from m q k : (forall j, (k <= j)%nat -> m (S j) = INR j * m (j - 1)%nat) -> (1 <= k)%nat ->
  Lm (fun j => m (j + k - 1)%nat) (pderiv_from k q) = Lm (fun j => m (S (j + k))) q.
Proof.
  revert k; induction q as [|c q IH]; intros k H Hk; auto. cbn [pderiv_from Lm].
  rewrite (H (0 + k)%nat) by lia.
  assert (E : Lm (fun j => m (S j + k - 1)%nat) (pderiv_from (S k) q) = Lm (fun j => m (S (S j + k))) q).
  { specialize (IH (S k) (fun j Hj => H j ltac:(lia)) ltac:(lia)).
    assert (F : forall m1 m2 p, (forall j, m1 j = m2 j) -> Lm m1 p = Lm m2 p).
    { clear. intros m1 m2 p. revert m1 m2; induction p as [|c p IHp]; intros m1 m2 E; auto. cbn. rewrite E, (IHp (fun k => m1 (S k)) (fun k => m2 (S k))); auto. }
    rewrite (F _ (fun j => m (j + S k - 1)%nat)) by (intros; f_equal; lia). rewrite IH. apply F. intros; f_equal; lia. }
  rewrite E. cbn [Nat.add]. lra.
Qed.

Lemma gauss_stein q : Lm gauss_moment (0 :: q) = Lm gauss_moment (pderiv q).
Proof.
  cbn [Lm]. rewrite Rmult_0_l, Rplus_0_l. unfold pderiv. destruct q as [|c q]; auto. cbn [tl Lm].
  replace (gauss_moment 1) with 0 by reflexivity. rewrite Rmult_0_r, Rplus_0_l.
  assert (F : forall m1 m2 p, (forall j, m1 j = m2 j) -> Lm m1 p = Lm m2 p).
  { clear. intros m1 m2 p. revert m1 m2; induction p as [|c p IHp]; intros m1 m2 E; auto. cbn. rewrite E, (IHp (fun k => m1 (S k)) (fun k => m2 (S k))); auto. }
  pose proof (Lm_deriv_from gauss_moment q 1) as H.
  rewrite (F (fun j => gauss_moment (j + 1 - 1)%nat) gauss_moment) in H by (intros; f_equal; lia).
  rewrite H; [apply F; intros; f_equal; lia| |lia].
  intros [|j] Hj; [lia|]. rewrite gauss_moment_rec. replace (S j - 1)%nat with j by lia. auto.
Qed.

Lemma hermite_deriv n x : peval (pderiv (monic hermite_a hermite_b (S n))) x = INR (S n) * peval (monic hermite_a hermite_b n) x.
Proof.
  set (P := monic hermite_a hermite_b).
  assert (D : forall p q x, derivable_pt_lim (peval p) x (peval q x) -> peval (pderiv p) x = peval q x).
  { intros p q y H. apply (uniqueness_limite (peval p) y); auto. apply peval_deriv. }
  assert (R2 : forall n x, peval (pderiv (P (S (S n)))) x = peval (P (S n)) x + x * peval (pderiv (P (S n))) x - INR (S n) * peval (pderiv (P n)) x).
  { intros k y. pose proof (peval_deriv (P (S (S k))) y) as H1.
    apply (uniqueness_limite (peval (P (S (S k)))) y); auto.
    apply (derivable_pt_lim_ext (fun z => z * peval (P (S k)) z - INR (S k) * peval (P k) z)).
    { intros z. unfold P. rewrite peval_monic_SS. unfold hermite_a, hermite_b. lra. }
    replace (peval (P (S k)) y + y * peval (pderiv (P (S k))) y - INR (S k) * peval (pderiv (P k)) y) with
      ((1 * peval (P (S k)) y + y * peval (pderiv (P (S k))) y) - INR (S k) * peval (pderiv (P k)) y) by lra.
    apply (derivable_pt_lim_minus (id * peval (P (S k)))%F (mult_real_fct (INR (S k)) (peval (P k)))).
    - apply derivable_pt_lim_mult; [apply derivable_pt_lim_id|apply peval_deriv].
    - apply derivable_pt_lim_scal. apply peval_deriv. }
  enough (H : forall n, (forall x, peval (pderiv (P (S n))) x = INR (S n) * peval (P n) x) /\
     (forall x, peval (pderiv (P (S (S n)))) x = INR (S (S n)) * peval (P (S n)) x)) by apply H.
  clear n x. induction n as [|n [IH1 IH2]].
  - split; intros x; [cbn; lra|]. rewrite R2. unfold P. cbn. unfold hermite_a. lra.
  - split; auto. intros x. rewrite R2, IH2, IH1. unfold P. rewrite peval_monic_SS. unfold hermite_a, hermite_b.
    rewrite (S_INR (S (S n))). fold P. lra.
Qed.

Lemma ip_fun L (HL : functional L) p q r : (forall x, peval r x = peval p x * peval q x) -> ip L p q = L r.
Proof. intros H. unfold ip. apply (L_ext L HL). intros x. rewrite peval_pmul, H. auto. Qed.

Lemma pderiv_pmul p q x : peval (pderiv (pmul p q)) x = peval (pderiv p) x * peval q x + peval p x * peval (pderiv q) x.
Proof.
  apply (uniqueness_limite (peval (pmul p q)) x); [apply peval_deriv|].
  apply (derivable_pt_lim_ext (peval p * peval q)%F); [intros z; rewrite peval_pmul; auto|].
  apply derivable_pt_lim_mult; apply peval_deriv.
Qed.

Lemma hermite_orth N : orth_upto (Lm gauss_moment) hermite_a hermite_b N /\
  forall n, (n <= N)%nat -> forall m, n = S m -> ip (Lm gauss_moment) (monic hermite_a hermite_b n) (monic hermite_a hermite_b n)
     = hermite_b n * ip (Lm gauss_moment) (monic hermite_a hermite_b m) (monic hermite_a hermite_b m).
Proof.
  set (L := Lm gauss_moment). assert (HL : functional L) by apply Lm_functional.
  set (P := monic hermite_a hermite_b).
  (* <X p, q> = <p', q> + <p, q'> *)
  assert (ST : forall p q, ip L (0 :: p) q = ip L (pderiv p) q + ip L p (pderiv q)).
  { intros p q. unfold ip. rewrite <- (L_add L HL).
    rewrite (L_ext L HL (pmul (0 :: p) q) (0 :: pmul p q)) by (intros x; rewrite peval_pmul; cbn [peval]; rewrite peval_pmul; ring).
    unfold L. rewrite gauss_stein. fold L. apply (L_ext L HL). intros x. rewrite pderiv_pmul, peval_padd, !peval_pmul. auto. }
  assert (DP : forall n q, ip L (pderiv (P (S n))) q = INR (S n) * ip L (P n) q).
  { intros n q. rewrite <- (ip_scal L HL). apply (ip_ext L HL); auto. intros x. rewrite peval_pscal. apply hermite_deriv. }
  assert (D0 : forall q, ip L (pderiv (P 0%nat)) q = 0).
  { intros q. unfold ip. reflexivity. }
  assert (A : forall n, orth_upto L hermite_a hermite_b n -> ip L (0 :: P n) (P n) = hermite_a n * ip L (P n) (P n)).
  { intros n H. rewrite ST, (ip_sym L HL (P n)). unfold hermite_a. destruct n as [|n].
    - rewrite D0. lra.
    - rewrite DP. unfold P. rewrite (H n (S n)) by lia. lra. }
  assert (B : forall n, orth_upto L hermite_a hermite_b n -> forall m, n = S m -> ip L (P n) (P n) = hermite_b n * ip L (P m) (P m)).
  { intros n H m ->. unfold P. rewrite <- (ip_X_pred L HL) by auto. fold P. rewrite ST, (ip_sym L HL (P m)), DP. unfold hermite_b.
    destruct m as [|m]; [rewrite D0; lra|]. rewrite DP. unfold P. rewrite (H m (S (S m))) by lia. lra. }
  assert (O : forall n, orth_upto L hermite_a hermite_b n).
  { intros n. apply (orth_all L HL). intros k _ Hk. split; [apply A; auto|apply B; auto]. }
  split; [apply O|]. intros n _. apply B. apply O.
Qed.

(** ** Legendre *)
Lemma unif_moment_rec k : INR (k + 3) * unif_moment (S (S k)) = INR (k + 1) * unif_moment k.
Proof.
  unfold unif_moment. change (Nat.even (S (S k))) with (Nat.even k).
  destruct (Nat.even k); [|lra]. pose proof (pos_INR k).
  rewrite !plus_INR, (S_INR (S k)), (S_INR k). change (INR 3) with (1 + 1 + 1). change (INR 1) with 1. field. lra.
Qed.

Definition x2m1 : list R := [-1; 0; 1].

(** E[((x^2 - 1) q)'] = 0 *)
Lemma unif_ibp q : Lm unif_moment (pderiv (pmul x2m1 q)) = 0.
Proof.
  set (L := Lm unif_moment). assert (HL : functional L) by apply Lm_functional.
  (* on X^k q, by induction on q *)
  assert (M : forall k c, L (pderiv (pmul x2m1 (repeat 0 k ++ [c]))) = 0).
  { intros k c. unfold L. destruct k as [|k].
    - cbn. unfold unif_moment. cbn. lra.
    - rewrite (L_ext _ (Lm_functional unif_moment) _ (padd (repeat 0 k ++ [- INR (S k) * c]) (repeat 0 (S (S k)) ++ [INR (k + 3) * c]))).
      + rewrite (L_add _ (Lm_functional _)).
        assert (F : forall k c m, Lm m (repeat 0 k ++ [c]) = c * m k).
        { clear. induction k as [|k IH]; intros c m; cbn; [lra|]. rewrite IH. lra. }
        rewrite !F. pose proof (unif_moment_rec k) as H. replace (k + 1)%nat with (S k) in H by lia.
        transitivity (c * (INR (k + 3) * unif_moment (S (S k)) - INR (S k) * unif_moment k)); [ring|]. rewrite H. ring.
      + intros x. rewrite pderiv_pmul, peval_padd, !peval_app, !peval_zeros, !repeat_length.
        assert (E1 : peval x2m1 x = x * x - 1) by (cbn; ring). assert (E2 : peval (pderiv x2m1) x = 2 * x) by (cbn; ring).
        rewrite E1, E2.
        assert (E3 : peval (pderiv (repeat 0 (S k) ++ [c])) x = INR (S k) * c * x ^ k).
        { apply (uniqueness_limite (peval (repeat 0 (S k) ++ [c])) x); [apply peval_deriv|].
          apply (derivable_pt_lim_ext (mult_real_fct c (fun z => z ^ S k))).
          { intros z. rewrite peval_app, peval_zeros, repeat_length. unfold mult_real_fct. cbn [peval]. ring. }
          replace (INR (S k) * c * x ^ k) with (c * (INR (S k) * x ^ (pred (S k)))) by (cbn [pred]; ring).
          apply derivable_pt_lim_scal. apply derivable_pt_lim_pow. }
        rewrite E3. replace (k + 3)%nat with (S (S (S k))) by lia. rewrite (S_INR (S (S k))), (S_INR (S k)). cbn [peval pow]. ring. }
  assert (G : forall q k, L (pderiv (pmul x2m1 (repeat 0 k ++ q))) = 0).
  { clear q. induction q as [|c q IH]; intros k.
    - rewrite app_nil_r. rewrite (L_ext L HL _ (pderiv (pmul x2m1 (repeat 0 k ++ [0])))); [apply M|].
      intros x. rewrite !pderiv_pmul.
      assert (E : forall z, peval (repeat 0 k) z = peval (repeat 0 k ++ [0]) z) by (intros z; rewrite peval_app, !peval_zeros; cbn; ring).
      rewrite E. f_equal. f_equal. apply (uniqueness_limite (peval (repeat 0 k)) x); [apply peval_deriv|].
      apply (derivable_pt_lim_ext (peval (repeat 0 k ++ [0]))); [intros; symmetry; apply E|apply peval_deriv].
    - rewrite (L_ext L HL _ (padd (pderiv (pmul x2m1 (repeat 0 k ++ [c]))) (pderiv (pmul x2m1 (repeat 0 (S k) ++ q))))).
      + rewrite (L_add L HL), M, IH. lra.
      + intros x. rewrite peval_padd.
        apply (uniqueness_limite (peval (pmul x2m1 (repeat 0 k ++ c :: q))) x); [apply peval_deriv|].
        apply (derivable_pt_lim_ext (peval (pmul x2m1 (repeat 0 k ++ [c])) + peval (pmul x2m1 (repeat 0 (S k) ++ q)))%F).
        * intros z. unfold plus_fct. rewrite !peval_pmul, !peval_app, !peval_zeros, !repeat_length. cbn [peval pow]. ring.
        * apply derivable_pt_lim_plus; apply peval_deriv. }
  apply (G q 0%nat).
Qed.

Lemma legendre_b_pos n : (1 <= n)%nat -> 0 < legendre_b n.
Proof.
  intros H. unfold legendre_b. apply le_INR in H. cbn [INR] in H.
  assert (1 <= INR n ^ 2) by (cbn; nra). apply Rmult_lt_0_compat; [lra|apply Rinv_0_lt_compat; lra].
Qed.

Lemma legendre_b_rel n : 1 + (2 * INR n - 1) * legendre_b n = (2 * INR n + 3) * legendre_b (S n).
Proof.
  unfold legendre_b. rewrite S_INR. destruct n as [|n].
  - cbn. field.
  - pose proof (pos_INR n). rewrite S_INR. field. split; nra.
Qed.

Lemma legendre_struct n x : let P := monic legendre_a legendre_b in
  (x * x - 1) * peval (pderiv (P (S n))) x = INR (S n) * x * peval (P (S n)) x - (2 * INR (S n) + 1) * legendre_b (S n) * peval (P n) x.
Proof.
  intros P.
  assert (R2 : forall n x, peval (pderiv (P (S (S n)))) x = peval (P (S n)) x + x * peval (pderiv (P (S n))) x - legendre_b (S n) * peval (pderiv (P n)) x).
  { intros k y. pose proof (peval_deriv (P (S (S k))) y) as H1.
    apply (uniqueness_limite (peval (P (S (S k)))) y); auto.
    apply (derivable_pt_lim_ext (fun z => z * peval (P (S k)) z - legendre_b (S k) * peval (P k) z)).
    { intros z. unfold P. rewrite peval_monic_SS. unfold legendre_a. lra. }
    replace (peval (P (S k)) y + y * peval (pderiv (P (S k))) y - legendre_b (S k) * peval (pderiv (P k)) y) with
      ((1 * peval (P (S k)) y + y * peval (pderiv (P (S k))) y) - legendre_b (S k) * peval (pderiv (P k)) y) by lra.
    apply (derivable_pt_lim_minus (id * peval (P (S k)))%F (mult_real_fct (legendre_b (S k)) (peval (P k)))).
    - apply derivable_pt_lim_mult; [apply derivable_pt_lim_id|apply peval_deriv].
    - apply derivable_pt_lim_scal. apply peval_deriv. }
  assert (HSS : forall n x, peval (P (S (S n))) x = x * peval (P (S n)) x - legendre_b (S n) * peval (P n) x).
  { intros k y. unfold P. rewrite peval_monic_SS. unfold legendre_a. lra. }
  assert (B1 : legendre_b 1 = 1 / 3) by (unfold legendre_b; cbn; field).
  enough (H : forall n, (forall x, (x * x - 1) * peval (pderiv (P (S n))) x = INR (S n) * x * peval (P (S n)) x - (2 * INR (S n) + 1) * legendre_b (S n) * peval (P n) x)
   /\ (forall x, (x * x - 1) * peval (pderiv (P (S (S n)))) x = INR (S (S n)) * x * peval (P (S (S n))) x - (2 * INR (S (S n)) + 1) * legendre_b (S (S n)) * peval (P (S n)) x)) by apply H.
  assert (E0 : forall x, peval (P 0%nat) x = 1) by (intros; cbn; lra).
  assert (E1 : forall x, peval (P 1%nat) x = x) by (intros; cbn; unfold legendre_a; lra).
  assert (D0 : forall x, peval (pderiv (P 0%nat)) x = 0) by (intros; cbn; lra).
  assert (D1 : forall x, peval (pderiv (P 1%nat)) x = 1) by (intros; cbn; lra).
  assert (H0 : forall x, (x * x - 1) * peval (pderiv (P 1%nat)) x = INR 1 * x * peval (P 1%nat) x - (2 * INR 1 + 1) * legendre_b 1 * peval (P 0%nat) x).
  { intros y. rewrite D1, E1, E0, B1. cbn [INR]. field. }
  assert (STEP : forall k, (forall x, (x * x - 1) * peval (pderiv (P (S k))) x = INR (S k) * x * peval (P (S k)) x - (2 * INR (S k) + 1) * legendre_b (S k) * peval (P k) x) ->
     (forall x, legendre_b (S k) * ((x * x - 1) * peval (pderiv (P k)) x) = legendre_b (S k) * (- INR (S k) * x * peval (P k) x + (2 * INR (S k) - 1) * peval (P (S k)) x)) ->
     forall x, (x * x - 1) * peval (pderiv (P (S (S k)))) x = INR (S (S k)) * x * peval (P (S (S k))) x - (2 * INR (S (S k)) + 1) * legendre_b (S (S k)) * peval (P (S k)) x).
  { intros k H1 H2 y. rewrite R2, HSS.
    assert (EB : (2 * INR (S (S k)) + 1) * legendre_b (S (S k)) = 1 + (2 * INR (S k) - 1) * legendre_b (S k)).
    { rewrite legendre_b_rel, (S_INR (S k)). f_equal. lra. }
    rewrite EB.
    replace ((y * y - 1) * (peval (P (S k)) y + y * peval (pderiv (P (S k))) y - legendre_b (S k) * peval (pderiv (P k)) y)) with
      ((y * y - 1) * peval (P (S k)) y + y * ((y * y - 1) * peval (pderiv (P (S k))) y) - legendre_b (S k) * ((y * y - 1) * peval (pderiv (P k)) y)) by ring.
    rewrite H1, H2, (S_INR (S k)). ring. }
  clear n x. induction n as [|n [IH1 IH2]].
  - split; auto. apply STEP; auto. intros y. rewrite D0, E0, E1. cbn [INR]. ring.
  - split; auto. apply STEP; auto. intros y. f_equal. rewrite IH1, (S_INR (S n)).
    assert (EE : legendre_b (S n) * peval (P n) y = y * peval (P (S n)) y - peval (P (S (S n))) y) by (rewrite HSS; ring).
    replace ((2 * INR (S n) + 1) * legendre_b (S n) * peval (P n) y) with ((2 * INR (S n) + 1) * (legendre_b (S n) * peval (P n) y)) by ring.
    rewrite EE. ring.
Qed.

Lemma legendre_orth N : orth_upto (Lm unif_moment) legendre_a legendre_b N /\
  forall n, (n <= N)%nat -> forall m, n = S m -> ip (Lm unif_moment) (monic legendre_a legendre_b n) (monic legendre_a legendre_b n)
     = legendre_b n * ip (Lm unif_moment) (monic legendre_a legendre_b m) (monic legendre_a legendre_b m).
Proof.
  set (L := Lm unif_moment). assert (HL : functional L) by apply Lm_functional.
  set (P := monic legendre_a legendre_b).
  (* 0 = 2 <X p, q> + <(x^2-1) p', q> + <(x^2-1) q', p> *)
  assert (ST : forall p q, 2 * ip L (0 :: p) q + ip L (pmul x2m1 (pderiv p)) q + ip L (pmul x2m1 (pderiv q)) p = 0).
  { intros p q. rewrite <- (ip_scal L HL). unfold ip. rewrite <- !(L_add L HL).
    transitivity (L (pderiv (pmul x2m1 (pmul p q)))); [|apply unif_ibp]. apply (L_ext L HL). intros x.
    rewrite pderiv_pmul, !peval_padd, !peval_pmul, peval_pscal, pderiv_pmul.
    assert (E2 : peval (pderiv x2m1) x = 2 * x) by (cbn; ring). rewrite E2. cbn [peval]. ring. }
  assert (DP : forall n q, ip L (pmul x2m1 (pderiv (P (S n)))) q = INR (S n) * ip L (0 :: P (S n)) q - (2 * INR (S n) + 1) * legendre_b (S n) * ip L (P n) q).
  { intros n q. rewrite (ip_ext L HL _ (padd (pscal (INR (S n)) (0 :: P (S n))) (pscal (- ((2 * INR (S n) + 1) * legendre_b (S n))) (P n))) q q); auto.
    - rewrite (ip_add L HL), !(ip_scal L HL). ring.
    - intros x. rewrite peval_pmul, peval_padd, !peval_pscal. cbn [peval].
      pose proof (legendre_struct n x) as H. cbv zeta in H. fold P in H.
      replace (peval x2m1 x) with (x * x - 1) by (cbn; ring). rewrite H. ring. }
  assert (D0 : forall q, ip L (pmul x2m1 (pderiv (P 0%nat))) q = 0).
  { intros q. unfold ip. rewrite (L_ext L HL _ []); [reflexivity|]. intros x. rewrite !peval_pmul. change (pderiv (P 0%nat)) with (@nil R). cbn [peval]. ring. }
  assert (A : forall n, orth_upto L legendre_a legendre_b n -> ip L (0 :: P n) (P n) = legendre_a n * ip L (P n) (P n)).
  { intros n H. unfold legendre_a. pose proof (ST (P n) (P n)) as E. destruct n as [|n].
    - rewrite !D0 in E. lra.
    - rewrite !DP in E. assert (H0 : ip L (P n) (P (S n)) = 0) by (apply H; lia). rewrite H0 in E.
      assert (E' : ip L (0 :: P (S n)) (P (S n)) * (2 + 2 * INR (S n)) = 0) by lra.
      apply Rmult_integral in E'. pose proof (pos_INR (S n)). destruct E'; lra. }
  assert (B : forall n, orth_upto L legendre_a legendre_b n -> forall m, n = S m -> ip L (P n) (P n) = legendre_b n * ip L (P m) (P m)).
  { intros n H m ->. pose proof (ST (P m) (P (S m))) as E. rewrite DP in E.
    assert (EX : ip L (0 :: P m) (P (S m)) = ip L (P (S m)) (P (S m))) by (apply (ip_X_pred L HL); auto).
    assert (EX2 : ip L (0 :: P (S m)) (P m) = ip L (P (S m)) (P (S m))) by (rewrite (ip_X L HL), (ip_sym L HL); auto).
    rewrite EX, EX2 in E.
    assert (ED : ip L (pmul x2m1 (pderiv (P m))) (P (S m)) = (INR (S m) - 1) * ip L (P (S m)) (P (S m))).
    { destruct m as [|m].
      - rewrite D0. cbn. ring.
      - rewrite DP. rewrite EX. assert (H0 : ip L (P m) (P (S (S m))) = 0) by (apply H; lia). rewrite H0, (S_INR (S m)). ring. }
    rewrite ED in E. 
    assert (E' : (2 * INR (S m) + 1) * (ip L (P (S m)) (P (S m)) - legendre_b (S m) * ip L (P m) (P m)) = 0) by lra.
    apply Rmult_integral in E'. pose proof (pos_INR (S m)). destruct E'; lra. }
  assert (O : forall n, orth_upto L legendre_a legendre_b n).
  { intros n. apply (orth_all L HL). intros k _ Hk. split; [apply A; auto|apply B; auto]. }
  split; [apply O|]. intros n _. apply B. apply O.
Qed.
