(** Exactness of the Gauss rules, in terms of moments and integrals. *)
From Coq Require Import List Arith Reals Bool Lia Lra.
From Verif.Base Require Import ListAux CRing RealAux Poly.
From Verif.Model Require Import Polynomials.
From Verif.Spec Require Import PolySpec.
From Verif.Proofs Require Import PolyP PolyP3 PolyP4 PolyP5.
Import ListNotations.
Local Open Scope R_scope.

Fixpoint pcomp (sh sc : R) (p : list R) : list R :=
  match p with [] => [] | c :: p' => match p' with [] => [c] | _ => padd [c] (pmul [sh; sc] (pcomp sh sc p')) end end.
Lemma pcomp_eval sh sc p x : peval (pcomp sh sc p) x = peval p (sh + sc * x).
Proof. 
  induction p as [|c p IH]; auto. destruct p as [|c' p]; [cbn; ring|].
  change (pcomp sh sc (c :: c' :: p)) with (padd [c] (pmul [sh; sc] (pcomp sh sc (c' :: p)))).
  rewrite peval_padd, peval_pmul, IH. cbn [peval]. ring.
Qed.
Lemma pcomp_length sh sc p : (length (pcomp sh sc p) <= length p)%nat.
Proof.
  induction p as [|c p IH]; auto. destruct p as [|c' p]; [cbn; lia|].
  change (pcomp sh sc (c :: c' :: p)) with (padd [c] (pmul [sh; sc] (pcomp sh sc (c' :: p)))). rewrite padd_length.
  set (q := pcomp sh sc (c' :: p)) in *. cbn [pmul]. rewrite padd_length, pscal_length. cbn [length].
  rewrite padd_length, pscal_length. cbn [length] in *. lia.
Qed.

Lemma integrate_map n (f : nat -> R) (w : nat -> R) g :
  integrate (map f (seq 0 n)) (map w (seq 0 n)) g = rsum n (fun k => w k * g (f k)).
Proof.
  unfold integrate. transitivity (lsum (seq 0 n) (fun k => w k * g (f k))).
  - generalize (seq 0 n). induction l as [|k l IH]; auto. cbn [map combine]. rewrite !lsum_cons_R, IH. auto.
  - exact (lsum_seq n (fun k => w k * g (f k))).
Qed.

Definition gauss_rule_points (n : nat) (sh sc : R) (lam : nat -> R) : list R := map (gauss_point sh sc lam) (seq 0 n).
Definition gauss_rule_weights (n : nat) (V : nat -> nat -> R) : list R := map (gauss_weight n V) (seq 0 n).

Lemma gauss_general m a b n sh sc lam V coef v : (1 <= n)%nat ->
  (forall k, (1 <= k <= n)%nat -> 0 < b k) -> m 0%nat = 1 ->
  orth_upto (Lm m) a b n ->
  (forall i, (i <= n)%nat -> forall k, i = S k -> ip (Lm m) (monic a b i) (monic a b i) = b i * ip (Lm m) (monic a b k) (monic a b k)) ->
  eig_contract n (jacobi a b) lam V -> (length coef <= 2 * n)%nat ->
  moment_is m (fun x => monomial_value coef (sh + sc * x)) v ->
  integrate (map (gauss_point sh sc lam) (seq 0 n)) (map (gauss_weight n V) (seq 0 n)) (monomial_value coef) = v.
Proof.
  intros Hn Hb H0 HO HN HE Lc Hv.
  rewrite integrate_map.
  transitivity (Q n lam V (pcomp sh sc coef)).
  - apply rsum_ext_R. intros k Hk. rewrite pcomp_eval, monomial_value_peval. auto.
  - rewrite (QL_agree a b n Hn Hb lam V HE (Lm m) (Lm_functional m)); auto.
    + apply (moment_is_unique m (fun x => monomial_value coef (sh + sc * x))); auto.
      apply moment_is_Lm. intros x. rewrite pcomp_eval, monomial_value_peval. auto.
    + cbn. lra.
    + pose proof (pcomp_length sh sc coef). lia.
Qed.

Lemma gauss_hermite n mu sigma lam V coef v : (1 <= n)%nat ->
  eig_contract n (jacobi hermite_a hermite_b) lam V -> (length coef <= 2 * n)%nat ->
  moment_is gauss_moment (fun x => monomial_value coef (mu + sigma * x)) v ->
  integrate (map (gauss_point mu sigma lam) (seq 0 n)) (map (gauss_weight n V) (seq 0 n)) (monomial_value coef) = v.
Proof.
  intros Hn. destruct (hermite_orth n) as [H1 H2]. apply gauss_general; auto.
  intros k Hk. unfold hermite_b. apply lt_0_INR. lia.
Qed.

Lemma gauss_legendre n s t lam V coef v : (1 <= n)%nat -> s < t ->
  eig_contract n (jacobi legendre_a legendre_b) lam V -> (length coef <= 2 * n)%nat ->
  integral_is s t (monomial_value coef) v ->
  integrate (map (gauss_point ((s + t) / 2) ((t - s) / 2) lam) (seq 0 n)) (map (gauss_weight n V) (seq 0 n)) (monomial_value coef) = v / (t - s).
Proof.
  intros Hn Hst HE Lc Hv. destruct (legendre_orth n) as [H1 H2].
  set (sh := (s + t) / 2). set (sc := (t - s) / 2).
  set (p := pcomp sh sc coef).
  assert (M : moment_is unif_moment (fun x => monomial_value coef (sh + sc * x)) (Lm unif_moment p)).
  { apply moment_is_Lm. intros x. unfold p. rewrite pcomp_eval, monomial_value_peval. auto. }
  rewrite (gauss_general unif_moment legendre_a legendre_b n sh sc lam V coef (Lm unif_moment p)); auto.
  - apply moment_integral in M. apply (integral_shift sh sc) in M; [|unfold sc; lra].
    replace (sh + sc * -1) with s in M by (unfold sh, sc; field). replace (sh + sc * 1) with t in M by (unfold sh, sc; field).
    assert (E : sc * (2 * Lm unif_moment p) = v).
    { apply (integral_unique s t (monomial_value coef)); auto. revert M. apply integral_ext.
      intros x. f_equal. unfold sc. field. lra. }
    rewrite <- E. unfold sc. field. lra.
  - intros k Hk. apply legendre_b_pos. lia.
  - unfold unif_moment. cbn. lra.
Qed.

(** weights sum to one, points distinct *)
Lemma polyval_root a b n mass x : 0 < mass -> nth 0 (polyval a b mass [n] x) 0 = 0 <-> pval a b n x = 0.
Proof.
  intros Hm. rewrite polyval_eq. cbn [map nth]. assert (0 < sqrt mass) by (apply sqrt_lt_R0; auto).
  split; intros E.
  - apply (Rmult_eq_reg_r (/ sqrt mass)); [|apply Rinv_neq_0_compat; lra]. unfold Rdiv in E. lra.
  - rewrite E. unfold Rdiv. ring.
Qed.
Lemma gauss_points_weights a b n sh sc lam V : (1 <= n)%nat -> (forall k, (1 <= k <= n)%nat -> 0 < b k) ->
  eig_contract n (jacobi a b) lam V -> sc <> 0 ->
  NoDup (map (gauss_point sh sc lam) (seq 0 n)) /\ (forall k, (k < n)%nat -> 0 < gauss_weight n V k).
Proof.
  intros Hn Hb HE Hs. split.
  - apply NoDup_map_in; [|apply seq_NoDup]. intros k l Hk Hl E. apply in_seq in Hk, Hl. unfold gauss_point in E.
    apply (lam_inj a b n Hn Hb lam V HE); try lia. apply (Rmult_eq_reg_l sc); auto. lra.
  - intros k Hk. apply (gauss_weight_pos a b n Hn Hb lam V HE k Hk).
Qed.

Lemma norm_cprod m a b n nrm : orth_upto (Lm m) a b n -> m 0%nat = 1 ->
  (forall i, (i <= n)%nat -> forall k, i = S k -> ip (Lm m) (monic a b i) (monic a b i) = b i * ip (Lm m) (monic a b k) (monic a b k)) ->
  (forall k, (1 <= k <= n)%nat -> 0 < b k) -> 0 <= nrm ->
  moment_is m (fun x => peval (monic a b n) x ^ 2) (nrm ^ 2) -> nrm = cprod b n.
Proof.
  intros HO H0 HN Hb Hn Hm.
  assert (E : nrm ^ 2 = cprod b n * cprod b n).
  { apply (moment_is_unique m (fun x => peval (monic a b n) x ^ 2)); auto.
    replace (cprod b n * cprod b n) with (ip (Lm m) (monic a b n) (monic a b n)).
    - apply moment_is_Lm. intros x. rewrite peval_pmul. ring.
    - rewrite (norm_prod (Lm m) (Lm_functional m) a b n n HN Hb) by lia. cbn. rewrite H0. ring. }
  assert (P : 0 < cprod b n) by (apply cprod_pos; auto).
  apply Rsqr_inj; try lra. unfold Rsqr. lra.
Qed.

Lemma norms_monic m a b n nrm : orth_upto (Lm m) a b n -> m 0%nat = 1 ->
  (forall i, (i <= n)%nat -> forall k, i = S k -> ip (Lm m) (monic a b i) (monic a b i) = b i * ip (Lm m) (monic a b k) (monic a b k)) ->
  (forall k, (1 <= k <= n)%nat -> 0 < b k) -> 0 <= nrm ->
  moment_is m (fun x => peval (monic a b n) x ^ 2) (nrm ^ 2) ->
  exists coef, length coef = S n /\ nth n coef 0 = 1 /\
    (forall x, nrm * nth 0 (polyval a b 1 [n] x) 0 = monomial_value coef x) /\
    moment_is m (fun x => monomial_value coef x ^ 2) (nrm ^ 2).
Proof.
  intros HO H0 HN Hb Hn Hm. exists (monic a b n). split; [apply monic_length|]. split; [apply monic_lead|]. split.
  - intros x. rewrite (norm_cprod m a b n nrm) by auto. rewrite polyval_eq, monomial_value_peval. cbn [map nth].
    rewrite pval_monic, sqrt_1 by auto. assert (P : 0 < cprod b n) by (apply cprod_pos; auto). field. lra.
  - destruct Hm as [c [H E]]. exists c. split; auto. intros x. rewrite monomial_value_peval. auto.
Qed.
