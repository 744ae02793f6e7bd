(** Properties C31, C43, C44, C45: univariate orthonormal polynomials, their roots and the Gauss rules. *)
From Coq Require Import List Arith Reals Lia Lra.
From Verif.Base Require Import ListAux CRing RealAux Poly.
From Verif.Model Require Import Polynomials.
From Verif.Spec Require Import PolySpec.
From Verif.Proofs Require Import PolyP PolyP2 PolyP3 PolyP4 PolyP5 PolyP6 SpectralP2.
Import ListNotations.
Local Open Scope R_scope.

(** C31. poly_coeff(ind) has one row per requested degree, of length max(ind)+1, zero above the degree, and
    polyval(ind, x) is the value at x of the polynomial with those monomial coefficients (measure of mass one) *)
Theorem c31_poly_coeff : forall (a b : nat -> R) ind k x, (k < length ind)%nat ->
  length (poly_coeff a b ind) = length ind /\
  length (nth k (poly_coeff a b ind) []) = S (fold_right Nat.max 0%nat ind) /\
  (forall j, (nth k ind 0 < j)%nat -> nth j (nth k (poly_coeff a b ind) []) 0 = 0) /\
  nth k (polyval a b 1 ind x) 0 = monomial_value (nth k (poly_coeff a b ind) []) x.
Proof.
  intros a b ind k x Hk. destruct (poly_coeff_ok a b ind) as [L H]. destruct (H k Hk) as [H1 [H2 H3]].
  repeat split; auto. rewrite polyval_eq, (nth_map_in0 _ _ _ 0%nat) by auto.
  rewrite monomial_value_peval, H3, sqrt_1. lra.
Qed.
Print Assumptions c31_poly_coeff.

(** the mass of the measure is ignored by poly_coeff: for a measure of mass 2 (LegendrePolynomialsLebesgue) the
    polynomial of degree 0 is 1/sqrt 2 but its coefficient is 1 *)
Theorem c31_poly_coeff_mass_refuted :
  ~ (forall (a b : nat -> R) mass ind k x, 0 < mass -> (k < length ind)%nat ->
       nth k (polyval a b mass ind x) 0 = monomial_value (nth k (poly_coeff a b ind) []) x).
Proof.
  intros H. specialize (H legendre_a legendre_b 2 [0%nat] 0%nat 0 ltac:(lra) ltac:(cbn; lia)).
  cbn in H. rewrite !Rplus_0_l, Rmult_1_r in H.
  assert (sqrt 2 = 1) as E.
  { assert (0 < sqrt 2) by (apply sqrt_lt_R0; lra). apply (Rmult_eq_reg_r (/ sqrt 2)); [|apply Rinv_neq_0_compat; lra].
    rewrite Rinv_r by lra. unfold Rdiv in H. lra. }
  pose proof (sqrt_sqrt 2 ltac:(lra)) as S. rewrite E in S. lra.
Qed.
Print Assumptions c31_poly_coeff_mass_refuted.

(** dn_polyval(0, .) is polyval and dn_polyval(n+1, .) is the derivative of dn_polyval(n, .) *)
Theorem c31_dn_polyval : forall (a b : nat -> R) n ind k x, (k < length ind)%nat ->
  dn_polyval a b 1 0 ind x = polyval a b 1 ind x /\
  derivable_pt_lim (fun y => nth k (dn_polyval a b 1 n ind y) 0) x (nth k (dn_polyval a b 1 (S n) ind x) 0).
Proof. intros a b n ind k x Hk. split; [apply dn_polyval_0|apply dn_polyval_deriv; auto]. Qed.
Print Assumptions c31_dn_polyval.

(** the same after shift and scaling *)
Theorem c31_shifted_dn_polyval : forall (a b : nat -> R) shift scaling n ind k x, (k < length ind)%nat -> scaling <> 0 ->
  shifted_dn_polyval a b 1 shift scaling 0 ind x = shifted_polyval a b 1 shift scaling ind x /\
  derivable_pt_lim (fun y => nth k (shifted_dn_polyval a b 1 shift scaling n ind y) 0) x
     (nth k (shifted_dn_polyval a b 1 shift scaling (S n) ind x) 0).
Proof.
  intros a b sh sc n ind k x Hk Hs. split; [|apply shifted_dn_polyval_deriv; auto].
  unfold shifted_dn_polyval, shifted_polyval. rewrite dn_polyval_0.
  rewrite <- (map_id (polyval a b 1 ind ((x - sh) / sc))) at 2. apply map_ext. intros v. cbn. field.
Qed.
Print Assumptions c31_shifted_dn_polyval.

(** with a mass different from one, the first derivative of the polynomial of degree one is not the derivative *)
Theorem c31_dn_polyval_mass_refuted :
  ~ (forall (a b : nat -> R) mass n ind k x, 0 < mass -> (k < length ind)%nat -> (forall j, (1 <= j)%nat -> 0 < b j) ->
       derivable_pt_lim (fun y => nth k (dn_polyval a b mass n ind y) 0) x (nth k (dn_polyval a b mass (S n) ind x) 0)).
Proof.
  intros H. specialize (H (fun _ => 0) (fun _ => 1) 4 0%nat [1%nat] 0%nat 0 ltac:(lra) ltac:(cbn; lia) ltac:(intros; lra)).
  cbn in H. assert (E4 : sqrt 4 = 2) by (rewrite <- (sqrt_Rsqr 2) by lra; f_equal; unfold Rsqr; lra).
  assert (D : derivable_pt_lim (fun y => (y - 0) / sqrt 1 / sqrt 4) 0 (1 / 2)).
  { replace (1 / 2) with (1 / 2 * 1) by lra.
    assert (D0 := derivable_pt_lim_scal (fun y => y) (1 / 2) 0 1 (derivable_pt_lim_id 0)).
    intros eps He. destruct (D0 eps He) as [d Hd]. exists d. intros h Hh Hl. specialize (Hd h Hh Hl).
    unfold mult_real_fct in Hd. rewrite sqrt_1, E4.
    replace (((0 + h - 0) / 1 / 2 - (0 - 0) / 1 / 2) / h - 1 / 2 * 1) with ((1 / 2 * (0 + h) - 1 / 2 * 0) / h - 1 / 2 * 1) by (field; auto). auto. }
  pose proof (uniqueness_limite _ _ _ _ H D) as E. rewrite sqrt_1 in E. lra.
Qed.
Print Assumptions c31_dn_polyval_mass_refuted.

Example c31_ex : nth 1 (polyval hermite_a hermite_b 1 [0; 2]%nat 3) 0 = 8 / sqrt 2 /\
  nth 1 (poly_coeff hermite_a hermite_b [0; 2]%nat) [] = [-1 / sqrt 2; 0; 1 / sqrt 2].
Proof.
  unfold hermite_a, hermite_b. cbn. replace (sqrt (1 + 1)) with (sqrt 2) by (f_equal; lra). rewrite sqrt_1.
  assert (0 < sqrt 2) by (apply sqrt_lt_R0; lra). split; [field; lra|].
  f_equal; [field; lra|]. f_equal; [field; lra|]. f_equal; field; lra.
Qed.

(** C43. Hermite polynomials are orthonormal for the standard Gaussian *)
Theorem c43_hermite : forall i j,
  moment_is gauss_moment (fun x => nth 0 (polyval hermite_a hermite_b 1 [i] x) 0 *
                                   nth 0 (polyval hermite_a hermite_b 1 [j] x) 0) (kron_delta i j).
Proof. exact hermite_orthonormal. Qed.
Print Assumptions c43_hermite.

(** Legendre polynomials, shifted to any interval [s, t], are orthonormal for the uniform distribution on it *)
Theorem c43_legendre : forall s t i j, s < t ->
  integral_is s t (fun x => nth 0 (shifted_polyval legendre_a legendre_b 1 ((s + t) / 2) ((t - s) / 2) [i] x) 0
    * nth 0 (shifted_polyval legendre_a legendre_b 1 ((s + t) / 2) ((t - s) / 2) [j] x) 0 / (t - s)) (kron_delta i j).
Proof. exact legendre_uniform. Qed.
Print Assumptions c43_legendre.

(** the integral and the expectation are well defined *)
Theorem c43_well_defined : forall s t m f v w,
  (integral_is s t f v -> integral_is s t f w -> v = w) /\ (moment_is m f v -> moment_is m f w -> v = w).
Proof. intros s t m f v w. split; [exact (integral_unique s t f v w)|exact (moment_is_unique m f v w)]. Qed.
Print Assumptions c43_well_defined.

(** LegendrePolynomialsLebesgue: orthonormal for the Lebesgue measure on [-1, 1] *)
Theorem c43_legendre_lebesgue : forall i j, integral_is (-1) 1
  (fun x => nth 0 (polyval legendre_a legendre_b 2 [i] x) 0 * nth 0 (polyval legendre_a legendre_b 2 [j] x) 0) (kron_delta i j).
Proof. exact legendre_lebesgue. Qed.
Print Assumptions c43_legendre_lebesgue.

(** ... but LebesgueMeasure(s, t).orthonormal_polynomials() is not orthonormal when t - s <> 2: the squared
    norms are (t - s)/2 *)
Theorem c43_lebesgue_interval_refuted : 
  (forall s t i j, s < t -> integral_is s t
    (fun x => nth 0 (shifted_polyval legendre_a legendre_b 2 ((s + t) / 2) ((t - s) / 2) [i] x) 0
      * nth 0 (shifted_polyval legendre_a legendre_b 2 ((s + t) / 2) ((t - s) / 2) [j] x) 0) ((t - s) / 2 * kron_delta i j)) /\
  ~ (forall s t i j, s < t -> integral_is s t
    (fun x => nth 0 (shifted_polyval legendre_a legendre_b 2 ((s + t) / 2) ((t - s) / 2) [i] x) 0
      * nth 0 (shifted_polyval legendre_a legendre_b 2 ((s + t) / 2) ((t - s) / 2) [j] x) 0) (kron_delta i j)).
Proof.
  split; [exact legendre_lebesgue_shifted|]. intros H.
  pose proof (integral_unique _ _ _ _ _ (H 0 1 0%nat 0%nat ltac:(lra)) (legendre_lebesgue_shifted 0 1 0 0 ltac:(lra))) as E.
  unfold kron_delta in E. cbn in E. lra.
Qed.
Print Assumptions c43_lebesgue_interval_refuted.

(** the norms returned by recurrence_monic: norms[n] times the orthonormal polynomial of degree n is monic, and
    norms[n] is its norm *)
Theorem c43_norms : forall n,
  (exists coef, length coef = S n /\ nth n coef 0 = 1 /\
     (forall x, hermite_norm n * nth 0 (polyval hermite_a hermite_b 1 [n] x) 0 = monomial_value coef x) /\
     moment_is gauss_moment (fun x => monomial_value coef x ^ 2) (hermite_norm n ^ 2)) /\
  (exists coef, length coef = S n /\ nth n coef 0 = 1 /\
     (forall x, legendre_norm n * nth 0 (polyval legendre_a legendre_b 1 [n] x) 0 = monomial_value coef x) /\
     moment_is unif_moment (fun x => monomial_value coef x ^ 2) (legendre_norm n ^ 2)) /\
  (exists coef, length coef = S n /\ nth n coef 0 = 1 /\
     (forall x, legendre_lebesgue_norm n * nth 0 (polyval legendre_a legendre_b 2 [n] x) 0 = monomial_value coef x) /\
     integral_is (-1) 1 (fun x => monomial_value coef x ^ 2) (legendre_lebesgue_norm n ^ 2)).
Proof.
  intros n.
  assert (HL : exists coef, length coef = S n /\ nth n coef 0 = 1 /\
     (forall x, legendre_norm n * nth 0 (polyval legendre_a legendre_b 1 [n] x) 0 = monomial_value coef x) /\
     moment_is unif_moment (fun x => monomial_value coef x ^ 2) (legendre_norm n ^ 2)).
  { destruct (legendre_orth n) as [H1 H2]. apply norms_monic; auto.
    - unfold unif_moment. cbn. lra.
    - intros k Hk. apply legendre_b_pos. lia.
    - unfold legendre_norm. apply Rmult_le_pos; [|left; apply Rinv_0_lt_compat, INR_fact_lt_0].
      apply Rmult_le_pos; [|apply pow2_ge_0]. apply Rmult_le_pos; [apply sqrt_pos|apply pow_le; lra].
    - apply legendre_norm_ok. }
  split; [|split; [exact HL|]].
  - destruct (hermite_orth n) as [H1 H2]. apply norms_monic; auto.
    + intros k Hk. unfold hermite_b. apply lt_0_INR. lia.
    + apply sqrt_pos.
    + apply hermite_norm_ok.
  - destruct HL as [c [L1 [L2 [L3 L4]]]]. exists c. split; [auto|]. split; [auto|]. split.
    + intros x. rewrite <- L3. unfold legendre_lebesgue_norm. rewrite !polyval_eq. cbn [map nth]. rewrite sqrt_1.
      assert (0 < sqrt 2) by (apply sqrt_lt_R0; lra). field. lra.
    + apply moment_integral in L4. unfold legendre_lebesgue_norm.
      replace ((legendre_norm n * sqrt 2) ^ 2) with (2 * legendre_norm n ^ 2); auto.
      rewrite Rpow_mult_distr, pow2_sqrt by lra. ring.
Qed.
Print Assumptions c43_norms.

(** discrete measures: with n+1 distinct points and positive weights, the Stieltjes procedure never stops early
    and the polynomials of degrees 0..n it defines are orthonormal for the discrete measure *)
Theorem c43_discrete : forall points weights n i j a b norms,
  length points = S n -> length weights = S n -> NoDup points -> (forall w, In w weights -> 0 < w) ->
  discrete_recurrence points weights n = (a, b, norms) -> (i <= n)%nat -> (j <= n)%nat ->
  length a = S n /\ length b = S n /\ length norms = S n /\
  integrate points weights (fun x =>
      nth 0 (polyval (fun k => nth k a 0) (fun k => nth k b 0) (lsum weights (fun w => w)) [i] x) 0
    * nth 0 (polyval (fun k => nth k a 0) (fun k => nth k b 0) (lsum weights (fun w => w)) [j] x) 0) = kron_delta i j.
Proof. intros points weights n i j a b norms H1 H2 H3 H4. exact (discrete_orthonormal points weights n H1 H2 H3 H4 i j a b norms). Qed.
Print Assumptions c43_discrete.

Example c43_discrete_ex : exists a b norms, discrete_recurrence [-1; 1] [1/2; 1/2] 1 = (a, b, norms) /\
  length [-1; 1] = 2%nat /\ NoDup [-1; 1] /\ (forall w, In w [1/2; 1/2] -> 0 < w).
Proof.
  destruct (discrete_recurrence [-1; 1] [1/2; 1/2] 1) as [[a b] nm]. exists a, b, nm. repeat split.
  - repeat constructor; cbn; try tauto. intros [E|[]]. lra.
  - cbn. intros w [<-|[<-|[]]]; lra.
Qed.

(** C44. roots(deg): the eigenvalues of the Jacobi matrix are exactly the roots of the polynomial of degree deg,
    and they are deg distinct numbers *)
Theorem c44_roots : forall (a b : nat -> R) mass deg lam V, (1 <= deg)%nat -> 0 < mass ->
  (forall k, (1 <= k <= deg)%nat -> 0 < b k) -> eig_contract deg (jacobi a b) lam V ->
  (forall x, nth 0 (polyval a b mass [deg] x) 0 = 0 <-> exists k, (k < deg)%nat /\ x = lam k) /\
  (forall k l, (k < deg)%nat -> (l < deg)%nat -> lam k = lam l -> k = l).
Proof.
  intros a b mass deg lam V Hd Hm Hb HE. split.
  - intros x. rewrite polyval_root by auto. apply (roots_iff a b deg Hd Hb lam V HE).
  - exact (lam_inj a b deg Hd Hb lam V HE).
Qed.
Print Assumptions c44_roots.

(** C45. the n-point Gauss rule of a normal variable of mean mu and deviation sigma is exact for the polynomials of
    degree at most 2n-1 *)
Theorem c45_gauss_normal : forall n mu sigma lam V coef v, (1 <= n)%nat ->
  eig_contract n (jacobi hermite_a hermite_b) lam V -> (length coef <= 2 * n)%nat ->
  moment_is gauss_moment (fun x => monomial_value coef (mu + sigma * x)) v ->
  integrate (map (gauss_point mu sigma lam) (seq 0 n)) (map (gauss_weight n V) (seq 0 n)) (monomial_value coef) = v.
Proof. exact gauss_hermite. Qed.
Print Assumptions c45_gauss_normal.

(** the n-point Gauss rule of the uniform variable on [s, t]; LebesgueMeasure multiplies the weights by t - s *)
Theorem c45_gauss_uniform : forall n s t lam V coef v, (1 <= n)%nat -> s < t ->
  eig_contract n (jacobi legendre_a legendre_b) lam V -> (length coef <= 2 * n)%nat ->
  integral_is s t (monomial_value coef) v ->
  integrate (map (gauss_point ((s + t) / 2) ((t - s) / 2) lam) (seq 0 n)) (map (gauss_weight n V) (seq 0 n))
    (monomial_value coef) = v / (t - s).
Proof. exact gauss_legendre. Qed.
Print Assumptions c45_gauss_uniform.

Theorem c45_gauss_lebesgue : forall n s t lam V coef v, (1 <= n)%nat -> s < t ->
  eig_contract n (jacobi legendre_a legendre_b) lam V -> (length coef <= 2 * n)%nat ->
  integral_is s t (monomial_value coef) v ->
  integrate (map (gauss_point ((s + t) / 2) ((t - s) / 2) lam) (seq 0 n))
    (map (fun w => w * (t - s)) (map (gauss_weight n V) (seq 0 n))) (monomial_value coef) = v.
Proof.
  intros n s t lam V coef v Hn Hst HE Lc Hv. pose proof (gauss_legendre n s t lam V coef v Hn Hst HE Lc Hv) as E.
  rewrite map_map. rewrite integrate_map in *. rewrite (rsum_ext_R n _ (fun k => gauss_weight n V k * monomial_value coef (gauss_point ((s + t) / 2) ((t - s) / 2) lam k) * (t - s))) by (intros; ring).
  rewrite rsum_scal_r_R, E. field. lra.
Qed.
Print Assumptions c45_gauss_lebesgue.

(** distinct nodes and positive weights *)
Theorem c45_nodes_weights : forall (a b : nat -> R) n shift scaling lam V, (1 <= n)%nat ->
  (forall k, (1 <= k <= n)%nat -> 0 < b k) -> eig_contract n (jacobi a b) lam V -> scaling <> 0 ->
  NoDup (map (gauss_point shift scaling lam) (seq 0 n)) /\ (forall k, (k < n)%nat -> 0 < gauss_weight n V k).
Proof. exact gauss_points_weights. Qed.
Print Assumptions c45_nodes_weights.

(** the contract of np.linalg.eig is satisfiable for every Jacobi matrix *)
Theorem c45_eig_exists : forall n a b, exists lam V, eig_contract n (jacobi a b) lam V.
Proof. intros n a b. apply eig_exists. intros i j _ _. unfold jacobi. rewrite (Nat.eqb_sym j i). destruct (Nat.eqb_spec i j) as [->|H]; auto.
  rewrite (Nat.eqb_sym (S j) i), (Nat.eqb_sym j (S i)). destruct (Nat.eqb_spec (S i) j); destruct (Nat.eqb_spec i (S j)); subst; try lia; auto.
Qed.
Print Assumptions c45_eig_exists.
(** the two-point Gauss-Hermite rule: nodes -1, 1; weights 1/2 *)
Definition ex_lam (k : nat) : R := match k with O => -1 | _ => 1 end.
Definition ex_V (i k : nat) : R := match i, k with 1%nat, O => - / sqrt 2 | _, _ => / sqrt 2 end.
Example c45_ex : eig_contract 2 (jacobi hermite_a hermite_b) ex_lam ex_V /\
  gauss_weight 2 ex_V 0 = 1/2 /\ gauss_weight 2 ex_V 1 = 1/2.
Proof.
  assert (0 < sqrt 2) by (apply sqrt_lt_R0; lra). assert (S2 : / sqrt 2 * / sqrt 2 = 1/2).
  { rewrite <- Rinv_mult, sqrt_sqrt by lra. lra. }
  set (r := / sqrt 2) in *. assert (r <> 0) by (unfold r; apply Rinv_neq_0_compat; lra).
  split; [split; [|split]|].
  - intros [|[|k]] [|[|i]] Hk Hi; try lia; cbn; unfold hermite_a, hermite_b; cbn; rewrite ?sqrt_1; fold r; lra.
  - intros [|[|k]] Hk; try lia; cbn; fold r; nra.
  - intros c Hc k Hk. pose proof (Hc 0%nat ltac:(lia)) as E0. pose proof (Hc 1%nat ltac:(lia)) as E1. cbn in E0, E1. fold r in E0, E1.
    assert (F0 : r * (c 0%nat + c 1%nat) = 0) by lra. assert (F1 : r * (c 1%nat - c 0%nat) = 0) by lra.
    apply Rmult_integral in F0, F1. destruct F0; [lra|]. destruct F1; [lra|]. destruct k as [|[|k]]; try lia; lra.
  - unfold gauss_weight. cbn. fold r. replace (0 + r * (r * 1) + - r * (- r * 1)) with 1 by nra.
    replace (0 + r * (r * 1) + r * (r * 1)) with 1 by nra. rewrite sqrt_1. split; nra.
Qed.
