(** Properties C36, C46-C49: random variables, moments, discretisation, composite quadrature. *)
From Coq Require Import List Arith Reals Lia Lra Sorted.
From Verif.Base Require Import ListAux CRing RealAux Poly.
From Verif.Model Require Import Polynomials UnivPoly Measures.
From Verif.Spec Require Import PolySpec MeasureSpec.
From Verif.Proofs Require Import PolyP PolyP4 PolyP5 PolyP6 MeasuresP MeasuresP2 MeasuresP3 UnivPolyP.
Import ListNotations.
Local Open Scope R_scope.

(** C36. the constructor: probabilities are kept proportional, nonnegative and of sum one (up to the machine
    epsilon under which they are left as given); default is the uniform distribution *)
Theorem c36_init : forall values probs X, drv_make values probs = Some X ->
  (match probs with Some p => 0 < lsum p (fun x => x) | None => True end) ->
  dvals X = values /\ length (dprobs X) = length values /\ (forall p, In p (dprobs X) -> 0 <= p) /\
  Rabs (lsum (dprobs X) (fun p => p) - 1) <= feps /\
  (forall p, probs = Some p -> exists c, 0 < c /\ dprobs X = map (fun x => x / c) p) /\
  (probs = None -> dprobs X = repeat (1 / INR (length values)) (length values)).
Proof. exact drv_make_spec. Qed.
Print Assumptions c36_init.

(** cdf is the distribution function: P(X <= x), nondecreasing, 0 below and 1 above the support *)
Theorem c36_cdf : forall X, length (dvals X) = length (dprobs X) -> is_distribution (dprobs X) ->
  (forall x, drv_cdf X x = mass_below (dvals X) (dprobs X) x) /\
  (forall x y, x <= y -> drv_cdf X x <= drv_cdf X y) /\
  (forall x, (forall v, In v (dvals X) -> v <= x) -> drv_cdf X x = 1) /\
  (forall x, (forall v, In v (dvals X) -> x < v) -> drv_cdf X x = 0).
Proof.
  intros X HL [HP HT]. split; [exact (drv_cdf_eq X)|]. split; [intros; apply cdf_monotone; auto|]. split.
  - intros x H. rewrite cdf_top by auto. exact HT.
  - exact (cdf_bottom X).
Qed.
Print Assumptions c36_cdf.

(** icdf is the quantile function when the values are given in nondecreasing order; the Galois connection
    icdf(p) <= x <-> p <= cdf(x) *)
Theorem c36_icdf : forall X ps, length (dvals X) = length (dprobs X) -> is_distribution (dprobs X) ->
  nondecreasing (dvals X) -> (forall p, In p ps -> 0 < p <= 1) ->
  exists vs, drv_icdf X ps = Some (map Fin vs) /\
    Forall2 (fun p v => In v (dvals X) /\ is_quantile (drv_cdf X) p v /\ forall x, v <= x <-> p <= drv_cdf X x) ps vs.
Proof.
  intros X ps HL HD HS Hp. destruct (icdf_quantile X ps HL HD HS Hp) as [vs [E F]]. exists vs. split; auto.
  clear E. induction F as [|p v ps vs [H1 H2] F IH]; constructor.
  - split; auto. split; auto. apply quantile_galois; auto. intros; apply cdf_monotone; auto. apply HD.
  - apply IH. intros; apply Hp; cbn; auto.
Qed.
Print Assumptions c36_icdf.

(** above one, icdf raises *)
Theorem c36_icdf_above_one : forall X ps p, length (dvals X) = length (dprobs X) -> is_distribution (dprobs X) ->
  In p ps -> 1 < p -> drv_icdf X ps = None.
Proof.
  intros X ps p HL [HP HT] Hin Hp. apply (drv_icdf_none X HL HP ps p Hin). unfold total. change (lsum (dprobs X) (fun x => x) < p). rewrite HT. auto.
Qed.
Print Assumptions c36_icdf_above_one.

(** the values must be sorted: with values (1, 0) of probabilities 1/2 the median is reported as 1, but cdf(0) = 1/2 *)
Theorem c36_icdf_unsorted_refuted : 
  ~ (forall X p v, length (dvals X) = length (dprobs X) -> is_distribution (dprobs X) -> 0 < p <= 1 ->
       drv_icdf X [p] = Some [Fin v] -> is_quantile (drv_cdf X) p v).
Proof.
  intros H. specialize (H {| dvals := [1; 0]; dprobs := [1/2; 1/2] |} (1/2) 1).
  destruct H as [_ H]; cbn [dvals dprobs].
  - reflexivity.
  - split; [intros p [<-|[<-|[]]]; lra|cbn; lra].
  - lra.
  - unfold drv_icdf. cbn [dvals dprobs map concat]. 
    rewrite (first_ge_some _ _ 1); [reflexivity|cbn; lia|intros j Hj; assert (j = 0)%nat as -> by lia; cbn; lra|].
    intros j Hj. cbn in Hj. destruct j as [|[|[|j]]]; cbn; try lia; lra.
  - specialize (H 0). unfold drv_cdf in H. cbn in H. destruct (Rlt_dec 0 1); [|lra]. destruct (Rlt_dec 0 0); [lra|]. specialize (H ltac:(lra)). lra.
Qed.
Print Assumptions c36_icdf_unsorted_refuted.

(** mean, variance and the standard variable *)
Theorem c36_moments : forall X, length (dvals X) = length (dprobs X) -> is_distribution (dprobs X) ->
  drv_mean X = expectation (dvals X) (dprobs X) (fun x => x) /\
  drv_var X = expectation (dvals X) (dprobs X) (fun x => (x - drv_mean X) ^ 2) /\
  (0 < drv_var X -> exists Y, drv_standard X = Some Y /\ drv_mean Y = 0 /\ drv_var Y = 1 /\ dprobs Y = dprobs X /\
     dvals Y = map (fun v => (v - drv_mean X) / drv_std X) (dvals X)).
Proof.
  intros X HL HD. split; [reflexivity|]. split; [apply var_expectation; auto; apply HD|]. apply drv_standard_ok; auto.
Qed.
Print Assumptions c36_moments.

(** DiscreteMeasure.random: inverse transform sampling; the draw u = 0 raises *)
Theorem c36_measure_random : forall values weights us, length values = length weights -> (forall w, In w weights -> 0 <= w) ->
  0 < lsum weights (fun w => w) -> (forall u, In u us -> 0 < u <= 1) ->
  exists out, dm_random values weights us = Some out /\
    Forall2 (fun u v => exists k, (k < length values)%nat /\ v = nth k values 0 /\
       lsum (firstn k weights) (fun w => w) / lsum weights (fun w => w) < u <=
       lsum (firstn (S k) weights) (fun w => w) / lsum weights (fun w => w)) us out.
Proof. exact dm_random_ok. Qed.
Print Assumptions c36_measure_random.
Theorem c36_measure_random_zero_refuted : 
  ~ (forall values weights us, length values = length weights -> (forall w, In w weights -> 0 <= w) ->
      0 < lsum weights (fun w => w) -> (forall u, In u us -> 0 <= u < 1) -> dm_random values weights us <> None).
Proof.
  intros H. apply (H [5] [1] [0]); [reflexivity| |cbn; lra| |exact dm_random_zero].
  - intros w [<-|[]]. lra.
  - intros u [<-|[]]. lra.
Qed.
Print Assumptions c36_measure_random_zero_refuted.

Example c36_ex : let X := {| dvals := [0; 1; 3]; dprobs := [1/2; 1/4; 1/4] |} in
  length (dvals X) = length (dprobs X) /\ is_distribution (dprobs X) /\ nondecreasing (dvals X) /\
  drv_cdf X 1 = 3/4 /\ drv_mean X = 1.
Proof.
  cbn [dvals dprobs length]. split; [reflexivity|]. split; [|split; [|split]].
  - split; [intros p [<-|[<-|[<-|[]]]]; lra|cbn; lra].
  - repeat constructor; lra.
  - unfold drv_cdf. cbn. destruct (Rlt_dec 1 0); [lra|]. destruct (Rlt_dec 1 1); [lra|]. destruct (Rlt_dec 1 3); lra.
  - unfold drv_mean. cbn. lra.
Qed.

(** C46. RandomVariable.moment(ind), nothing stored yet: raw moments of normal and uniform variables *)
Theorem c46_moment_normal : forall (G : nat -> list R * list R) mu sigma ind k v lam V,
  (forall n, (1 <= n)%nat -> eig_contract n (jacobi hermite_a hermite_b) (lam n) (V n) /\
     G n = (map (gauss_point mu sigma (lam n)) (seq 0 n), map (gauss_weight n (V n)) (seq 0 n))) ->
  (k < length ind)%nat -> moment_is gauss_moment (fun x => (mu + sigma * x) ^ (nth k ind 0%nat)) v ->
  nth k (fst (rv_moment G [] ind)) 0 = v.
Proof. exact moment_normal. Qed.
Print Assumptions c46_moment_normal.
Theorem c46_moment_uniform : forall (G : nat -> list R * list R) s t ind k v lam V, s < t ->
  (forall n, (1 <= n)%nat -> eig_contract n (jacobi legendre_a legendre_b) (lam n) (V n) /\
     G n = (map (gauss_point ((s + t) / 2) ((t - s) / 2) (lam n)) (seq 0 n), map (gauss_weight n (V n)) (seq 0 n))) ->
  (k < length ind)%nat -> integral_is s t (fun x => x ^ (nth k ind 0%nat)) v ->
  nth k (fst (rv_moment G [] ind)) 0 = v / (t - s).
Proof. exact moment_uniform. Qed.
Print Assumptions c46_moment_uniform.

(** the stored moments answer later calls correctly if the first call asked for 0, 1, ..., n *)
Theorem c46_stored_partial : forall G n ind k, (k < length ind)%nat -> (fold_right Nat.max 0%nat ind <= n)%nat ->
  nth k (fst (rv_moment G (snd (rv_moment G [] (seq 0 (S n)))) ind)) 0 =
  nth (nth k ind 0%nat) (fst (rv_moment G [] (seq 0 (S n)))) 0.
Proof. exact moment_stored. Qed.
Print Assumptions c46_stored_partial.

(** otherwise they do not: after moment([2]) of a centred normal variable of deviation 2, the returned variable
    answers 4 (its second moment) to moment([0]), which is 1 *)
Theorem c46_stored_refuted : exists G,
  (forall n, (n = 1 \/ n = 2)%nat -> exists lam V, eig_contract n (jacobi hermite_a hermite_b) lam V /\
     G n = (map (gauss_point 0 2 lam) (seq 0 n), map (gauss_weight n V) (seq 0 n))) /\
  fst (rv_moment G [] [0]%nat) = [1] /\ fst (rv_moment G (snd (rv_moment G [] [2]%nat)) [0]%nat) = [4].
Proof.
  pose (lam1 := fun _ : nat => 0). pose (V1 := fun _ _ : nat => 1).
  pose (lam2 := fun k => match k with O => -1 | _ => 1 end : R).
  pose (V2 := fun i k => match i, k with 1%nat, O => - / sqrt 2 | _, _ => / sqrt 2 end).
  assert (S2 : / sqrt 2 * / sqrt 2 = 1/2).
  { assert (0 < sqrt 2) by (apply sqrt_lt_R0; lra). rewrite <- Rinv_mult, sqrt_sqrt by lra. lra. }
  set (r := / sqrt 2) in *.
  assert (W1 : gauss_weight 1 V1 0 = 1) by (unfold gauss_weight, V1; cbn; replace (0 + 1 * (1 * 1)) with 1 by ring; rewrite sqrt_1; lra).
  assert (W20 : gauss_weight 2 V2 0 = 1/2).
  { unfold gauss_weight, V2. cbn. fold r. replace (0 + r * (r * 1) + - r * (- r * 1)) with 1 by nra. rewrite sqrt_1. nra. }
  assert (W21 : gauss_weight 2 V2 1 = 1/2).
  { unfold gauss_weight, V2. cbn. fold r. replace (0 + r * (r * 1) + r * (r * 1)) with 1 by nra. rewrite sqrt_1. nra. }
  exists (fun n => match n with
    | 1%nat => (map (gauss_point 0 2 lam1) (seq 0 1), map (gauss_weight 1 V1) (seq 0 1))
    | _ => (map (gauss_point 0 2 lam2) (seq 0 2), map (gauss_weight 2 V2) (seq 0 2)) end).
  split; [|split].
  - intros n [->| ->].
    + exists lam1, V1. split; auto. split; [|split].
      * intros [|k] [|i] Hk Hi; try lia. cbn. unfold hermite_a, lam1, V1. lra.
      * intros [|k] Hk; try lia. cbn. unfold V1. lra.
      * intros c Hc [|k] Hk; try lia. pose proof (Hc 0%nat ltac:(lia)) as E. cbn in E. unfold V1 in E. lra.
    + exists lam2, V2. split; auto. assert (r <> 0) by (intros E; rewrite E in S2; lra). split; [|split].
      * intros [|[|k]] [|[|i]] Hk Hi; try lia; cbn; unfold hermite_a, hermite_b; cbn; rewrite ?sqrt_1; fold r; lra.
      * intros [|[|k]] Hk; try lia; cbn; fold r; nra.
      * intros c Hc k Hk. pose proof (Hc 0%nat ltac:(lia)) as E0. pose proof (Hc 1%nat ltac:(lia)) as E1. cbn in E0, E1. fold r in E0, E1.
        assert (F0 : r * (c 0%nat + c 1%nat) = 0) by lra. assert (F1 : r * (c 1%nat - c 0%nat) = 0) by lra.
        apply Rmult_integral in F0, F1. destruct F0; [lra|]. destruct F1; [lra|]. destruct k as [|[|k]]; try lia; lra.
  - unfold rv_moment. change ((maxl [0%nat] + 2) / 2)%nat with 1%nat. change (maxl [0%nat]) with 0%nat.
    cbn - [gauss_weight gauss_point]. unfold integrate. cbn - [gauss_weight gauss_point]. rewrite W1. f_equal. lra.
  - unfold rv_moment. change ((maxl [2%nat] + 2) / 2)%nat with 2%nat. change (maxl [2%nat]) with 2%nat.
    cbn - [gauss_weight gauss_point]. unfold integrate. cbn - [gauss_weight gauss_point]. rewrite W20, W21. unfold gauss_point, lam2. f_equal. lra.
Qed.
Print Assumptions c46_stored_refuted.

(** moments of products of polynomials (UnivariatePolynomials.moment), for the Hermite, Legendre and canonical
    families under a normal or uniform variable *)
Theorem c46_product_moments : forall p, 
  (p = (fun d x => nth 0 (polyval hermite_a hermite_b 1 [d] x) 0) \/
   p = (fun d x => nth 0 (polyval legendre_a legendre_b 1 [d] x) 0) \/
   p = (fun d x => nth 0 (u_polyval canon_pc [d] x) 0)) ->
  (forall G mu sigma ind k v lam V, (k < length ind)%nat -> nth k ind [] <> [] ->
    (forall n, (1 <= n)%nat -> eig_contract n (jacobi hermite_a hermite_b) (lam n) (V n) /\
       G n = (map (gauss_point mu sigma (lam n)) (seq 0 n), map (gauss_weight n (V n)) (seq 0 n))) ->
    moment_is gauss_moment (fun z => fold_left (fun acc d => acc * p d (mu + sigma * z)) (tl (nth k ind [])) (p (hd 0%nat (nth k ind [])) (mu + sigma * z))) v ->
    nth k (u_moment p G ind) 0 = v) /\
  (forall G s t ind k v lam V, s < t -> (k < length ind)%nat -> nth k ind [] <> [] ->
    (forall n, (1 <= n)%nat -> eig_contract n (jacobi legendre_a legendre_b) (lam n) (V n) /\
       G n = (map (gauss_point ((s + t) / 2) ((t - s) / 2) (lam n)) (seq 0 n), map (gauss_weight n (V n)) (seq 0 n))) ->
    integral_is s t (fun z => fold_left (fun acc d => acc * p d z) (tl (nth k ind [])) (p (hd 0%nat (nth k ind [])) z)) v ->
    nth k (u_moment p G ind) 0 = v / (t - s)).
Proof.
  intros p Hp. assert (HD : deg_le p).
  { destruct Hp as [->|[->| ->]]; [apply hermite_deg_le|apply legendre_deg_le|apply canon_deg_le]. }
  split.
  - intros G mu sigma ind k v lam V Hk Hne HG. exact (u_moment_normal p G mu sigma ind k v lam V HD Hk Hne HG).
  - intros G s t ind k v lam V Hst Hk Hne HG. exact (u_moment_uniform p G s t ind k v lam V Hst HD Hk Hne HG).
Qed.
Print Assumptions c46_product_moments.

(** the shortcut of OrthonormalPolynomials.moment for its own measure: right for measures of mass one *)
Theorem c46_own_moments : forall i j,
  o_moment [[i]] = Some [kron_delta i 0] /\ o_moment [[i; j]] = Some [kron_delta i j] /\
  moment_is gauss_moment (fun x => nth 0 (polyval hermite_a hermite_b 1 [i] x) 0) (kron_delta i 0) /\
  moment_is gauss_moment (fun x => nth 0 (polyval hermite_a hermite_b 1 [i] x) 0 * nth 0 (polyval hermite_a hermite_b 1 [j] x) 0) (kron_delta i j) /\
  integral_is (-1) 1 (fun x => nth 0 (polyval legendre_a legendre_b 1 [i] x) 0 / 2) (kron_delta i 0) /\
  integral_is (-1) 1 (fun x => nth 0 (polyval legendre_a legendre_b 1 [i] x) 0 * nth 0 (polyval legendre_a legendre_b 1 [j] x) 0 / 2) (kron_delta i j).
Proof.
  assert (P0 : forall a b x, nth 0 (polyval a b 1 [0%nat] x) 0 = 1) by (intros; rewrite polyval_eq; cbn; rewrite sqrt_1; field).
  assert (LEG : forall i j, integral_is (-1) 1 (fun x => nth 0 (polyval legendre_a legendre_b 1 [i] x) 0 * nth 0 (polyval legendre_a legendre_b 1 [j] x) 0 / 2) (kron_delta i j)).
  { intros i j. pose proof (moment_integral _ _ (legendre_orthonormal i j)) as H. apply (integral_scal _ _ (/ 2)) in H.
    replace (/ 2 * (2 * kron_delta i j)) with (kron_delta i j) in H by field. revert H. apply integral_ext. intros x. field. }
  intros i j. split; [reflexivity|]. split; [reflexivity|]. split; [|split; [apply hermite_orthonormal|split; [|apply LEG]]].
  - destruct (hermite_orthonormal i 0) as [c [H1 H2]]. exists c. split; auto. intros x. rewrite <- H1, P0. ring.
  - specialize (LEG i 0%nat). revert LEG. apply integral_ext. intros x. rewrite P0. field.
Qed.
Print Assumptions c46_own_moments.

(** wrong for LegendrePolynomialsLebesgue (mass 2): the integral of the polynomial of degree 0 is sqrt 2 *)
Theorem c46_own_moments_mass_refuted : o_moment [[0]]%nat = Some [1] /\
  ~ integral_is (-1) 1 (fun x => nth 0 (polyval legendre_a legendre_b 2 [0%nat] x) 0) 1.
Proof.
  split; [reflexivity|]. intros H.
  assert (P0 : forall x, nth 0 (polyval legendre_a legendre_b 2 [0%nat] x) 0 = 1 / sqrt 2) by (intros; rewrite polyval_eq; reflexivity).
  assert (H' : integral_is (-1) 1 (fun x => nth 0 (polyval legendre_a legendre_b 2 [0%nat] x) 0) (2 / sqrt 2)).
  { exists (fun x => 1 / sqrt 2 * x). split; [|field; pose proof (sqrt_lt_R0 2 ltac:(lra)); lra].
    intros x. rewrite P0. pose proof (derivable_pt_lim_scal (fun y => y) (1 / sqrt 2) x 1 (derivable_pt_lim_id x)) as D.
    rewrite Rmult_1_r in D. exact D. }
  pose proof (integral_unique _ _ _ _ _ H H') as E. pose proof (sqrt_lt_R0 2 ltac:(lra)) as S.
  assert (sqrt 2 = 2) as E2 by (apply (Rmult_eq_reg_r (/ sqrt 2)); [rewrite Rinv_r by lra; unfold Rdiv in E; lra|apply Rinv_neq_0_compat; lra]).
  pose proof (sqrt_sqrt 2 ltac:(lra)). rewrite E2 in *. lra.
Qed.
Print Assumptions c46_own_moments_mass_refuted.

(** the generic evaluation and derivatives of UnivariatePolynomials on CanonicalPolynomials *)
Theorem c31_canonical : forall ind n k x, (k < length ind)%nat ->
  u_polyval canon_pc ind x = map (fun i => x ^ i) ind /\
  u_dn_polyval canon_pc 0 ind x = Some (u_polyval canon_pc ind x) /\
  derivable_pt_lim (fun y => nth k (u_polyval canon_pc ind y) 0) x (nth k (canon_d_polyval ind x) 0) /\
  ((S n <= fold_right Nat.max 0 ind)%nat -> exists f d,
     (forall y, exists l, u_dn_polyval canon_pc n ind y = Some l /\ nth k l 0 = f y) /\
     (exists l, u_dn_polyval canon_pc (S n) ind x = Some l /\ nth k l 0 = d) /\ derivable_pt_lim f x d).
Proof.
  intros ind n k x Hk. split; [apply canon_polyval|]. split; [apply (u_dn_0 canon_pc ind _ x (canon_rows (maxl ind)))|].
  split; [apply canon_d; auto|]. intros Hn. exact (u_dn_deriv canon_pc n ind _ k x (canon_rows (maxl ind)) Hn Hk).
Qed.
Print Assumptions c31_canonical.
(** ... but a derivative of order larger than every degree raises instead of returning zeros *)
Theorem c31_canonical_high_order_refuted : forall ind n x, (fold_right Nat.max 0 ind < n)%nat -> u_dn_polyval canon_pc n ind x = None.
Proof. intros ind n x H. unfold u_dn_polyval. destruct (Nat.leb_spec n (maxl ind)); auto. unfold maxl in *. lia. Qed.
Print Assumptions c31_canonical_high_order_refuted.
Example c31_canonical_ex : u_dn_polyval canon_pc 2 [1; 3]%nat 5 = Some [0; 30].
Proof.
  rewrite (u_dn_polyval_ok canon_pc 2 [1; 3]%nat _ 5 (canon_rows _)) by (cbn; lia). cbn. unfold dn_factor. cbn. do 2 f_equal; [lra|]. f_equal. lra.
Qed.

(** C47. iso_probabilistic_grid(n): n+1 points, the ends of the support and the k/n quantiles; discretize_support:
    a probability distribution, P(X in the cell of x_i) with cells bounded by the midpoints *)
Theorem c47_iso_grid : forall icdf xmin xmax n, (1 <= n)%nat ->
  length (iso_grid icdf xmin xmax n) = S n /\ nth 0 (iso_grid icdf xmin xmax n) 0 = xmin /\
  nth n (iso_grid icdf xmin xmax n) 0 = xmax /\
  forall k, (0 < k < n)%nat -> nth k (iso_grid icdf xmin xmax n) 0 = icdf (INR k / INR n).
Proof. exact iso_grid_ok. Qed.
Print Assumptions c47_iso_grid.
Theorem c47_iso_grid_equal_mass : forall cdf icdf xmin xmax n k, (1 <= n)%nat -> cdf xmin = 0 -> cdf xmax = 1 ->
  (forall p, 0 < p < 1 -> cdf (icdf p) = p) -> (k < n)%nat ->
  cdf (nth (S k) (iso_grid icdf xmin xmax n) 0) - cdf (nth k (iso_grid icdf xmin xmax n) 0) = 1 / INR n.
Proof.
  intros cdf icdf xmin xmax n k Hn C0 C1 CI Hk. destruct (iso_grid_ok icdf xmin xmax n Hn) as [_ [G0 [G1 G]]].
  assert (Hn0 : 0 < INR n) by (apply lt_0_INR; lia).
  assert (E : forall j, (j <= n)%nat -> cdf (nth j (iso_grid icdf xmin xmax n) 0) = INR j / INR n).
  { intros j Hj. destruct (Nat.eq_dec j 0) as [->|J0]; [rewrite G0, C0; cbn; field; lra|].
    destruct (Nat.eq_dec j n) as [->|J1]; [rewrite G1, C1; field; lra|]. rewrite G by lia. apply CI.
    assert (0 < INR j) by (apply lt_0_INR; lia). assert (INR j < INR n) by (apply lt_INR; lia).
    split; [apply Rdiv_lt_0_compat; lra|]. apply (Rmult_lt_reg_r (INR n)); auto. unfold Rdiv. rewrite Rmult_assoc, Rinv_l; lra. }
  rewrite !E by lia. rewrite S_INR. field. lra.
Qed.
Print Assumptions c47_iso_grid_equal_mass.
Theorem c47_discretize_support : forall (cdf : ext -> R) x, x <> [] -> nondecreasing x -> cdf MInf = 0 -> cdf PInf = 1 ->
  (forall y, 0 <= cdf (Fin y) <= 1) -> (forall y z, y <= z -> cdf (Fin y) <= cdf (Fin z)) ->
  exists probs, discretize_support cdf x = Some {| dvals := x; dprobs := probs |} /\ is_distribution probs /\
    length probs = length x /\
    forall i, (i < length x)%nat -> nth i probs 0 =
      cdf (if (S i =? length x)%nat then PInf else Fin ((nth i x 0 + nth (S i) x 0) / 2)) -
      cdf (match i with O => MInf | S j => Fin ((nth j x 0 + nth i x 0) / 2) end).
Proof. exact discretize_support_ok. Qed.
Print Assumptions c47_discretize_support.
Example c47_ex : exists cdf : ext -> R, cdf MInf = 0 /\ cdf PInf = 1 /\ (forall y, 0 <= cdf (Fin y) <= 1) /\
  (forall y z, y <= z -> cdf (Fin y) <= cdf (Fin z)) /\ nondecreasing [0; 1].
Proof.
  exists (fun e => match e with MInf => 0 | PInf => 1 | Fin y => if Rle_dec 0 y then 1 else 0 end).
  repeat split; try lra; try (destruct (Rle_dec 0 y); lra); try (repeat constructor; lra).
  intros y z H. destruct (Rle_dec 0 y), (Rle_dec 0 z); lra.
Qed.

(** C48. random vectors with the independent copula: cdf is the product of the marginals, transfer is
    componentwise Y_k.icdf(X_k.cdf(x_k)), and transferring there and back is the identity *)
Theorem c48_cdf : forall cdfs x, length x = length cdfs ->
  rvec_cdf cdfs x = lprod (seq 0 (length x)) (fun k => nth k cdfs (fun z => z) (nth k x 0)).
Proof. exact rvec_cdf_ok. Qed.
Print Assumptions c48_cdf.
Theorem c48_transfer : forall cdfX icdfY x, length cdfX = length icdfY -> length x = length cdfX ->
  exists y, rvec_transfer cdfX icdfY x = Some y /\ length y = length x /\
    forall k, (k < length x)%nat -> nth k y 0 = nth k icdfY (fun z => z) (nth k cdfX (fun z => z) (nth k x 0)).
Proof. exact rvec_transfer_ok. Qed.
Print Assumptions c48_transfer.
Theorem c48_transfer_inverse : forall cdfX icdfX cdfY icdfY x y,
  length cdfX = length x -> length icdfX = length x -> length cdfY = length x -> length icdfY = length x ->
  (forall k, (k < length x)%nat -> let p := nth k cdfX (fun z => z) (nth k x 0) in
     nth k cdfY (fun z => z) (nth k icdfY (fun z => z) p) = p /\ nth k icdfX (fun z => z) p = nth k x 0) ->
  rvec_transfer cdfX icdfY x = Some y -> rvec_transfer cdfY icdfX y = Some x.
Proof.
  intros cdfX icdfX cdfY icdfY x y L1 L2 L3 L4 H E.
  destruct (rvec_transfer_ok cdfX icdfY x) as [y' [E' [Ly Ny]]]; try congruence. rewrite E' in E. injection E as <-.
  destruct (rvec_transfer_ok cdfY icdfX y') as [x' [Ex [Lx Nx]]]; try congruence. rewrite Ex. f_equal.
  apply (nth_ext _ _ 0 0); [congruence|]. intros k Hk. rewrite Nx, Ny by lia. destruct (H k ltac:(lia)) as [H1 H2].
  cbv zeta in H1, H2. rewrite H1, H2. auto.
Qed.
Print Assumptions c48_transfer_inverse.
Example c48_ex : rvec_transfer [fun z => z; fun z => z / 2] [fun z => z; fun z => 3 * z] [1/2; 1] = Some [1/2; 3 * (1 / 2)].
Proof. reflexivity. Qed.

(** C49. the composite Gauss-Legendre rule on increasing knots is exact for the polynomials of degree at most
    2 n_k - 1 for every cell k *)
Theorem c49_composite : forall knots ns coef v lam V, nondecreasing knots -> NoDup knots -> (2 <= length knots)%nat ->
  (forall k, (S k < length knots)%nat -> (1 <= nth k ns 0)%nat /\ (length coef <= 2 * nth k ns 0)%nat) ->
  (forall n, (1 <= n)%nat -> eig_contract n (jacobi legendre_a legendre_b) (lam n) (V n)) ->
  let LG := fun s t n => (map (gauss_point ((s + t) / 2) ((t - s) / 2) (lam n)) (seq 0 n),
                          map (fun w => w * (t - s)) (map (gauss_weight n (V n)) (seq 0 n))) in
  integral_is (nth 0 knots 0) (last knots 0) (monomial_value coef) v ->
  integrate (fst (gauss_composite LG knots ns)) (snd (gauss_composite LG knots ns)) (monomial_value coef) = v.
Proof. exact composite_gauss. Qed.
Print Assumptions c49_composite.
