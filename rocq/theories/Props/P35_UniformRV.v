(** Property C72: uniform random variables (functions/measures/uniform_random_variable.py): distribution function, quantile
    function, density, moments, shift, transfer and random draws.  The integrals are Riemann integrals (Coquelicot's is_RInt). *)
From Coq Require Import Reals Lra.
From Coquelicot Require Import Coquelicot.
From Verif.Model Require Import UniformRV.
Local Open Scope R_scope.

Definition proper (X : urv) : Prop := u_inf X < u_sup X.
Definition in_support (X : urv) (x : R) : Prop := u_inf X <= x <= u_sup X.

Lemma cdf_val X x : proper X -> in_support X x -> u_cdf X x = Some ((x - u_inf X) / (u_sup X - u_inf X)).
Proof.
  unfold proper, in_support. destruct X as [a b]; cbn. intros H [H1 H2]. unfold u_cdf, sp_cdf; cbn. destruct (Rlt_dec 0 (b - a)) as [_|N]; [|lra]. f_equal.
  destruct (Rle_dec x a); [replace x with a by lra; field; lra|]. destruct (Rle_dec (a + (b - a)) x); [replace x with b by lra; field; lra|reflexivity].
Qed.
Lemma icdf_val X q : proper X -> 0 <= q <= 1 -> u_icdf X q = Some (u_inf X + q * (u_sup X - u_inf X)).
Proof.
  unfold proper. destruct X as [a b]; cbn. intros H [H1 H2]. unfold u_icdf, sp_ppf; cbn. destruct (Rlt_dec 0 (b - a)) as [_|N]; [|lra].
  destruct (Rle_dec 0 q); [|lra]. destruct (Rle_dec q 1); [reflexivity|lra].
Qed.
Lemma quot01 a b x : a < b -> a <= x <= b -> 0 <= (x - a) / (b - a) <= 1.
Proof.
  intros H [H1 H2]. split.
  - apply Rmult_le_pos; [lra|]. left. apply Rinv_0_lt_compat. lra.
  - apply (Rmult_le_reg_r (b - a)); [lra|]. unfold Rdiv. rewrite Rmult_assoc, Rinv_l by lra. lra.
Qed.

(** pdf is a density with the support of X, and cdf is its integral *)
Theorem c72_density : forall X, proper X -> exists f : R -> R, (forall x, u_pdf X x = Some (f x)) /\
  (forall x, 0 <= f x) /\ (forall x, ~ in_support X x -> f x = 0) /\
  (forall x, in_support X x -> exists F, u_cdf X x = Some F /\ is_RInt f (u_inf X) x F) /\
  (forall x, x < u_inf X -> u_cdf X x = Some 0) /\ (forall x, u_sup X < x -> u_cdf X x = Some 1).
Proof.
  intros X HX. unfold proper in HX. pose proof (cdf_val X) as HC. unfold in_support in *. destruct X as [a b]; cbn in *.
  assert (Hi : 0 < / (b - a)) by (apply Rinv_0_lt_compat; lra).
  exists (fun x => if Rle_dec a x then if Rle_dec x (a + (b - a)) then 1 / (b - a) else 0 else 0). split; [|split; [|split; [|split; [|split]]]].
  - intros x. unfold u_pdf, sp_pdf; cbn. destruct (Rlt_dec 0 (b - a)); [reflexivity|lra].
  - intros x. destruct (Rle_dec a x); [|lra]. destruct (Rle_dec x (a + (b - a))); [|lra]. unfold Rdiv. lra.
  - intros x Hx. destruct (Rle_dec a x); [|reflexivity]. destruct (Rle_dec x (a + (b - a))); [|reflexivity]. exfalso. apply Hx. lra.
  - intros x Hx. eexists. split; [apply HC; [exact HX|exact Hx]|].
    apply (is_RInt_ext (fun _ => 1 / (b - a))).
    + intros y Hy. rewrite Rmin_left, Rmax_right in Hy by lra. destruct (Rle_dec a y); [|lra]. destruct (Rle_dec y (a + (b - a))); [reflexivity|lra].
    + pose proof (@is_RInt_const R_NormedModule a x (1 / (b - a))) as HK. replace ((x - a) / (b - a)) with ((x - a) * (1 / (b - a))) by (field; lra). exact HK.
  - intros x Hx. unfold u_cdf, sp_cdf; cbn. destruct (Rlt_dec 0 (b - a)); [|lra]. destruct (Rle_dec x a); [reflexivity|lra].
  - intros x Hx. unfold u_cdf, sp_cdf; cbn. destruct (Rlt_dec 0 (b - a)); [|lra]. destruct (Rle_dec x a); [lra|]. destruct (Rle_dec (a + (b - a)) x); [reflexivity|lra].
Qed.
Print Assumptions c72_density.
(** mean, variance and std are those of the density *)
Theorem c72_moments : forall X (f : R -> R), proper X -> (forall x, u_pdf X x = Some (f x)) ->
  is_RInt (fun x => x * f x) (u_inf X) (u_sup X) (u_mean X) /\
  is_RInt (fun x => (x - u_mean X) * (x - u_mean X) * f x) (u_inf X) (u_sup X) (u_variance X) /\
  0 <= u_std X /\ u_std X * u_std X = u_variance X.
Proof.
  intros X f HX Hf. unfold proper in HX. destruct X as [a b]; cbn in *. unfold u_std, u_variance, u_mean in *; cbn [u_inf u_sup] in *. set (m := (a + b) / 2).
  assert (Hv : forall y, a < y < b -> f y = 1 / (b - a)).
  { intros y Hy. specialize (Hf y). unfold u_pdf, sp_pdf in Hf; cbn in Hf. destruct (Rlt_dec 0 (b - a)); [|lra]. destruct (Rle_dec a y); [|lra]. destruct (Rle_dec y (a + (b - a))); [|lra]. congruence. }
  assert (Hp : 0 <= (b - a) ^ 2 / 12) by (pose proof (pow2_ge_0 (b - a)); lra).
  split; [|split; [|split]].
  - apply (is_RInt_ext (fun x => x * (1 / (b - a)))).
    + intros y Hy. rewrite Rmin_left, Rmax_right in Hy by lra. rewrite Hv by lra. reflexivity.
    + replace m with (minus ((fun x => x ^ 2 / 2 / (b - a)) b) ((fun x => x ^ 2 / 2 / (b - a)) a)) by (unfold minus, plus, opp, m; cbn; field; lra).
      apply (is_RInt_derive (fun x => x ^ 2 / 2 / (b - a))).
      * intros x _. auto_derive; [lra|]. field. lra.
      * intros x _. apply (ex_derive_continuous (fun x => x * (1 / (b - a)))). auto_derive. lra.
  - apply (is_RInt_ext (fun x => (x - m) * (x - m) * (1 / (b - a)))).
    + intros y Hy. rewrite Rmin_left, Rmax_right in Hy by lra. rewrite Hv by lra. reflexivity.
    + replace ((b - a) ^ 2 / 12) with (minus ((fun x => (x - m) ^ 3 / 3 / (b - a)) b) ((fun x => (x - m) ^ 3 / 3 / (b - a)) a)) by (unfold minus, plus, opp, m; cbn; field; lra).
      apply (is_RInt_derive (fun x => (x - m) ^ 3 / 3 / (b - a))).
      * intros x _. auto_derive; [lra|]. field. lra.
      * intros x _. apply (ex_derive_continuous (fun x => (x - m) * (x - m) * (1 / (b - a)))). auto_derive. lra.
  - apply sqrt_pos.
  - apply sqrt_sqrt. exact Hp.
Qed.
Print Assumptions c72_moments.
(** icdf is the inverse of cdf: from [0, 1] to the support and back *)
Theorem c72_inverse : forall X, proper X ->
  (forall q, 0 <= q <= 1 -> exists x, u_icdf X q = Some x /\ in_support X x /\ u_cdf X x = Some q) /\
  (forall x, in_support X x -> exists q, u_cdf X x = Some q /\ 0 <= q <= 1 /\ u_icdf X q = Some x).
Proof.
  intros X HX. pose proof (icdf_val X) as HI. pose proof (cdf_val X) as HC. unfold proper, in_support in *. destruct X as [a b]; cbn in *. split.
  - intros q Hq. assert (S1 : a <= a + q * (b - a) <= b) by (split; nra). eexists. split; [apply HI; auto|]. split; [exact S1|]. rewrite HC by auto. f_equal. field. lra.
  - intros x Hx. pose proof (quot01 a b x HX Hx). eexists. split; [apply HC; auto|]. split; [auto|]. rewrite HI by auto. f_equal. field. lra.
Qed.
Print Assumptions c72_inverse.
(** shift(bias, scaling) is, for scaling > 0, the law of bias + scaling X *)
Theorem c72_shift_partial : forall X bias scaling, proper X -> 0 < scaling ->
  let Y := u_shift X bias scaling in proper Y /\
  (forall x, u_cdf Y (bias + scaling * x) = u_cdf X x) /\
  u_mean Y = bias + scaling * u_mean X /\ u_variance Y = scaling ^ 2 * u_variance X.
Proof.
  intros [a b] c s H Hs Y. unfold proper in *; cbn in *. assert (HP : s * a + c < s * b + c) by nra. split; [exact HP|]. split; [|split].
  - intros x. unfold u_cdf, sp_cdf; cbn. destruct (Rlt_dec 0 (b - a)); [|lra]. destruct (Rlt_dec 0 (s * b + c - (s * a + c))); [|lra]. f_equal.
    destruct (Rle_dec x a) as [L|L]; destruct (Rle_dec (c + s * x) (s * a + c)) as [L2|L2]; try reflexivity; try (exfalso; nra).
    destruct (Rle_dec (a + (b - a)) x) as [M|M]; destruct (Rle_dec (s * a + c + (s * b + c - (s * a + c))) (c + s * x)) as [M2|M2]; try reflexivity; try (exfalso; nra).
    field. nra.
  - unfold u_mean; cbn. field.
  - unfold u_variance; cbn. field.
Qed.
Print Assumptions c72_shift_partial.
(** ... but for scaling < 0 the bounds are exchanged: cdf returns nan everywhere, and icdf too *)
Theorem c72_shift_refuted : forall X bias scaling, proper X -> scaling < 0 ->
  forall x, u_cdf (u_shift X bias scaling) x = None /\ u_icdf (u_shift X bias scaling) x = None.
Proof.
  intros [a b] c s H Hs x. unfold proper in *; cbn in *. unfold u_cdf, u_icdf, sp_cdf, sp_ppf; cbn. destruct (Rlt_dec 0 (s * b + c - (s * a + c))); [nra|]. split; reflexivity.
Qed.
Print Assumptions c72_shift_refuted.
(** transfer from X to Y: the increasing affine map of the support of X onto that of Y; it transports the law, and the
    transfer from Y to X is its inverse.  From the standard variable it is the map t -> shift + scaling t used for the
    orthonormal polynomials. *)
Theorem c72_transfer : forall X Y, proper X -> proper Y -> forall x, in_support X x -> exists y,
  u_transfer X Y x = Some y /\ in_support Y y /\ u_cdf Y y = u_cdf X x /\ u_transfer Y X y = Some x /\
  (y - u_inf Y) * (u_sup X - u_inf X) = (x - u_inf X) * (u_sup Y - u_inf Y).
Proof.
  intros [a b] [c d] PX PY x Hx. pose proof PX as HX. pose proof PY as HY. unfold proper in HX, HY; cbn [u_inf u_sup] in *. pose proof (quot01 a b x HX Hx) as Hq. unfold u_transfer. rewrite (cdf_val _ x PX Hx). cbn [u_inf u_sup].
  rewrite (icdf_val _ _ PY Hq). cbn [u_inf u_sup]. set (q := (x - a) / (b - a)) in *. exists (c + q * (d - c)).
  assert (Sy : c <= c + q * (d - c) <= d) by (split; nra). split; [reflexivity|]. split; [exact Sy|].
  assert (EC : u_cdf (URV c d) (c + q * (d - c)) = Some q) by (rewrite cdf_val; [|exact PY|exact Sy]; cbn; f_equal; field; lra).
  rewrite EC. split; [reflexivity|]. split.
  - rewrite (icdf_val _ _ PX Hq). cbn [u_inf u_sup]. f_equal. unfold q. field. lra.
  - unfold q. field. lra.
Qed.
Print Assumptions c72_transfer.
Theorem c72_polynomials_domain : forall X, proper X -> forall t, -1 <= t <= 1 ->
  u_transfer u_standard X t = Some (fst (u_poly_shift X) + snd (u_poly_shift X) * t).
Proof.
  intros X HX t Ht. assert (HS : proper u_standard) by (unfold proper; cbn; lra). unfold u_transfer. rewrite (cdf_val u_standard t HS Ht). cbn [u_standard u_inf u_sup].
  rewrite (icdf_val X _ HX) by (apply (quot01 (-1) 1); [lra|exact Ht]). f_equal. destruct X as [a b]; cbn. field.
Qed.
Print Assumptions c72_polynomials_domain.
(** random: the image by the quantile function of the number drawn in [0, 1) *)
Theorem c72_random : forall X r, proper X -> 0 <= r < 1 -> in_support X (u_random X r) /\ u_icdf X r = Some (u_random X r) /\ u_cdf X (u_random X r) = Some r.
Proof.
  intros [a b] r HX Hr. unfold proper in *; cbn in *. assert (S1 : in_support (URV a b) (u_random (URV a b) r)) by (unfold in_support, u_random; cbn; split; nra).
  split; [exact S1|]. split.
  - rewrite icdf_val by (try exact HX; lra). cbn. f_equal. unfold u_random; cbn. ring.
  - rewrite cdf_val by (try exact HX; exact S1). cbn. f_equal. unfold u_random; cbn. field. lra.
Qed.
Print Assumptions c72_random.

(** example: the uniform random variable on [2, 6], of mean 4 and variance 4/3 *)
Example c72_ex : proper (URV 2 6) /\ u_mean (URV 2 6) = 4 /\ u_variance (URV 2 6) = 4 / 3 /\ u_transfer u_standard (URV 2 6) 0 = Some 4.
Proof.
  split; [unfold proper; cbn; lra|]. split; [unfold u_mean; cbn; lra|]. split; [unfold u_variance; cbn; lra|].
  rewrite c72_polynomials_domain by (unfold proper; cbn; lra). cbn. f_equal. lra.
Qed.
