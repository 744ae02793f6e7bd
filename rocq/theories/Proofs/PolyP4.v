(** Orthonormality of the Hermite, Legendre and discrete polynomials. *)
From Coq Require Import List Arith Reals Bool Lia Lra Factorial.
From Verif.Base Require Import ListAux CRing RealAux Poly.
From Verif.Model Require Import Polynomials.
From Verif.Spec Require Import PolySpec.
From Verif.Proofs Require Import PolyP PolyP2 PolyP3.
Import ListNotations.
Local Open Scope R_scope.

Definition qprod (a b : nat -> R) (mass : R) (i j : nat) : list R :=
  pscal (/ (cprod b i * cprod b j * mass)) (pmul (monic a b i) (monic a b j)).

Lemma qprod_eval a b mass i j x N : (forall k, (1 <= k <= N)%nat -> 0 < b k) -> (i <= N)%nat -> (j <= N)%nat -> 0 < mass ->
  peval (qprod a b mass i j) x = pval a b i x / sqrt mass * (pval a b j x / sqrt mass).
Proof.
  intros Hb Hi Hj Hm. unfold qprod. rewrite peval_pscal, peval_pmul.
  rewrite !pval_monic by (intros; apply Hb; lia).
  assert (0 < cprod b i) by (apply cprod_pos; intros; apply Hb; lia).
  assert (0 < cprod b j) by (apply cprod_pos; intros; apply Hb; lia).
  pose proof (sqrt_lt_R0 _ Hm). rewrite <- (sqrt_sqrt mass) at 1 by lra. field. lra.
Qed.

Lemma orthonormal_of L (HL : functional L) a b N mass i j :
  orth_upto L a b N ->
  (forall n, (n <= N)%nat -> forall m, n = S m -> ip L (monic a b n) (monic a b n) = b n * ip L (monic a b m) (monic a b m)) ->
  (forall k, (1 <= k <= N)%nat -> 0 < b k) -> mass = L [1] -> 0 < mass -> (i <= N)%nat -> (j <= N)%nat ->
  L (qprod a b mass i j) = kron_delta i j.
Proof.
  intros HO HN Hb Em Hm Hi Hj. unfold qprod. rewrite (L_scal L HL). fold (ip L (monic a b i) (monic a b j)).
  assert (0 < cprod b i) by (apply cprod_pos; intros; apply Hb; lia).
  assert (0 < cprod b j) by (apply cprod_pos; intros; apply Hb; lia).
  unfold kron_delta. destruct (Nat.eqb_spec i j) as [-> |Hij].
  - rewrite (norm_prod L HL a b N) by auto. rewrite <- Em. field. lra.
  - rewrite HO by auto. ring.
Qed.

Lemma moment_orthonormal m a b N i j : orth_upto (Lm m) a b N ->
  (forall n, (n <= N)%nat -> forall k, n = S k -> ip (Lm m) (monic a b n) (monic a b n) = b n * ip (Lm m) (monic a b k) (monic a b k)) ->
  (forall k, (1 <= k <= N)%nat -> 0 < b k) -> m 0%nat = 1 -> (i <= N)%nat -> (j <= N)%nat ->
  moment_is m (fun x => nth 0 (polyval a b 1 [i] x) 0 * nth 0 (polyval a b 1 [j] x) 0) (kron_delta i j).
Proof.
  intros HO HN Hb H0 Hi Hj.
  rewrite <- (orthonormal_of (Lm m) (Lm_functional m) a b N 1 i j); auto; try lra; [|cbn; lra].
  apply moment_is_Lm. intros x. rewrite !polyval_eq. cbn [map nth]. symmetry. apply (qprod_eval a b 1 i j x N); auto. lra.
Qed.

Lemma hermite_orthonormal i j : 
  moment_is gauss_moment (fun x => nth 0 (polyval hermite_a hermite_b 1 [i] x) 0 * nth 0 (polyval hermite_a hermite_b 1 [j] x) 0) (kron_delta i j).
Proof.
  destruct (hermite_orth (Nat.max i j)) as [H1 H2]. apply (moment_orthonormal _ _ _ (Nat.max i j)); auto; try lia; try reflexivity.
  intros k Hk. unfold hermite_b. apply lt_0_INR. lia.
Qed.

Lemma legendre_orthonormal i j : 
  moment_is unif_moment (fun x => nth 0 (polyval legendre_a legendre_b 1 [i] x) 0 * nth 0 (polyval legendre_a legendre_b 1 [j] x) 0) (kron_delta i j).
Proof.
  destruct (legendre_orth (Nat.max i j)) as [H1 H2]. apply (moment_orthonormal _ _ _ (Nat.max i j)); auto; try lia.
  - intros k Hk. apply legendre_b_pos. lia.
  - unfold unif_moment. cbn. lra.
Qed.

(** norms of the monic polynomials *)
Lemma hermite_norm_ok n : moment_is gauss_moment (fun x => peval (monic hermite_a hermite_b n) x ^ 2) (hermite_norm n ^ 2).
Proof.
  destruct (hermite_orth n) as [_ H2].
  assert (E : ip (Lm gauss_moment) (monic hermite_a hermite_b n) (monic hermite_a hermite_b n) = hermite_norm n ^ 2).
  { unfold hermite_norm. cbn [pow]. rewrite Rmult_1_r, sqrt_sqrt by apply pos_INR.
    induction n as [|n IH]; [cbn; lra|]. rewrite (H2 (S n) ltac:(lia) n eq_refl), IH.
    - unfold hermite_b. rewrite <- mult_INR. f_equal.
    - intros k Hk. apply H2. lia. }
  rewrite <- E. apply moment_is_Lm. intros x. rewrite peval_pmul. cbn. ring.
Qed.

Lemma legendre_norm_ok n : moment_is unif_moment (fun x => peval (monic legendre_a legendre_b n) x ^ 2) (legendre_norm n ^ 2).
Proof.
  destruct (legendre_orth n) as [_ H2].
  assert (E : ip (Lm unif_moment) (monic legendre_a legendre_b n) (monic legendre_a legendre_b n) = legendre_norm n ^ 2).
  { assert (EN : forall n, legendre_norm n ^ 2 = 1 / (2 * INR n + 1) * (2 ^ n * INR (fact n) ^ 2 / INR (fact (2 * n))) ^ 2).
    { intros k. unfold legendre_norm. pose proof (pos_INR k). assert (0 < 1 / (2 * INR k + 1)) by (apply Rdiv_lt_0_compat; lra).
      rewrite <- (sqrt_sqrt (1 / (2 * INR k + 1))) at 2 by lra. unfold Rdiv. ring. }
    rewrite EN.
    induction n as [|n IH].
    - cbn. unfold unif_moment. cbn. field.
    - rewrite (H2 (S n) ltac:(lia) n eq_refl), IH by (intros k Hk; apply H2; lia).
      unfold legendre_b.
      assert (F1 : INR (fact (S n)) = INR (S n) * INR (fact n)) by (rewrite <- mult_INR; f_equal).
      assert (F2 : INR (fact (2 * S n)) = INR (2 * S n) * INR (2 * n + 1) * INR (fact (2 * n))).
      { rewrite <- !mult_INR. f_equal. replace (2 * S n)%nat with (S (S (2 * n))) by lia.
        cbn [fact]. fold (fact (2 * n)). replace (2 * n + 1)%nat with (S (2 * n)) by lia. ring. }
      rewrite F1, F2. pose proof (INR_fact_neq_0 n). pose proof (INR_fact_neq_0 (2 * n)). pose proof (pos_INR n).
      rewrite !plus_INR, !mult_INR, (S_INR n). change (INR 2) with 2. change (INR 1) with 1. cbn [pow].
      field. repeat split; nra. }
  rewrite <- E. apply moment_is_Lm. intros x. rewrite peval_pmul. cbn. ring.
Qed.

(** moments of the uniform distribution are integrals *)
Fixpoint pantid_from (k : nat) (p : list R) : list R :=
  match p with [] => [] | c :: p' => c / INR k :: pantid_from (S k) p' end.
Definition pantid (p : list R) : list R := 0 :: pantid_from 1 p.
Lemma pantid_deriv p : forall k, (1 <= k)%nat -> pderiv_from k (pantid_from k p) = p.
Proof.
  induction p as [|c p IH]; intros k Hk; auto. cbn. rewrite IH by lia. f_equal. field. apply not_0_INR. lia.
Qed.
Lemma unif_moment_int p : peval (pantid p) 1 - peval (pantid p) (-1) = 2 * Lm unif_moment p.
Proof.
  unfold pantid. cbn [peval].
  assert (F : forall p k m, (1 <= k)%nat -> (forall j, m j = unif_moment (k - 1 + j)%nat) ->
    peval (pantid_from k p) 1 - (if Nat.even k then -1 else 1) * peval (pantid_from k p) (-1) * -1 * (if Nat.even k then 1 else 1) = 2 * Lm m p).
  { clear. induction p as [|c p IH]; intros k m Hk Hm; [cbn; destruct (Nat.even k); lra|].
    specialize (IH (S k) (fun j => m (S j)) ltac:(lia)).
    cbn [pantid_from peval Lm]. 
    assert (Hm' : forall j, m (S j) = unif_moment (S k - 1 + j)%nat) by (intros j; rewrite Hm; f_equal; lia).
    specialize (IH Hm'). rewrite Nat.even_succ in IH. rewrite <- Nat.negb_even in IH.
    rewrite (Hm 0%nat). unfold unif_moment. replace (k - 1 + 0)%nat with (pred k) by lia.
    replace (Nat.even (pred k)) with (negb (Nat.even k)).
    2:{ destruct k; [lia|]. cbn [pred]. rewrite Nat.even_succ, <- Nat.negb_even, negb_involutive. auto. }
    replace (pred k + 1)%nat with k by lia.
    assert (INR k <> 0) by (apply not_0_INR; lia).
    destruct (Nat.even k); cbn [negb] in *; rewrite <- Rplus_0_l; unfold Rdiv in *; lra. }
  specialize (F p 1%nat unif_moment ltac:(lia) (fun j => eq_refl)). cbn [Nat.even] in F. lra.
Qed.

Lemma moment_integral f v : moment_is unif_moment f v -> integral_is (-1) 1 f (2 * v).
Proof.
  intros [p [Hf ->]]. exists (peval (pantid p)). split.
  - intros x. rewrite Hf, monomial_value_peval. replace (peval p x) with (peval (pderiv (pantid p)) x); [apply peval_deriv|].
    unfold pderiv, pantid. cbn [tl]. rewrite pantid_deriv by lia. auto.
  - rewrite <- Lm_rsum. symmetry. apply unif_moment_int.
Qed.

Lemma deriv_zero_const F : (forall x, derivable_pt_lim F x 0) -> forall x y, F x = F y.
Proof.
  intros H x y. assert (D : derivable F) by (intros z; exists 0; apply H).
  apply (null_derivative_1 F D). intros z. apply (derive_pt_eq_0 F z 0 (D z)). apply H.
Qed.

Lemma integral_unique s t f v w : integral_is s t f v -> integral_is s t f w -> v = w.
Proof.
  intros [F [HF ->]] [G [HG ->]].
  assert (D : forall x, derivable_pt_lim (F - G)%F x 0).
  { intros x. replace 0 with (f x - f x) by ring. apply derivable_pt_lim_minus; auto. }
  pose proof (deriv_zero_const _ D t s) as H. unfold minus_fct in H. lra.
Qed.

Lemma integral_scal s t c f v : integral_is s t f v -> integral_is s t (fun x => c * f x) (c * v).
Proof.
  intros [F [HF ->]]. exists (mult_real_fct c F). split; [intros x; apply derivable_pt_lim_scal; auto|unfold mult_real_fct; ring].
Qed.
Lemma integral_ext s t f g v : (forall x, f x = g x) -> integral_is s t f v -> integral_is s t g v.
Proof. intros H [F [HF ->]]. exists F. split; auto. intros x. rewrite <- H. auto. Qed.
Lemma integral_shift sh sc s t f v : sc <> 0 -> integral_is s t f v ->
  integral_is (sh + sc * s) (sh + sc * t) (fun x => f ((x - sh) / sc)) (sc * v).
Proof.
  intros Hs [F [HF ->]]. exists (fun x => sc * F ((x - sh) / sc)). split.
  - intros x. replace (f ((x - sh) / sc)) with (sc * (f ((x - sh) / sc) / sc)) by (field; auto).
    apply (derivable_pt_lim_scal (fun x => F ((x - sh) / sc))). apply derivable_shift; auto.
  - replace ((sh + sc * t - sh) / sc) with t by (field; auto). replace ((sh + sc * s - sh) / sc) with s by (field; auto). ring.
Qed.

(** orthonormality of the (shifted) Legendre polynomials for the uniform distribution on [s, t] *)
Lemma legendre_uniform s t i j : s < t ->
  integral_is s t (fun x => nth 0 (shifted_polyval legendre_a legendre_b 1 ((s + t) / 2) ((t - s) / 2) [i] x) 0
    * nth 0 (shifted_polyval legendre_a legendre_b 1 ((s + t) / 2) ((t - s) / 2) [j] x) 0 / (t - s)) (kron_delta i j).
Proof.
  intros Hst. pose proof (moment_integral _ _ (legendre_orthonormal i j)) as H.
  apply (integral_shift ((s + t) / 2) ((t - s) / 2)) in H; [|lra].
  replace ((s + t) / 2 + (t - s) / 2 * -1) with s in H by field. replace ((s + t) / 2 + (t - s) / 2 * 1) with t in H by field.
  apply (integral_scal _ _ (/ (t - s))) in H.
  replace (/ (t - s) * ((t - s) / 2 * (2 * kron_delta i j))) with (kron_delta i j) in H by (field; lra).
  revert H. apply integral_ext. intros x. unfold shifted_polyval. set (u := (x - (s + t) / 2) / ((t - s) / 2)). unfold Rdiv. ring.
Qed.

(** the Lebesgue version on [-1, 1] *)
Lemma legendre_lebesgue i j : integral_is (-1) 1
  (fun x => nth 0 (polyval legendre_a legendre_b 2 [i] x) 0 * nth 0 (polyval legendre_a legendre_b 2 [j] x) 0) (kron_delta i j).
Proof.
  pose proof (moment_integral _ _ (legendre_orthonormal i j)) as H. apply (integral_scal _ _ (/ 2)) in H.
  replace (/ 2 * (2 * kron_delta i j)) with (kron_delta i j) in H by field.
  revert H. apply integral_ext. intros x. rewrite !polyval_eq. cbn [map nth]. rewrite sqrt_1.
  assert (0 < sqrt 2) by (apply sqrt_lt_R0; lra). rewrite <- (sqrt_sqrt 2) at 1 by lra. field. lra.
Qed.

(** on another interval the Lebesgue polynomials have norm (t - s) / 2 instead of 1 *)
Lemma legendre_lebesgue_shifted s t i j : s < t -> integral_is s t
  (fun x => nth 0 (shifted_polyval legendre_a legendre_b 2 ((s + t) / 2) ((t - s) / 2) [i] x) 0
    * nth 0 (shifted_polyval legendre_a legendre_b 2 ((s + t) / 2) ((t - s) / 2) [j] x) 0) ((t - s) / 2 * kron_delta i j).
Proof.
  intros Hst. pose proof (legendre_lebesgue i j) as H. apply (integral_shift ((s + t) / 2) ((t - s) / 2)) in H; [|lra].
  replace ((s + t) / 2 + (t - s) / 2 * -1) with s in H by field. replace ((s + t) / 2 + (t - s) / 2 * 1) with t in H by field.
  exact H.
Qed.

(** ** Discrete measures *)
Lemma monic_ext a b a' b' n : (forall k, (k < n)%nat -> a k = a' k) -> (forall k, (1 <= k < n)%nat -> b k = b' k) -> monic a b n = monic a' b' n.
Proof.
  enough (H : forall n, ((forall k, (k < n)%nat -> a k = a' k) -> (forall k, (1 <= k < n)%nat -> b k = b' k) -> monic a b n = monic a' b' n) /\
     ((forall k, (k < S n)%nat -> a k = a' k) -> (forall k, (1 <= k < S n)%nat -> b k = b' k) -> monic a b (S n) = monic a' b' (S n))) by apply H.
  clear n. induction n as [|n [IH1 IH2]].
  - split; intros Ha Hb; auto. unfold monic. cbn. rewrite Ha by lia. auto.
  - split; auto. intros Ha Hb. rewrite !monic_SS, IH1, IH2 by (intros; first [apply Ha | apply Hb]; lia). rewrite Ha, Hb by lia. auto.
Qed.

Section Discrete.
Variables xs ws : list R.
Variable n : nat.
Hypothesis Lx : length xs = S n.
Hypothesis Lw : length ws = S n.
Hypothesis NDx : NoDup xs.
Hypothesis Wpos : forall w, In w ws -> 0 < w.

Definition Ld (p : list R) : R := integrate xs ws (peval p).
Lemma Ld_functional : functional Ld.
Proof.
  unfold Ld, integrate. constructor.
  - intros p q H. apply lsum_ext. intros a _. rewrite H. auto.
  - intros p q. rewrite <- lsum_plus_R. apply lsum_ext. intros a _. rewrite peval_padd. ring.
  - intros c p. rewrite <- lsum_scal_l_R. apply lsum_ext. intros a _. rewrite peval_pscal. ring.
Qed.
Definition dotd (f g : R -> R) : R := integrate xs ws (fun x => f x * g x).
Lemma dotd_ip f g p q : (forall x, f x = peval p x) -> (forall x, g x = peval q x) -> dotd f g = ip Ld p q.
Proof.
  intros H1 H2. unfold dotd, ip, Ld, integrate. apply lsum_ext. intros a _. rewrite peval_pmul, H1, H2. auto.
Qed.

Lemma combine_in_l x : In x xs -> exists w, In (x, w) (combine xs ws) /\ 0 < w.
Proof.
  intros H. apply (In_nth _ _ 0) in H. destruct H as [k [Hk <-]].
  exists (nth k ws 0). split.
  - rewrite <- combine_nth by congruence. apply nth_In. rewrite combine_length. lia.
  - apply Wpos. apply nth_In. lia.
Qed.

Lemma ip_pos p : (length p <= S n)%nat -> last p 0 <> 0 -> 0 < ip Ld p p.
Proof.
  intros Hp Hl. unfold ip, Ld, integrate.
  assert (NN : forall a, In a (combine xs ws) -> 0 <= snd a * peval (pmul p p) (fst a)).
  { intros [x w] Ha. apply in_combine_r in Ha. apply Wpos in Ha. cbn [fst snd]. rewrite peval_pmul.
    apply Rmult_le_pos; [lra|]. apply Rle_0_sqr. }
  pose proof (lsum_nonneg _ _ NN) as [H|H]; auto. exfalso. symmetry in H.
  pose proof (lsum_zero_iff _ _ NN H) as Z.
  assert (length xs < length p)%nat; [|lia].
  apply roots_bound; auto. intros r Hr. destruct (combine_in_l r Hr) as [w [Hw Hpos]].
  specialize (Z _ Hw). cbn [fst snd] in Z. rewrite peval_pmul in Z. apply Rmult_integral in Z. destruct Z as [Z|Z]; [lra|].
  apply Rmult_integral in Z. tauto.
Qed.

Lemma nth_last_eq (l : list R) k : length l = S k -> last l 0 = nth k l 0.
Proof.
  revert k. induction l as [|c l IH]; intros k H; [discriminate|]. destruct l as [|c' l].
  - cbn in H. injection H as <-. auto.
  - destruct k as [|k]; [discriminate|]. change (last (c :: c' :: l) 0) with (last (c' :: l) 0). rewrite (IH k); [auto|]. cbn in *. lia.
Qed.

Definition lfun (l : list R) (k : nat) : R := nth k l 0.

Definition dinv (i : nat) (pn pnp1 : R -> R) (a b norms : list R) : Prop :=
  length a = S i /\ length b = S i /\ length norms = S i /\
  (forall x, pn x = peval (monic (lfun a) (lfun b) i) x) /\
  (forall x, pnp1 x = peval (monic (lfun a) (lfun b) (S i)) x) /\
  (forall k, (k <= i)%nat -> nth k norms 0 = ip Ld (monic (lfun a) (lfun b) k) (monic (lfun a) (lfun b) k)) /\
  (forall k, (k <= i)%nat -> ip Ld (0 :: monic (lfun a) (lfun b) k) (monic (lfun a) (lfun b) k) =
       lfun a k * ip Ld (monic (lfun a) (lfun b) k) (monic (lfun a) (lfun b) k)) /\
  (forall k m, (k <= i)%nat -> k = S m -> ip Ld (monic (lfun a) (lfun b) k) (monic (lfun a) (lfun b) k) =
       lfun b k * ip Ld (monic (lfun a) (lfun b) m) (monic (lfun a) (lfun b) m)).

Lemma dinv_orth i pn pnp1 a b norms : dinv i pn pnp1 a b norms -> orth_upto Ld (lfun a) (lfun b) (S i).
Proof.
  intros [_ [_ [_ [_ [_ [_ [HA HB]]]]]]]. apply (orth_all Ld Ld_functional). intros k Hk _. split; [apply HA; lia|].
  intros m Hm. apply HB; auto. lia.
Qed.

Lemma lfun_app l r k : (k < length l)%nat -> lfun (l ++ r) k = lfun l k.
Proof. intros H. unfold lfun. apply app_nth1. auto. Qed.

Lemma monic_app a b ra rb k i : length a = S i -> length b = S i -> (k <= S i)%nat ->
  monic (lfun (a ++ ra)) (lfun (b ++ rb)) k = monic (lfun a) (lfun b) k.
Proof. intros La Lb Hk. apply monic_ext; intros; apply lfun_app; lia. Qed.

Lemma monic_norm_pos a b k : (k <= n)%nat -> 0 < ip Ld (monic a b k) (monic a b k).
Proof.
  intros Hk. apply ip_pos; [rewrite monic_length; lia|].
  rewrite (nth_last_eq (monic a b k) k); [rewrite monic_lead; lra|apply monic_length].
Qed.

Lemma dp_loop_spec fuel i pn pnp1 a b norms : (i <= S n)%nat -> (S (S n) <= fuel + i)%nat -> (i <= n)%nat ->
  dinv i pn pnp1 a b norms ->
  exists a' b' nm', dp_loop fuel i n dotd true pn pnp1 a b norms = (a', b', map sqrt nm') /\
    length a' = S n /\ length b' = S n /\ length nm' = S n /\
    (forall k, (k <= n)%nat -> nth k nm' 0 = ip Ld (monic (lfun a') (lfun b') k) (monic (lfun a') (lfun b') k)) /\
    orth_upto Ld (lfun a') (lfun b') n /\
    (forall k m, (k <= n)%nat -> k = S m -> ip Ld (monic (lfun a') (lfun b') k) (monic (lfun a') (lfun b') k) =
       lfun b' k * ip Ld (monic (lfun a') (lfun b') m) (monic (lfun a') (lfun b') m)).
Proof.
  revert i pn pnp1 a b norms. induction fuel as [|fuel IH]; intros i pn pnp1 a b norms Hi1 Hf Hi HI; [lia|].
  assert (HI' := HI). destruct HI' as [La [Lb [Ln [Hp [Hp1 [HN [HA HB]]]]]]].
  cbn [dp_loop]. destruct (Nat.leb_spec i n) as [_|C]; [|lia]. cbn [andb].
  set (A := lfun a) in *. set (B := lfun b) in *. set (P := monic A B) in *.
  set (ni := dotd pnp1 pnp1).
  assert (Eni : ni = ip Ld (P (S i)) (P (S i))) by (apply dotd_ip; auto).
  destruct (Nat.eq_dec i n) as [En|Hne].
  - (* last iteration: the result is read off *)
    assert (STOP : forall c pn2 pn3 va vb vn fuel', (1 <= fuel')%nat \/ fuel' = 0%nat ->
       dp_loop fuel' (S i) n dotd c pn2 pn3 (a ++ [va]) (b ++ [vb]) (norms ++ [vn]) = (a, b, map sqrt norms)).
    { intros c pn2 pn3 va vb vn fuel' _.
      assert (F : forall (l : list R) v, length l = S i -> firstn (S i) (l ++ [v]) = l).
      { intros l v Hl. rewrite firstn_app, Hl, Nat.sub_diag, firstn_O, app_nil_r. apply firstn_all2. lia. }
      destruct fuel'; cbn [dp_loop]; [rewrite !F by auto; auto|].
      destruct (Nat.leb_spec (S i) n) as [C|_]; [lia|]. rewrite andb_false_r, !F by auto. auto. }
    exists a, b, norms. split.
    + destruct (Req_EM_T ni 0); apply STOP; lia.
    + subst i. repeat split; auto. fold A B. pose proof (dinv_orth _ _ _ _ _ _ HI) as HO.
      intros u v Hu Hv. apply HO; lia.
  - assert (Hpos : 0 < ni) by (rewrite Eni; apply monic_norm_pos; lia).
    destruct (Req_EM_T ni 0) as [C|_]; [lra|].
    set (bi := ni / nth i norms 0). set (ai := dotd pnp1 (fun x => x * pnp1 x) / ni).
    set (p2 := fun x => (x - ai) * pnp1 x - bi * pn x).
    set (A' := lfun (a ++ [ai])). set (B' := lfun (b ++ [bi])).
    assert (HM : forall k, (k <= S i)%nat -> monic A' B' k = P k) by (intros k Hk; apply monic_app with (i := i); auto).
    assert (A'S : A' (S i) = ai) by (unfold A', lfun; rewrite app_nth2, La, Nat.sub_diag by lia; auto).
    assert (B'S : B' (S i) = bi) by (unfold B', lfun; rewrite app_nth2, Lb, Nat.sub_diag by lia; auto).
    assert (Hni : nth i norms 0 = ip Ld (P i) (P i)) by (apply HN; lia).
    assert (Hpi : 0 < ip Ld (P i) (P i)) by (apply monic_norm_pos; lia).
    assert (HI2 : dinv (S i) pnp1 p2 (a ++ [ai]) (b ++ [bi]) (norms ++ [ni])).
    { unfold dinv. fold A' B'. rewrite !app_length, La, Lb, Ln. cbn [length].
      split; [lia|]. split; [lia|]. split; [lia|]. split; [|split; [|split; [|split]]].
      - intros x. rewrite HM by lia. apply Hp1.
      - intros x. rewrite peval_monic_SS, A'S, B'S, !HM by lia. unfold p2. rewrite Hp, Hp1. auto.
      - intros k Hk. rewrite HM by lia. destruct (Nat.eq_dec k (S i)) as [-> |Hn].
        + rewrite app_nth2, Ln, Nat.sub_diag by lia. auto.
        + rewrite app_nth1 by lia. apply HN. lia.
      - intros k Hk. rewrite HM by lia. destruct (Nat.eq_dec k (S i)) as [-> |Hn].
        + rewrite A'S. unfold ai. rewrite (dotd_ip _ _ (P (S i)) (0 :: P (S i))); auto.
          * rewrite (ip_sym Ld Ld_functional (P (S i)) (0 :: _)). rewrite Eni. field. rewrite <- Eni. lra.
          * intros x. cbn [peval]. rewrite Hp1. ring.
        + unfold A'. rewrite lfun_app by lia. apply HA. lia.
      - intros k m Hk Ek. rewrite !HM by lia. destruct (Nat.eq_dec k (S i)) as [-> |Hn].
        + injection Ek as <-. rewrite B'S. unfold bi. rewrite Hni, Eni. field. lra.
        + unfold B'. rewrite lfun_app by lia. apply HB; auto. lia. }
    assert (HO : orth_upto Ld A' B' (S (S i))) by (apply (dinv_orth _ _ _ _ _ _ HI2)).
    assert (D1 : dotd p2 pnp1 = 0).
    { rewrite (dotd_ip _ _ (monic A' B' (S (S i))) (monic A' B' (S i))).
      - apply HO; lia.
      - apply HI2.
      - intros x. rewrite HM by lia. apply Hp1. }
    assert (D2 : dotd p2 pn = 0).
    { rewrite (dotd_ip _ _ (monic A' B' (S (S i))) (monic A' B' i)).
      - apply HO; lia.
      - apply HI2.
      - intros x. rewrite HM by lia. apply Hp. }
    rewrite D1, D2, Rabs_R0. assert (0 < dp_tol) by (unfold dp_tol; lra).
    destruct (Rlt_dec 0 dp_tol) as [_|C]; [|lra].
    apply IH; auto; lia.
Qed.

Lemma discrete_recurrence_spec : exists a' b' nm', discrete_recurrence xs ws n = (a', b', map sqrt nm') /\
    length a' = S n /\ length b' = S n /\ length nm' = S n /\
    (forall k, (k <= n)%nat -> nth k nm' 0 = ip Ld (monic (lfun a') (lfun b') k) (monic (lfun a') (lfun b') k)) /\
    orth_upto Ld (lfun a') (lfun b') n /\
    (forall k m, (k <= n)%nat -> k = S m -> ip Ld (monic (lfun a') (lfun b') k) (monic (lfun a') (lfun b') k) =
       lfun b' k * ip Ld (monic (lfun a') (lfun b') m) (monic (lfun a') (lfun b') m)).
Proof.
  unfold discrete_recurrence. fold dotd. change (fun f g : R -> R => integrate xs ws (fun x : R => f x * g x)) with dotd.
  apply dp_loop_spec; try lia.
  assert (E0 : dotd (fun x => x ^ 0) (fun x => x ^ 0) = ip Ld [1] [1]) by (apply dotd_ip; intros; cbn; ring).
  assert (E1 : dotd (fun x => x ^ 0) (fun x => x) = ip Ld [0; 1] [1]).
  { rewrite (ip_sym Ld Ld_functional). apply dotd_ip; intros; cbn; ring. }
  assert (Hpos : 0 < ip Ld [1] [1]) by (apply ip_pos; cbn; [lia|lra]).
  unfold dinv. cbn [length]. repeat split; auto.
  - intros x. cbn. ring.
  - intros x. cbn. unfold lfun. cbn. ring.
  - intros k Hk. replace k with 0%nat by lia. cbn [nth]. etransitivity; [exact E0|reflexivity].
  - intros k Hk. replace k with 0%nat by lia. unfold lfun. cbn [nth]. change (monic _ _ 0) with [1].
    change (integrate xs ws (fun x : R => x ^ 0 * x)) with (dotd (fun x => x ^ 0) (fun x => x)).
    change (integrate xs ws (fun x : R => x ^ 0 * x ^ 0)) with (dotd (fun x => x ^ 0) (fun x => x ^ 0)).
    rewrite E0, E1. field. lra.
  - intros k m Hk. lia.
Qed.

Lemma discrete_orthonormal i j a b nm : discrete_recurrence xs ws n = (a, b, nm) -> (i <= n)%nat -> (j <= n)%nat ->
  length a = S n /\ length b = S n /\ length nm = S n /\
  integrate xs ws (fun x => nth 0 (polyval (lfun a) (lfun b) (lsum ws (fun w => w)) [i] x) 0
     * nth 0 (polyval (lfun a) (lfun b) (lsum ws (fun w => w)) [j] x) 0) = kron_delta i j.
Proof.
  intros E Hi Hj. destruct discrete_recurrence_spec as [a' [b' [nm' [E' [La [Lb [Ln [HN [HO HB]]]]]]]]].
  rewrite E' in E. injection E as <- <- <-. rewrite map_length. repeat split; auto.
  assert (Em : lsum ws (fun w => w) = Ld [1]).
  { unfold Ld, integrate. cbn [peval]. rewrite (lsum_ext _ _ (fun p => snd p)) by (intros; ring).
    clear - Lx Lw. assert (L : length xs = length ws) by congruence. clear Lx Lw. revert ws L.
    induction xs as [|x l IH]; intros [|w ws'] L; try discriminate; auto. cbn [combine]. rewrite !lsum_cons_R. rewrite IH; auto. }
  assert (Hpos : 0 < Ld [1]).
  { replace (Ld [1]) with (ip Ld [1] [1]).
    - apply ip_pos; cbn; [lia|lra].
    - unfold ip. apply (L_ext Ld Ld_functional). intros; cbn; ring. }
  assert (Hb : forall k, (1 <= k <= n)%nat -> 0 < lfun b' k).
  { intros k Hk. destruct k as [|k]; [lia|].
    pose proof (HB (S k) k ltac:(lia) eq_refl) as H. 
    pose proof (monic_norm_pos (lfun a') (lfun b') (S k) ltac:(lia)) as P1.
    pose proof (monic_norm_pos (lfun a') (lfun b') k ltac:(lia)) as P2.
    rewrite H in P1. apply (Rmult_lt_reg_r (ip Ld (monic (lfun a') (lfun b') k) (monic (lfun a') (lfun b') k))); auto. lra. }
  rewrite <- (orthonormal_of Ld Ld_functional (lfun a') (lfun b') n (lsum ws (fun w => w)) i j); auto; [|lra].
  unfold Ld, integrate. apply lsum_ext. intros [x w] _. cbn [fst snd]. f_equal.
  rewrite (qprod_eval _ _ _ _ _ _ n) by (auto; lra). rewrite !polyval_eq. cbn [map nth]. auto.
Qed.
End Discrete.
