From Coq Require Import List Arith ZArith Reals Bool Lia Lra Sorted.
From Verif.Base Require Import ListAux CRing RealAux Poly.
From Verif.Model Require Import Truncator Polynomials Measures.
From Verif.Spec Require Import MeasureSpec PolySpec.
From Verif.Proofs Require Import PolyP PolyP3 PolyP4 PolyP5 PolyP6 MeasuresP.
Import ListNotations.
Local Open Scope R_scope.

Lemma forallb_nonneg p : forallb (fun x => if Rle_dec 0 x then true else false) p = true <-> (forall x, In x p -> 0 <= x).
Proof.
  rewrite forallb_forall. split; intros H x Hx; specialize (H x Hx); destruct (Rle_dec 0 x); auto; try discriminate; lra.
Qed.
Lemma total_div p c : total (map (fun x => x / c) p) = total p / c.
Proof. unfold total. rewrite lsum_map_R. unfold Rdiv. rewrite <- lsum_scal_r_R. auto. Qed.
Lemma total_repeat x n : total (repeat x n) = INR n * x.
Proof. unfold total. induction n as [|n IH]; [cbn; lra|]. cbn [repeat]. rewrite lsum_cons_R, IH, S_INR. lra. Qed.

(** constructor *)
Lemma drv_make_spec values probs X : drv_make values probs = Some X -> 
  (match probs with Some p => 0 < total p | None => True end) ->
  dvals X = values /\ length (dprobs X) = length values /\ (forall p, In p (dprobs X) -> 0 <= p) /\ Rabs (total (dprobs X) - 1) <= feps /\
  (forall p, probs = Some p -> exists c, 0 < c /\ dprobs X = map (fun x => x / c) p) /\
  (probs = None -> dprobs X = repeat (1 / INR (length values)) (length values)).
Proof.
  intros E Hpos. assert (Hf : 0 < feps) by (unfold feps; lra). unfold drv_make in E.
  destruct probs as [p|].
  - destruct (negb (length p =? length values)%nat) eqn:EL; [discriminate|].
    apply negb_false_iff, Nat.eqb_eq in EL.
    destruct (forallb _ p) eqn:EF; [|discriminate]. rewrite forallb_nonneg in EF.
    injection E as <-. cbn [dvals dprobs]. destruct (Rlt_dec feps (Rabs (total p - 1))) as [Y|Y].
    + split; auto. rewrite map_length. split; auto. split; [|split; [|split; [|discriminate]]].
      * intros x Hx. apply in_map_iff in Hx. destruct Hx as [y [<- Hy]]. apply Rmult_le_pos; auto. left. apply Rinv_0_lt_compat. auto.
      * rewrite total_div. replace (total p / total p - 1) with 0 by (field; lra). rewrite Rabs_R0. lra.
      * intros q [= <-]. exists (total p). auto.
    + split; auto. split; auto. split; auto. split; [lra|]. split; [|discriminate]. intros q [= <-]. exists 1. split; [lra|].
      rewrite <- (map_id p) at 1. apply map_ext. intros; field.
  - destruct (length values =? 0)%nat eqn:EN; [discriminate|]. apply Nat.eqb_neq in EN.
    assert (ET : total (repeat (1 / INR (length values)) (length values)) = 1).
    { rewrite total_repeat. field. apply not_0_INR. auto. }
    injection E as <-. cbn [dvals dprobs]. rewrite ET. destruct (Rlt_dec feps (Rabs (1 - 1))) as [Y|Y].
    { replace (1 - 1) with 0 in Y by ring. rewrite Rabs_R0 in Y. lra. }
    split; auto. rewrite repeat_length. split; auto. split; [|split; [|split; [discriminate|auto]]].
    + intros x Hx. apply repeat_spec in Hx. subst x. left. apply Rdiv_lt_0_compat; [lra|]. apply lt_0_INR. lia.
    + rewrite ET. replace (1 - 1) with 0 by ring. rewrite Rabs_R0. lra.
Qed.
Lemma drv_make_dist values p : length p = length values -> is_distribution p ->
  drv_make values (Some p) = Some {| dvals := values; dprobs := p |}.
Proof.
  intros HL [HP HT]. unfold drv_make. rewrite HL, Nat.eqb_refl. cbn [negb]. 
  rewrite (proj2 (forallb_nonneg p)) by auto. unfold total. rewrite HT. replace (1 - 1) with 0 by ring. rewrite Rabs_R0.
  destruct (Rlt_dec feps 0) as [Y|Y]; auto. unfold feps in Y. lra.
Qed.

(** cdf *)
Lemma cdf_monotone X x y : (forall p, In p (dprobs X) -> 0 <= p) -> x <= y -> drv_cdf X x <= drv_cdf X y.
Proof.
  intros HP Hxy. unfold drv_cdf. apply lsum_le. intros [v p] Hv. cbn. apply in_combine_r in Hv. apply HP in Hv.
  destruct (Rlt_dec x v), (Rlt_dec y v); lra.
Qed.
Lemma lsum_combine_snd (v w : list R) : length v = length w -> lsum (combine v w) (fun p => snd p) = total w.
Proof.
  unfold total. revert w; induction v as [|x v IH]; intros [|p w] L; try discriminate; auto.
  cbn [combine]. rewrite !lsum_cons_R, IH by (cbn in L; lia). auto.
Qed.
Lemma cdf_top X x : length (dvals X) = length (dprobs X) -> (forall v, In v (dvals X) -> v <= x) -> drv_cdf X x = total (dprobs X).
Proof.
  intros HL H. rewrite <- (lsum_combine_snd _ _ HL). apply lsum_ext_R. intros [v p] Hv. cbn. apply in_combine_l in Hv. apply H in Hv.
  destruct (Rlt_dec x v); auto; lra.
Qed.
Lemma cdf_bottom X x : (forall v, In v (dvals X) -> x < v) -> drv_cdf X x = 0.
Proof.
  intros H. apply lsum_zero_R. intros [v p] Hv. cbn. apply in_combine_l in Hv. apply H in Hv. destruct (Rlt_dec x v); auto; lra.
Qed.

(** mean and variance *)
Lemma expectation_affine v w a b : length v = length w -> total w = 1 -> expectation v w (fun x => a * x + b) = a * expectation v w (fun x => x) + b.
Proof.
  intros HL HT. unfold expectation.
  rewrite (lsum_ext_R _ _ (fun p => a * (snd p * fst p) + b * snd p)) by (intros; ring).
  rewrite lsum_plus_R, !lsum_scal_l_R, lsum_combine_snd, HT by auto. lra.
Qed.
Lemma var_expectation X : length (dvals X) = length (dprobs X) -> total (dprobs X) = 1 ->
  drv_var X = expectation (dvals X) (dprobs X) (fun x => (x - drv_mean X) ^ 2).
Proof.
  intros HL HT. unfold drv_var, expectation. set (m := drv_mean X).
  rewrite (lsum_ext_R _ (fun p => snd p * (fst p - m) ^ 2) (fun p => snd p * fst p ^ 2 - (2 * m * (snd p * fst p) - m ^ 2 * snd p))) by (intros; ring).
  rewrite lsum_minus_R, lsum_minus_R, !lsum_scal_l_R, lsum_combine_snd, HT by auto. fold (drv_mean X). fold m. 
  change (lsum (combine (dvals X) (dprobs X)) (fun a => snd a * fst a)) with m. ring.
Qed.
Lemma lsum_combine_map {B} (h : R -> B) (v w : list R) (f : B * R -> R) : lsum (combine (map h v) w) f = lsum (combine v w) (fun p => f (h (fst p), snd p)).
Proof.
  revert w. induction v as [|x v IH]; intros [|p w]; auto. cbn [map combine]. rewrite !lsum_cons_R, IH. auto.
Qed.
Lemma drv_standard_ok X : length (dvals X) = length (dprobs X) -> is_distribution (dprobs X) -> 0 < drv_var X ->
  exists Y, drv_standard X = Some Y /\ drv_mean Y = 0 /\ drv_var Y = 1 /\ dprobs Y = dprobs X /\
    dvals Y = map (fun v => (v - drv_mean X) / drv_std X) (dvals X).
Proof.
  intros HL HD HV. unfold drv_standard. rewrite drv_make_dist by (rewrite ?map_length; auto).
  set (m := drv_mean X). set (s := drv_std X). assert (Hs : 0 < s) by (apply sqrt_lt_R0; auto).
  assert (Hss : s * s = drv_var X) by (apply sqrt_sqrt; lra).
  eexists. split; [reflexivity|]. destruct HD as [_ HT].
  set (Y := {| dvals := map (fun v => (v - m) / s) (dvals X); dprobs := dprobs X |}).
  assert (HM : drv_mean Y = 0).
  { unfold drv_mean, Y. cbn [dvals dprobs]. rewrite lsum_combine_map. cbn [fst snd].
    transitivity (expectation (dvals X) (dprobs X) (fun x => / s * x + - m / s)).
    - apply lsum_ext_R. intros. field. lra.
    - rewrite expectation_affine by auto. change (expectation (dvals X) (dprobs X) (fun x => x)) with m. field. lra. }
  split; auto. split; [|auto].
  unfold drv_var. rewrite HM. unfold Y. cbn [dvals dprobs]. rewrite lsum_combine_map. cbn [fst snd].
  transitivity (/ (s * s) * expectation (dvals X) (dprobs X) (fun x => (x - m) ^ 2)).
  - unfold expectation. rewrite <- lsum_scal_l_R. replace (0 ^ 2) with 0 by ring. rewrite Rminus_0_r. apply lsum_ext_R. intros; field. lra.
  - unfold m. rewrite <- (var_expectation X HL HT), Hss. field. lra.
Qed.

(** galois connection *)
Lemma quantile_galois cdf p v : (forall x y, x <= y -> cdf x <= cdf y) -> is_quantile cdf p v -> forall x, v <= x <-> p <= cdf x.
Proof. intros HM [H1 H2] x. split; auto. intros H. apply Rle_trans with (cdf v); auto. Qed.

(** linspace *)
Lemma linspace_length a b m : length (linspace a b m) = m.
Proof. unfold linspace. destruct (Nat.eqb_spec m 1) as [->|]; auto. rewrite map_length, seq_length. auto. Qed.
Lemma linspace_nth a b m i : (2 <= m)%nat -> (i < m)%nat -> nth i (linspace a b m) 0 = a + INR i * ((b - a) / INR (m - 1)).
Proof. intros H Hi. unfold linspace. destruct (Nat.eqb_spec m 1); [lia|]. rewrite nth_map_seq by auto. auto. Qed.

Lemma iso_grid_ok icdf xmin xmax n : (1 <= n)%nat ->
  length (iso_grid icdf xmin xmax n) = S n /\ nth 0 (iso_grid icdf xmin xmax n) 0 = xmin /\ nth n (iso_grid icdf xmin xmax n) 0 = xmax /\
  forall k, (0 < k < n)%nat -> nth k (iso_grid icdf xmin xmax n) 0 = icdf (INR k / INR n).
Proof.
  intros Hn. unfold iso_grid.
  assert (L : length (if (n =? 1)%nat then [] else if (n =? 2)%nat then [icdf (1 / 2)]
           else map icdf (linspace (1 / INR n) (1 - 1 / INR n) (n - 1))) = (n - 1)%nat).
  { destruct (Nat.eqb_spec n 1) as [->|]; auto. destruct (Nat.eqb_spec n 2) as [->|]; auto. rewrite map_length, linspace_length. auto. }
  set (g := if (n =? 1)%nat then _ else _) in *. split; [cbn [app length]; rewrite app_length, L; cbn; lia|]. split; auto. split.
  - cbn [app]. destruct n as [|n]; [lia|]. cbn [nth]. rewrite app_nth2, L by lia. replace (n - (S n - 1))%nat with 0%nat by lia. auto.
  - intros k Hk. destruct k as [|k]; [lia|]. cbn [app nth]. rewrite app_nth1 by lia. unfold g.
    destruct (Nat.eqb_spec n 1); [lia|]. destruct (Nat.eqb_spec n 2) as [->|].
    + replace k with 0%nat by lia. cbn. auto.
    + rewrite (map_nth_in _ _ _ 0) by (rewrite linspace_length; lia). rewrite linspace_nth by lia. f_equal.
      assert (En : INR n = INR (n - 1 - 1) + 2) by (replace n with (n - 1 - 1 + 2)%nat at 1 by lia; rewrite plus_INR; cbn; lra).
      rewrite S_INR. assert (0 < INR (n - 1 - 1)) by (apply lt_0_INR; lia).
      rewrite En. field. lra.
Qed.

(** discretize_support *)
Lemma telescope (f : ext -> R) (l : list ext) (a : ext) :
  lsum (combine l (removelast (a :: l))) (fun p => f (fst p) - f (snd p)) = f (last (a :: l) MInf) - f a.
Proof.
  revert a. induction l as [|b l IH]; intros a; [cbn; change (r0 : R) with 0; lra|].
  change (removelast (a :: b :: l)) with (a :: removelast (b :: l)). cbn [combine]. rewrite lsum_cons_R, IH. cbn [fst snd].
  change (last (a :: b :: l) MInf) with (last (b :: l) MInf). lra.
Qed.

Definition lower_end (x : list R) (i : nat) : ext := match i with O => MInf | S j => Fin ((nth j x 0 + nth i x 0) / 2) end.
Definition upper_end (x : list R) (i : nat) : ext := if (S i =? length x)%nat then PInf else Fin ((nth i x 0 + nth (S i) x 0) / 2).

Lemma nth_tl {A} (d : A) l i : nth i (tl l) d = nth (S i) l d.
Proof. destruct l; cbn; auto. destruct i; auto. Qed.
Lemma nth_removelast {A} (d : A) l i : (S i < length l)%nat -> nth i (removelast l) d = nth i l d.
Proof.
  revert i. induction l as [|a l IH]; intros i H; [cbn in H; lia|]. destruct l as [|b l]; [cbn in H; lia|].
  change (removelast (a :: b :: l)) with (a :: removelast (b :: l)). destruct i as [|i]; auto. cbn [nth].
  change (match l with [] => _ | _ => _ end) with (nth i (removelast (b :: l)) d). apply IH. cbn in *. lia.
Qed.
Lemma length_tl {A} (l : list A) : length (tl l) = (length l - 1)%nat.
Proof. destruct l; cbn; lia. Qed.
Lemma length_removelast {A} (l : list A) : length (removelast l) = (length l - 1)%nat.
Proof. rewrite removelast_firstn_len, firstn_length. lia. Qed.
Lemma midpoints_length x : length (midpoints x) = (length x - 1)%nat.
Proof. unfold midpoints. rewrite map_length, combine_length, length_tl, length_removelast. lia. Qed.
Lemma midpoints_nth x i : (S i < length x)%nat -> nth i (midpoints x) 0 = (nth (S i) x 0 + nth i x 0) / 2.
Proof.
  intros H. unfold midpoints. rewrite (map_nth_in _ _ _ (0, 0)) by (rewrite combine_length, length_tl, length_removelast; lia).
  rewrite combine_nth by (rewrite length_tl, length_removelast; lia). cbn [fst snd]. rewrite nth_tl, nth_removelast by lia. auto.
Qed.

Lemma disc_probs_nth cdf x i : (i < length x)%nat ->
  let v := [MInf] ++ map Fin (midpoints x) ++ [PInf] in
  length (combine (tl v) (removelast v)) = length x /\
  nth i (map (fun p => cdf (fst p) - cdf (snd p)) (combine (tl v) (removelast v))) 0 = cdf (upper_end x i) - cdf (lower_end x i).
Proof.
  intros Hi v. assert (Lv : length v = S (length x)).
  { unfold v. cbn [app length]. rewrite app_length, map_length, midpoints_length. cbn. lia. }
  assert (Lc : length (combine (tl v) (removelast v)) = length x) by (rewrite combine_length, length_tl, length_removelast; lia).
  split; auto. rewrite (map_nth_in _ _ _ (MInf, MInf)) by lia.
  rewrite combine_nth by (rewrite length_tl, length_removelast; lia). cbn [fst snd]. rewrite nth_tl, nth_removelast by lia.
  assert (N : forall k, (k < length x)%nat -> nth (S k) v MInf = upper_end x k).
  { intros k Hk. unfold v. cbn [app nth]. unfold upper_end. destruct (Nat.eqb_spec (S k) (length x)) as [E|E].
    - rewrite app_nth2; rewrite map_length, midpoints_length; [|lia]. replace (k - (length x - 1))%nat with 0%nat by lia. auto.
    - rewrite app_nth1 by (rewrite map_length, midpoints_length; lia). rewrite (map_nth_in _ _ _ 0) by (rewrite midpoints_length; lia).
      rewrite midpoints_nth by lia. do 2 f_equal. lra. }
  rewrite N by auto. f_equal. f_equal. destruct i as [|i]; [reflexivity|]. rewrite N by lia. unfold upper_end, lower_end.
  destruct (Nat.eqb_spec (S i) (length x)); [lia|auto].
Qed.

Lemma sorted_nth x i j : nondecreasing x -> (i <= j < length x)%nat -> nth i x 0 <= nth j x 0.
Proof.
  intros HS. revert i j. induction HS as [|a l HS IH HF]; intros i j H; [cbn in H; lia|].
  destruct i as [|i], j as [|j]; cbn [nth]; try lra; try lia.
  - rewrite Forall_forall in HF. apply HF. apply nth_In. cbn in H. lia.
  - apply IH. cbn in H. lia.
Qed.

Lemma discretize_support_ok cdf x : x <> [] -> nondecreasing x -> cdf MInf = 0 -> cdf PInf = 1 ->
  (forall y, 0 <= cdf (Fin y) <= 1) -> (forall y z, y <= z -> cdf (Fin y) <= cdf (Fin z)) ->
  exists probs, discretize_support cdf x = Some {| dvals := x; dprobs := probs |} /\ is_distribution probs /\ length probs = length x /\
    forall i, (i < length x)%nat -> nth i probs 0 = cdf (upper_end x i) - cdf (lower_end x i).
Proof.
  intros Hne HS C0 C1 CB CM. unfold discretize_support.
  set (v := [MInf] ++ map Fin (midpoints x) ++ [PInf]).
  set (probs := map (fun p => cdf (fst p) - cdf (snd p)) (combine (tl v) (removelast v))).
  assert (Lx : (0 < length x)%nat) by (destruct x; [congruence|cbn; lia]).
  assert (LP : length probs = length x).
  { unfold probs. rewrite map_length. apply (disc_probs_nth cdf x 0 Lx). }
  assert (NP : forall i, (i < length x)%nat -> nth i probs 0 = cdf (upper_end x i) - cdf (lower_end x i)).
  { intros i Hi. apply (disc_probs_nth cdf x i Hi). }
  assert (DP : is_distribution probs).
  { split.
    - intros p Hp. apply (In_nth _ _ 0) in Hp. destruct Hp as [i [Hi <-]]. rewrite LP in Hi. rewrite NP by auto.
      assert (cdf (lower_end x i) <= cdf (upper_end x i)); [|lra].
      unfold lower_end, upper_end. destruct i as [|i].
      + rewrite C0. destruct (1 =? length x)%nat; [lra|apply CB].
      + destruct (Nat.eqb_spec (S (S i)) (length x)); [rewrite C1; apply CB|]. apply CM.
        pose proof (sorted_nth x i (S i) HS ltac:(lia)). pose proof (sorted_nth x (S i) (S (S i)) HS ltac:(lia)). lra.
    - unfold probs. rewrite lsum_map_R. unfold v. cbn [app tl].
      rewrite (telescope cdf (map Fin (midpoints x) ++ [PInf]) MInf).
      rewrite app_comm_cons, last_last, C0, C1. lra. }
  exists probs. rewrite drv_make_dist by auto. auto.
Qed.

(** stored moments *)
Lemma moment_normal (G : nat -> list R * list R) mu sigma ind k v lam V :
  (forall n, (1 <= n)%nat -> eig_contract n (jacobi hermite_a hermite_b) (lam n) (V n) /\
     G n = (map (gauss_point mu sigma (lam n)) (seq 0 n), map (gauss_weight n (V n)) (seq 0 n))) ->
  (k < length ind)%nat -> moment_is gauss_moment (fun x => (mu + sigma * x) ^ (nth k ind 0%nat)) v ->
  nth k (fst (rv_moment G [] ind)) 0 = v.
Proof.
  intros HG Hk Hv. unfold rv_moment. cbn [fst length]. destruct (Nat.leb_spec (maxl ind + 1) 0); [lia|].
  rewrite (map_nth_in _ _ _ 0%nat) by auto. set (n := ((maxl ind + 2) / 2)%nat). set (i := nth k ind 0%nat) in *.
  assert (Hi : (i <= maxl ind)%nat) by (apply maxl_le, nth_In; auto).
  assert (Hn : (maxl ind + 1 <= 2 * n)%nat).
  { unfold n. pose proof (Nat.div_mod (maxl ind + 2) 2 ltac:(lia)). pose proof (Nat.mod_upper_bound (maxl ind + 2) 2 ltac:(lia)). lia. }
  destruct (HG n ltac:(lia)) as [HE EG]. rewrite EG. cbn [fst snd].
  set (coef := repeat 0 i ++ [1]).
  assert (Ec : forall x, monomial_value coef x = x ^ i).
  { intros x. rewrite monomial_value_peval. unfold coef. rewrite peval_app, peval_zeros, repeat_length. cbn. ring. }
  transitivity (integrate (map (gauss_point mu sigma (lam n)) (seq 0 n)) (map (gauss_weight n (V n)) (seq 0 n)) (monomial_value coef)).
  { apply lsum_ext_R. intros. rewrite Ec. auto. }
  apply gauss_hermite; auto; try lia.
  - unfold coef. rewrite app_length, repeat_length. cbn. lia.
  - destruct Hv as [c [H1 H2]]. exists c. split; auto. intros x. rewrite Ec, <- H1. auto.
Qed.
Lemma moment_uniform (G : nat -> list R * list R) s t ind k v lam V : s < t ->
  (forall n, (1 <= n)%nat -> eig_contract n (jacobi legendre_a legendre_b) (lam n) (V n) /\
     G n = (map (gauss_point ((s + t) / 2) ((t - s) / 2) (lam n)) (seq 0 n), map (gauss_weight n (V n)) (seq 0 n))) ->
  (k < length ind)%nat -> integral_is s t (fun x => x ^ (nth k ind 0%nat)) v ->
  nth k (fst (rv_moment G [] ind)) 0 = v / (t - s).
Proof.
  intros Hst HG Hk Hv. unfold rv_moment. cbn [fst length]. destruct (Nat.leb_spec (maxl ind + 1) 0); [lia|].
  rewrite (map_nth_in _ _ _ 0%nat) by auto. set (n := ((maxl ind + 2) / 2)%nat). set (i := nth k ind 0%nat) in *.
  assert (Hi : (i <= maxl ind)%nat) by (apply maxl_le, nth_In; auto).
  assert (Hn : (maxl ind + 1 <= 2 * n)%nat).
  { unfold n. pose proof (Nat.div_mod (maxl ind + 2) 2 ltac:(lia)). pose proof (Nat.mod_upper_bound (maxl ind + 2) 2 ltac:(lia)). lia. }
  destruct (HG n ltac:(lia)) as [HE EG]. rewrite EG. cbn [fst snd].
  set (coef := repeat 0 i ++ [1]).
  assert (Ec : forall x, monomial_value coef x = x ^ i).
  { intros x. rewrite monomial_value_peval. unfold coef. rewrite peval_app, peval_zeros, repeat_length. cbn. ring. }
  transitivity (integrate (map (gauss_point ((s + t) / 2) ((t - s) / 2) (lam n)) (seq 0 n)) (map (gauss_weight n (V n)) (seq 0 n)) (monomial_value coef)).
  { apply lsum_ext_R. intros. rewrite Ec. auto. }
  apply gauss_legendre; auto; try lia.
  - unfold coef. rewrite app_length, repeat_length. cbn. lia.
  - revert Hv. apply integral_ext. intros x. rewrite Ec. auto.
Qed.

(** asking first for the moments 0..n, the stored values answer any later request of degree <= n as a fresh call *)
Lemma moment_stored G n ind k : (k < length ind)%nat -> (maxl ind <= n)%nat ->
  nth k (fst (rv_moment G (snd (rv_moment G [] (seq 0 (S n)))) ind)) 0 =
  nth (nth k ind 0%nat) (fst (rv_moment G [] (seq 0 (S n)))) 0.
Proof.
  intros Hk Hm. unfold rv_moment at 1. unfold rv_moment at 1. cbn [snd fst].
  assert (L : length (snd (rv_moment G [] (seq 0 (S n)))) = S n).
  { unfold rv_moment. cbn [snd length]. destruct (Nat.leb_spec (maxl (seq 0 (S n)) + 1) 0); [lia|]. rewrite map_length, seq_length. auto. }
  unfold rv_moment in L at 1. cbn [snd] in L. rewrite L.
  destruct (Nat.leb_spec (maxl ind + 1) (S n)); [|lia]. rewrite (map_nth_in _ _ _ 0%nat) by auto. auto.
Qed.

(** transfer *)
Lemma rvec_transfer_ok cdfX icdfY x : length cdfX = length icdfY -> length x = length cdfX ->
  exists y, rvec_transfer cdfX icdfY x = Some y /\ length y = length x /\
    forall k, (k < length x)%nat -> nth k y 0 = nth k icdfY (fun z => z) (nth k cdfX (fun z => z) (nth k x 0)).
Proof.
  intros H1 H2. unfold rvec_transfer. rewrite H1, Nat.eqb_refl. eexists. split; [reflexivity|].
  assert (L : length (combine (combine cdfX icdfY) x) = length x) by (rewrite !combine_length; lia).
  split; [rewrite map_length; auto|]. intros k Hk.
  rewrite (map_nth_in _ _ _ ((fun z => z, fun z => z), 0)) by lia. rewrite combine_nth by (rewrite combine_length; lia).
  rewrite combine_nth by auto. reflexivity.
Qed.

(** composite Gauss rules *)
Lemma integrate_app p1 w1 p2 w2 f : length p1 = length w1 -> integrate (p1 ++ p2) (w1 ++ w2) f = integrate p1 w1 f + integrate p2 w2 f.
Proof.
  unfold integrate. revert w1; induction p1 as [|x p1 IH]; intros [|w w1] L; try discriminate; [cbn [app combine]; cbn; change (r0 : R) with 0; lra|].
  cbn [app combine]. rewrite !lsum_cons_R, IH by (cbn in L; lia). lra.
Qed.
Lemma composite_exact LG knots ns f :
  (forall k, (S k < length knots)%nat -> length (fst (LG (nth k knots 0) (nth (S k) knots 0) (nth k ns 0%nat))) = length (snd (LG (nth k knots 0) (nth (S k) knots 0) (nth k ns 0%nat)))) ->
  integrate (fst (gauss_composite LG knots ns)) (snd (gauss_composite LG knots ns)) f =
  rsum (length knots - 1) (fun k => let g := LG (nth k knots 0) (nth (S k) knots 0) (nth k ns 0%nat) in integrate (fst g) (snd g) f).
Proof.
  intros H. unfold gauss_composite. set (m := (length knots - 1)%nat).
  assert (K : forall m, (m <= length knots - 1)%nat ->
    let r := fold_left (fun acc k => let g := LG (nth k knots 0) (nth (S k) knots 0) (nth k ns 0%nat) in (fst acc ++ fst g, snd acc ++ snd g)) (seq 0 m) ([], []) in
    length (fst r) = length (snd r) /\ integrate (fst r) (snd r) f = rsum m (fun k => let g := LG (nth k knots 0) (nth (S k) knots 0) (nth k ns 0%nat) in integrate (fst g) (snd g) f)).
  { clear m. induction m as [|m IH]; intros Hm r; [split; auto|].
    unfold r. rewrite seq_S_snoc, fold_left_app. cbn [fold_left]. destruct (IH ltac:(lia)) as [I1 I2].
    set (r' := fold_left _ (seq 0 m) _) in *. cbn [fst snd Nat.add]. split.
    - rewrite !app_length, I1, H by lia. auto.
    - rewrite integrate_app by auto. rewrite I2, rsum_S_R. auto. }
  apply K. unfold m. lia.
Qed.
Lemma composite_gauss knots ns coef v lam V : nondecreasing knots -> NoDup knots -> (2 <= length knots)%nat ->
  (forall k, (S k < length knots)%nat -> (1 <= nth k ns 0)%nat /\ (length coef <= 2 * nth k ns 0)%nat) ->
  (forall n, (1 <= n)%nat -> eig_contract n (jacobi legendre_a legendre_b) (lam n) (V n)) ->
  let LG := fun s t n => (map (gauss_point ((s + t) / 2) ((t - s) / 2) (lam n)) (seq 0 n),
                          map (fun w => w * (t - s)) (map (gauss_weight n (V n)) (seq 0 n))) in
  integral_is (nth 0 knots 0) (last knots 0) (monomial_value coef) v ->
  integrate (fst (gauss_composite LG knots ns)) (snd (gauss_composite LG knots ns)) (monomial_value coef) = v.
Proof.
  intros HS HND HL2 Hn HE LG [F [HF ->]].
  rewrite composite_exact by (intros k Hk; unfold LG; cbn [fst snd]; rewrite !map_length; auto).
  assert (HC : forall k, (S k < length knots)%nat -> let g := LG (nth k knots 0) (nth (S k) knots 0) (nth k ns 0%nat) in
     integrate (fst g) (snd g) (monomial_value coef) = F (nth (S k) knots 0) - F (nth k knots 0)).
  { intros k Hk g. unfold g, LG. cbn [fst snd].
    set (s := nth k knots 0). set (t := nth (S k) knots 0). set (n := nth k ns 0%nat).
    assert (Hst : s < t).
    { pose proof (sorted_nth knots k (S k) HS ltac:(lia)) as Hle. destruct Hle as [Hlt|Heq]; auto. exfalso.
      assert (k = S k); [|lia]. apply (proj1 (NoDup_nth knots 0) HND); auto; lia. }
    destruct (Hn k Hk) as [N1 N2]. 
    pose proof (gauss_legendre n s t (lam n) (V n) coef (F t - F s) N1 Hst (HE n N1) N2) as E.
    specialize (E ltac:(exists F; auto)).
    rewrite map_map, integrate_map. rewrite integrate_map in E.
    rewrite (rsum_ext_R n _ (fun k => gauss_weight n (V n) k * monomial_value coef (gauss_point ((s + t) / 2) ((t - s) / 2) (lam n) k) * (t - s))) by (intros; ring).
    rewrite rsum_scal_r_R, E. field. lra. }
  rewrite (rsum_ext_R _ _ (fun k => F (nth (S k) knots 0) - F (nth k knots 0))) by (intros k Hk; apply HC; lia).
  assert (T : forall m, rsum m (fun k => F (nth (S k) knots 0) - F (nth k knots 0)) = F (nth m knots 0) - F (nth 0 knots 0)).
  { induction m as [|m IH]; [cbn; change (r0 : R) with 0; lra|]. rewrite rsum_S_R, IH. lra. }
  rewrite T. f_equal. f_equal.
  assert (X : forall (l : list R) m, length l = S m -> last l 0 = nth m l 0).
  { clear. induction l as [|u l IH]; intros m E; [discriminate|]. destruct l as [|u' l]; [destruct m; [auto|discriminate]|].
    destruct m as [|m]; [discriminate|]. change (last (u' :: l) 0 = nth m (u' :: l) 0). apply IH. cbn in *; lia. }
  symmetry. apply X. lia.
Qed.
