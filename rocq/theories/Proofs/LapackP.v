(** The assumptions [lapack_ok] made about numpy.linalg can be met: QR factorisations, least-squares solutions, inverses and
    pseudo-inverses exist for all real matrices.  (Used only to show that the hypotheses of the learning theorems are satisfiable.) *)
From Coq Require Import List Arith Lia Reals Lra Bool Classical_Prop IndefiniteDescription.
From Verif.Base Require Import ListAux CRing Index RealAux LinAlg.
From Verif.Model Require Import Learning.
From Verif.Spec Require Import LearningSpec PolySpec.
From Verif.Proofs Require Import LearningP PolyP5.
Import ListNotations.
Local Open Scope R_scope.

Definition orthonormal (N k : nat) (q : nat -> nat -> R) : Prop :=
  forall a b, (a < k)%nat -> (b < k)%nat -> rsum N (fun i => q i a * q i b) = delta_ij a b.
(** k < N orthonormal vectors can be completed by one more *)
Lemma unit_vector N k q : orthonormal N k q -> (k < N)%nat ->
  exists u, rsum N (fun i => u i ^ 2) = 1 /\ forall c, (c < k)%nat -> rsum N (fun i => q i c * u i) = 0.
Proof.
  intros HO Hk. destruct (dependent k (fun i c => q i c)) as [c [[m [Hm Hc]] H]].
  set (w := fun i => if (i <=? k)%nat then c i else 0).
  assert (EX : forall f : nat -> R, rsum N (fun i => f i * w i) = rsum (S k) (fun i => f i * c i)).
  { intros f. clear - Hk. replace N with (S k + (N - S k))%nat by lia. generalize (N - S k)%nat. intros n. induction n as [|n IH].
    - rewrite Nat.add_0_r. apply rsum_ext_R'. intros i Hi. unfold w. destruct (Nat.leb_spec i k); [auto|lia].
    - rewrite Nat.add_succ_r, rsum_S_R, IH. unfold w. destruct (Nat.leb_spec (S k + n) k); [lia|ring]. }
  set (n2 := rsum N (fun i => w i ^ 2)).
  assert (P2 : 0 < n2).
  { assert (T := rsum_term_le N (fun i => w i ^ 2) m (fun i _ => pow2_ge_0 _) ltac:(lia)). cbn beta in T.
    assert (0 < w m ^ 2). { unfold w. destruct (Nat.leb_spec m k); [|lia]. replace (c m ^ 2) with (Rsqr (c m)) by (unfold Rsqr; ring). apply Rsqr_pos_lt; auto. } unfold n2. lra. }
  assert (S2 : sqrt n2 * sqrt n2 = n2) by (apply sqrt_sqrt; lra). assert (SP : 0 < sqrt n2) by (apply sqrt_lt_R0; auto).
  exists (fun i => / sqrt n2 * w i). split.
  - rewrite (rsum_ext_R' N _ (fun i => (/ sqrt n2) ^ 2 * (w i ^ 2))) by (intros; ring). rewrite rsum_scal_l_R. fold n2. rewrite <- S2 at 2. field. lra.
  - intros a Ha. rewrite (rsum_ext_R' N _ (fun i => / sqrt n2 * (q i a * w i))) by (intros; ring). rewrite rsum_scal_l_R, EX.
    rewrite (rsum_ext_R' (S k) _ (fun i => c i * q i a)) by (intros; ring). rewrite H by auto. ring.
Qed.
Lemma qr_exists N P A : exists q r, orthonormal N (Nat.min N P) q /\ forall i j, (i < N)%nat -> (j < P)%nat -> A i j = rsum (Nat.min N P) (fun c => q i c * r c j).
Proof.
  induction P as [|P (q & r & HO & HA)].
  - exists (fun _ _ => 0), (fun _ _ => 0). rewrite Nat.min_0_r. split; [intros a b; lia|intros; lia].
  - set (k := Nat.min N P) in *. set (h := fun c => rsum N (fun i => q i c * A i P)).
    destruct (Nat.lt_ge_cases P N) as [HP|HP].
    + assert (Ek : k = P) by (unfold k; lia). assert (Ek' : Nat.min N (S P) = S k) by lia. rewrite Ek'.
      set (rho := fun i => A i P - rsum k (fun c => q i c * h c)).
      assert (RO : forall c, (c < k)%nat -> rsum N (fun i => q i c * rho i) = 0).
      { intros c Hc. unfold rho. rewrite (rsum_ext_R' N _ (fun i => q i c * A i P - rsum k (fun d => h d * (q i c * q i d)))).
        2:{ intros i _. rewrite Rmult_minus_distr_l. f_equal. rewrite <- rsum_scal_l_R. apply rsum_ext_R'. intros; ring. }
        rewrite rsum_minus_R, rsum_swap_R. fold (h c). rewrite (rsum_ext_R' k _ (fun d => if (d =? c)%nat then h d else 0)).
        - rewrite rsum_delta_R by auto. ring.
        - intros d Hd. rewrite rsum_scal_l_R, HO by auto. unfold delta_ij. rewrite Nat.eqb_sym. destruct (d =? c)%nat; ring. }
      assert (HU : exists u t, rsum N (fun i => u i ^ 2) = 1 /\ (forall c, (c < k)%nat -> rsum N (fun i => q i c * u i) = 0) /\ forall i, (i < N)%nat -> rho i = u i * t).
      { set (n2 := rsum N (fun i => rho i ^ 2)). assert (N0 : 0 <= n2) by (apply rsum_nonneg; intros; apply pow2_ge_0).
        destruct (Req_dec n2 0) as [Z|Z].
        - destruct (unit_vector N k q HO ltac:(lia)) as (u & U1 & U2). exists u, 0. repeat split; auto. intros i Hi. rewrite Rmult_0_r.
          apply (rsum_zero_sq N rho); auto. fold n2. lra.
        - assert (S2 : sqrt n2 * sqrt n2 = n2) by (apply sqrt_sqrt; lra). assert (SP : 0 < sqrt n2) by (apply sqrt_lt_R0; lra).
          exists (fun i => / sqrt n2 * rho i), (sqrt n2). repeat split.
          + rewrite (rsum_ext_R' N _ (fun i => (/ sqrt n2) ^ 2 * (rho i ^ 2))) by (intros; ring). rewrite rsum_scal_l_R. fold n2. rewrite <- S2 at 2. field. lra.
          + intros a Ha. rewrite (rsum_ext_R' N _ (fun i => / sqrt n2 * (q i a * rho i))) by (intros; ring). rewrite rsum_scal_l_R, RO by auto. ring.
          + intros i Hi. field. lra. }
      destruct HU as (u & t & U1 & U2 & U3).
      exists (fun i c => if (c =? k)%nat then u i else q i c), (fun c j => if (j =? P)%nat then (if (c =? k)%nat then t else h c) else (if (c =? k)%nat then 0 else r c j)). split.
      * intros a b Ha Hb. unfold delta_ij. destruct (Nat.eqb_spec a k) as [->|Na], (Nat.eqb_spec b k) as [->|Nb].
        -- rewrite Nat.eqb_refl. rewrite (rsum_ext_R' N _ (fun i => u i ^ 2)) by (intros; ring). auto.
        -- destruct (Nat.eqb_spec k b); [lia|]. rewrite (rsum_ext_R' N _ (fun i => q i b * u i)) by (intros; ring). apply U2; lia.
        -- destruct (Nat.eqb_spec a k); [lia|]. apply U2; lia.
        -- rewrite HO by lia. auto.
      * intros i j Hi Hj. rewrite rsum_S_R, Nat.eqb_refl. destruct (Nat.eqb_spec j P) as [->|Nj].
        -- rewrite (rsum_ext_R' k _ (fun c => q i c * h c)).
           ++ rewrite <- U3 by auto. unfold rho. ring.
           ++ intros c Hc. destruct (Nat.eqb_spec c k); [lia|auto].
        -- rewrite (rsum_ext_R' k _ (fun c => q i c * r c j)).
           ++ rewrite <- HA by lia. ring.
           ++ intros c Hc. destruct (Nat.eqb_spec c k); [lia|auto].
    + assert (Ek : k = N) by (unfold k; lia). assert (Ek' : Nat.min N (S P) = k) by lia. rewrite Ek'.
      exists q, (fun c j => if (j =? P)%nat then h c else r c j). split; auto. intros i j Hi Hj. destruct (Nat.eqb_spec j P) as [->|Nj]; [|apply HA; lia].
      unfold h. rewrite (rsum_ext_R' k _ (fun c => rsum N (fun l => q i c * q l c * A l P))) by (intros; rewrite <- rsum_scal_l_R; apply rsum_ext_R'; intros; ring).
      rewrite rsum_swap_R. rewrite (rsum_ext_R' N _ (fun l => if (l =? i)%nat then A l P else 0)); [rewrite rsum_delta_R; auto|].
      intros l Hl. rewrite rsum_scal_r_R, Ek. rewrite (rows_orthonormal N q); auto.
      * unfold kron_delta. rewrite Nat.eqb_sym. destruct (l =? i)%nat; ring.
      * rewrite Ek in HO. exact HO.
Qed.
(** least squares *)
Lemma normal_exists N P M : forall b, exists x, forall j, (j < P)%nat -> rsum N (fun i => M i j * (b i - mv P M x i)) = 0.
Proof.
  induction P as [|P IH]; intros b; [exists (fun _ => 0); intros; lia|].
  destruct (IH (fun i => M i P)) as [x0 H0]. destruct (IH b) as [x1 H1].
  set (rho := fun i => M i P - mv P M x0 i). set (r1 := fun i => b i - mv P M x1 i).
  set (n2 := rsum N (fun i => rho i ^ 2)).
  set (t := if Req_EM_T n2 0 then 0 else rsum N (fun i => r1 i * rho i) / n2).
  set (x := fun j => if (j =? P)%nat then t else x1 j - t * x0 j). exists x.
  assert (EM : forall i, b i - mv (S P) M x i = r1 i - t * rho i).
  { intros i. unfold mv at 1. rewrite rsum_S_R. rewrite (rsum_ext_R' P _ (fun j => M i j * (x1 j - t * x0 j))).
    - fold (mv P M (fun j => x1 j - t * x0 j) i). rewrite mv_minus, mv_scal. unfold x. rewrite Nat.eqb_refl. unfold r1, rho. ring.
    - intros j Hj. unfold x. destruct (Nat.eqb_spec j P); [lia|auto]. }
  assert (EJ : forall j, (j < P)%nat -> rsum N (fun i => M i j * (b i - mv (S P) M x i)) = 0).
  { intros j Hj. rewrite (rsum_ext_R' N _ (fun i => M i j * r1 i - t * (M i j * rho i))) by (intros; rewrite EM; ring).
    rewrite rsum_minus_R, rsum_scal_l_R. unfold r1, rho. rewrite H1, H0 by auto. ring. }
  intros j Hj. destruct (Nat.eq_dec j P) as [->|Hn]; [|apply EJ; lia].
  (* M_P = rho + M x0 *)
  rewrite (rsum_ext_R' N _ (fun i => (r1 i * rho i - t * rho i ^ 2) + rsum P (fun j => x0 j * (M i j * (b i - mv (S P) M x i))))).
  - rewrite rsum_plus_R, (rsum_swap_R N P). rewrite (rsum_zero_R P).
    + rewrite rsum_minus_R, rsum_scal_l_R. fold n2. unfold t. destruct (Req_EM_T n2 0) as [Z|Z].
      * rewrite (rsum_zero_R N (fun i => r1 i * rho i)); [ring|]. intros i Hi. rewrite (rsum_zero_sq N rho); [ring| |auto]. fold n2. lra.
      * field. auto.
    + intros k Hk. rewrite rsum_scal_l_R, EJ by auto. ring.
  - intros i Hi. rewrite (rsum_ext_R' P _ (fun j => (M i j * x0 j) * (b i - mv (S P) M x i))) by (intros; ring).
    rewrite rsum_scal_r_R. fold (mv P M x0 i). rewrite EM. unfold rho. ring.
Qed.
Lemma lstsq_exists M b : exists x, lstsq_ok M b x.
Proof.
  destruct (normal_exists (mrows M) (mcols M) (ment M) b) as [x H]. exists x. intros x'.
  assert (LS : least_squares M b (all_rows M) x). { apply normal_least_squares. intros j Hj. rewrite grad_all. apply H; auto. }
  specialize (LS x'). rewrite !rss_all in LS.
  rewrite (rsum_ext_R' (mrows M) (fun i => (mv (mcols M) (ment M) x i - b i) ^ 2) (fun i => (b i - prediction M x i) ^ 2)) by (intros; unfold prediction, mv; ring).
  rewrite (rsum_ext_R' (mrows M) (fun i => (mv (mcols M) (ment M) x' i - b i) ^ 2) (fun i => (b i - prediction M x' i) ^ 2)) by (intros; unfold prediction, mv; ring). auto.
Qed.
Lemma solve_exists M b : exists o, solve_ok M b o.
Proof.
  destruct (classic (nonsingular M)) as [H|H]; [|exists None; auto]. destruct H as [HS HI]. unfold square in HS. assert (HI' := HI). rewrite HS in HI'.
  destruct (inj_surj _ _ HI' b) as [x Hx]. exists (Some x). split; [split; auto|]. intros i Hi. apply Hx. lia.
Qed.
Lemma inv_exists M : exists o, inv_ok M o.
Proof.
  destruct (classic (nonsingular M)) as [H|H]; [|exists None; auto]. destruct H as [HS HI]. assert (HI' := HI). unfold square in HS. rewrite HS in HI'.
  destruct (functional_choice (fun l x => forall i, (i < mcols M)%nat -> mv (mcols M) (ment M) x i = delta_ij i l) (fun l => inj_surj _ _ HI' (fun i => delta_ij i l))) as [X HX].
  exists (Some (MX (mcols M) (mrows M) (fun k j => X j k))). repeat split; auto. intros i j Hi Hj. apply (HX j i). lia.
Qed.
Lemma pinv_exists M : exists X, pinv_ok M X.
Proof.
  destruct (functional_choice _ (fun l => normal_exists (mrows M) (mcols M) (ment M) (fun i => delta_ij i l))) as [X HX].
  exists (MX (mcols M) (mrows M) (fun a b => X b a)). repeat split; auto. cbn [mrows mcols ment]. intros i j Hi Hj.
  set (N := mrows M) in *. set (P := mcols M) in *.
  set (x := fun a => rsum N (fun l => ment M l j * X l a)).
  assert (E : forall i, mv P (ment M) x i = rsum P (fun a => rsum N (fun b => ment M i a * X b a * ment M b j))).
  { intros k. unfold mv, x. apply rsum_ext_R'. intros a _. rewrite <- rsum_scal_l_R. apply rsum_ext_R'. intros; ring. }
  rewrite <- E.
  assert (EX : forall i, mv P (ment M) x i = rsum N (fun l => ment M l j * mv P (ment M) (X l) i)).
  { intros k. rewrite E, rsum_swap_R. apply rsum_ext_R'. intros l _. unfold mv. rewrite <- rsum_scal_l_R. apply rsum_ext_R'. intros; ring. }
  (* residual d = M_j - M x is orthogonal to the columns of M and lies in their span *)
  set (d := fun k => ment M k j - mv P (ment M) x k).
  assert (OD : forall a, (a < P)%nat -> rsum N (fun k => ment M k a * d k) = 0).
  { intros a Ha. rewrite (rsum_ext_R' N _ (fun k => rsum N (fun l => ment M l j * (ment M k a * (delta_ij k l - mv P (ment M) (X l) k))))).
    - rewrite rsum_swap_R. apply rsum_zero_R. intros l Hl. rewrite rsum_scal_l_R. rewrite (HX l a Ha). ring.
    - intros k Hk. unfold d. rewrite EX.
      rewrite (rsum_ext_R' N (fun l => ment M l j * (ment M k a * _)) (fun l => ment M k a * ((if (l =? k)%nat then ment M l j else 0) - ment M l j * mv P (ment M) (X l) k))).
      + rewrite rsum_scal_l_R, rsum_minus_R, rsum_delta_R by auto. auto.
      + intros l _. unfold delta_ij. rewrite Nat.eqb_sym. destruct (l =? k)%nat; ring. }
  assert (Z : rsum N (fun k => d k ^ 2) <= 0).
  { rewrite (rsum_ext_R' N _ (fun k => ment M k j * d k - rsum P (fun a => x a * (ment M k a * d k)))).
    - rewrite rsum_minus_R, rsum_swap_R, OD by auto. rewrite (rsum_zero_R P); [lra|]. intros a Ha. rewrite rsum_scal_l_R, OD by auto. ring.
    - intros k _. replace (d k ^ 2) with (d k * d k) by ring. unfold d at 1. rewrite Rmult_minus_distr_r. f_equal. unfold mv. rewrite <- rsum_scal_r_R. apply rsum_ext_R'. intros; ring. }
  assert (D0 := rsum_zero_sq N d Z i Hi). unfold d in D0. lra.
Qed.
Theorem lapack_exists : exists L, lapack_ok L.
Proof.
  assert (Q : forall A, exists qr, qr_ok A qr).
  { intros A. destruct (qr_exists (mrows A) (mcols A) (ment A)) as (q & r & HO & HA).
    exists (MX (mrows A) (Nat.min (mrows A) (mcols A)) q, MX (Nat.min (mrows A) (mcols A)) (mcols A) r). repeat split; auto. }
  destruct (functional_choice _ Q) as [fq Hq].
  destruct (functional_choice (fun Mb o => solve_ok (fst Mb) (snd Mb) o) (fun Mb => solve_exists (fst Mb) (snd Mb))) as [fs Hs].
  destruct (functional_choice (fun Mb o => lstsq_ok (fst Mb) (snd Mb) o) (fun Mb => lstsq_exists (fst Mb) (snd Mb))) as [fl Hl].
  destruct (functional_choice _ inv_exists) as [fi Hi]. destruct (functional_choice _ pinv_exists) as [fp Hp].
  exists (Lapack fq (fun M b => fs (M, b)) (fun M b => fl (M, b)) fi fp (fun _ => 1)).
  split; [|split; [|split; [|split]]]; cbn [l_qr l_solve l_lstsq l_inv l_pinv]; auto.
  - intros M b. exact (Hs (M, b)).
  - intros M b. exact (Hl (M, b)).
Qed.
