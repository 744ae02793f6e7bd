(** Existence of eigendecompositions and singular value decompositions: the contracts [eig_contract] and
    [svd_contract] can be met. *)
From Coq Require Import List Arith Lia Reals Lra Bool IndefiniteDescription.
From Verif.Base Require Import ListAux CRing Index RealAux LinAlg.
From Verif.Model Require Import Numpy FullTensor Learning.
From Verif.Spec Require Import TensorSpec LearningSpec PolySpec TruncatorSpec.
From Verif.Proofs Require Import LearningP PolyP5 LapackP SpectralP.
Import ListNotations.
Local Open Scope R_scope.

Lemma rsum_app_R a b f : rsum (a + b) f = rsum a f + rsum b (fun i => f (a + i)%nat).
Proof.
  induction b as [|b IH]; [rewrite Nat.add_0_r; cbn; lra|]. rewrite Nat.add_succ_r, !rsum_S_R, IH. ring.
Qed.
Lemma parseval N q y i : orthonormal N N q -> (i < N)%nat -> y i = rsum N (fun d => q i d * dotp N (fun l => q l d) y).
Proof.
  intros HO Hi. unfold dotp. rewrite (rsum_ext_R' N _ (fun d => rsum N (fun l => q i d * q l d * y l))) by (intros; rewrite <- rsum_scal_l_R; apply rsum_ext_R'; intros; ring).
  rewrite rsum_swap_R. rewrite (rsum_ext_R' N _ (fun l => if (l =? i)%nat then y l else 0)); [rewrite rsum_delta_R; auto|].
  intros l Hl. rewrite rsum_scal_r_R, (rows_orthonormal N q HO) by auto. unfold kron_delta. rewrite Nat.eqb_sym. destruct (l =? i)%nat; ring.
Qed.
Lemma orthonormal_indep N k q c : orthonormal N k q -> (forall i, (i < N)%nat -> rsum k (fun d => c d * q i d) = 0) -> forall d, (d < k)%nat -> c d = 0.
Proof.
  intros HO H d Hd. assert (E : rsum N (fun i => q i d * rsum k (fun e => c e * q i e)) = 0) by (apply rsum_zero_R; intros i Hi; rewrite H by auto; ring).
  rewrite <- E. rewrite (rsum_ext_R' N _ (fun i => rsum k (fun e => c e * (q i d * q i e)))) by (intros; rewrite <- rsum_scal_l_R; apply rsum_ext_R'; intros; ring).
  rewrite rsum_swap_R. rewrite (rsum_ext_R' k _ (fun e => if (e =? d)%nat then c e else 0)); [rewrite rsum_delta_R; auto|].
  intros e He. rewrite rsum_scal_l_R, HO by auto. unfold delta_ij. rewrite Nat.eqb_sym. destruct (e =? d)%nat; ring.
Qed.
Theorem eig_exists n M : symm n M -> exists lam V, eig_contract n M lam V.
Proof.
  intros HM. destruct (spectral n M HM n (le_n n)) as (lam & v & HO & HE & _ & _). exists lam, v. split; [|split].
  - intros k i Hk Hi. exact (HE k i Hk Hi).
  - intros k Hk. rewrite (rsum_ext_R' n _ (fun i => v i k * v i k)) by (intros; ring). rewrite HO by auto. unfold delta_ij. rewrite Nat.eqb_refl. auto.
  - intros c Hc k Hk. exact (orthonormal_indep n n v c HO Hc k Hk).
Qed.

Section SVD.
  Variables (m n : nat) (M : nat -> nat -> R).
  Let G : nat -> nat -> R := fun i j => rsum m (fun l => M l i * M l j).
  Lemma gram_dot x y : bform n G x y = dotp m (mv n M x) (mv n M y).
  Proof.
    unfold bform, dotp, G. transitivity (rsum n (fun i => rsum n (fun j => rsum m (fun l => x i * M l i * (M l j * y j))))).
    { apply rsum_ext_R'. intros i _. unfold mv. rewrite <- rsum_scal_l_R. apply rsum_ext_R'. intros j _. rewrite <- rsum_scal_r_R, <- rsum_scal_l_R. apply rsum_ext_R'. intros; ring. }
    transitivity (rsum m (fun l => rsum n (fun i => rsum n (fun j => x i * M l i * (M l j * y j))))).
    { rewrite (rsum_swap_R m n). apply rsum_ext_R'. intros i _. apply rsum_swap_R. }
    apply rsum_ext_R'. intros l _. unfold mv. rewrite rmul_rsum_R. apply rsum_ext_R'. intros i _. apply rsum_ext_R'. intros; ring.
  Qed.
  Theorem svd_exists : exists (u : nat -> nat -> R) (s : nat -> R) (v : nat -> nat -> R), let k := Nat.min m n in
    orthonormal m k u /\ orthonormal n k v /\ (forall c, (c < k)%nat -> 0 <= s c) /\ (forall c d, (c <= d)%nat -> (d < k)%nat -> s d <= s c) /\
    forall i j, (i < m)%nat -> (j < n)%nat -> M i j = rsum k (fun c => u i c * s c * v j c).
  Proof.
    assert (HG : symm n G) by (intros i j _ _; unfold G; apply rsum_ext_R'; intros; ring).
    destruct (spectral n G HG n (le_n n)) as (lam & v & HO & HE & HD & _).
    assert (HB : forall a b, (a < n)%nat -> (b < n)%nat -> dotp m (mv n M (fun j => v j a)) (mv n M (fun j => v j b)) = lam b * delta_ij a b).
    { intros a b Ha Hb. rewrite <- gram_dot. unfold bform. rewrite (rsum_ext_R' n _ (fun i => lam b * (v i a * v i b))) by (intros; rewrite HE by auto; ring). rewrite rsum_scal_l_R, HO by auto. auto. }
    assert (H0 : forall c, (c < n)%nat -> 0 <= lam c).
    { intros c Hc. pose proof (HB c c Hc Hc) as Q. unfold delta_ij in Q. rewrite Nat.eqb_refl, Rmult_1_r in Q. rewrite <- Q. apply dotp_nonneg. }
    set (s := fun c => sqrt (lam c)). assert (SS : forall c, (c < n)%nat -> s c * s c = lam c) by (intros c Hc; apply sqrt_sqrt; auto).
    assert (S0 : forall c, 0 <= s c) by (intros; apply sqrt_pos).
    assert (SD : forall c d, (c <= d)%nat -> (d < n)%nat -> s d <= s c) by (intros c d Hcd Hd; apply sqrt_le_1_alt; apply HD; auto).
    assert (Z : forall c, (c < n)%nat -> s c = 0 -> forall i, (i < m)%nat -> mv n M (fun j => v j c) i = 0).
    { intros c Hc Hs. apply dotp_zero. rewrite HB by auto. rewrite <- SS, Hs by auto. ring. }
    assert (HU : forall k, (k <= m)%nat -> (k <= n)%nat -> exists u, orthonormal m k u /\ forall c i, (c < k)%nat -> (i < m)%nat -> mv n M (fun j => v j c) i = s c * u i c).
    { induction k as [|k IH]; intros Hkm Hkn.
      - exists (fun _ _ => 0). split; [intros a b; lia|intros; lia].
      - destruct IH as (u & UO & UM); [lia|lia|].
        assert (HW : exists w, dotp m w w = 1 /\ (forall c, (c < k)%nat -> dotp m (fun i => u i c) w = 0) /\ forall i, (i < m)%nat -> mv n M (fun j => v j k) i = s k * w i).
        { destruct (Req_dec (s k) 0) as [E|E].
          - destruct (unit_vector m k u UO ltac:(lia)) as (w & W1 & W2). exists w. split; [rewrite <- W1; apply rsum_ext_R'; intros; ring|]. split; [exact W2|]. intros i Hi. rewrite Z, E by (auto; lia). ring.
          - exists (fun i => / s k * mv n M (fun j => v j k) i). split; [|split].
            + rewrite dotp_scal2, HB by lia. unfold delta_ij. rewrite Nat.eqb_refl, <- SS by lia. field. auto.
            + intros c Hc. rewrite dotp_sym, dotp_scal_l. assert (Sc : 0 < s c). { pose proof (SD c k ltac:(lia) ltac:(lia)). pose proof (S0 k). lra. }
              assert (Q : s c * dotp m (mv n M (fun j => v j k)) (fun i => u i c) = 0).
              { rewrite dotp_sym, <- dotp_scal_l. rewrite (dotp_ext m _ _ (mv n M (fun j => v j c)) (mv n M (fun j => v j k))); [|intros i Hi; rewrite UM by auto; auto]. rewrite HB by lia. unfold delta_ij. destruct (Nat.eqb_spec c k); [lia|ring]. }
              apply Rmult_integral in Q. destruct Q as [Q|Q]; [lra|]. rewrite Q. ring.
            + intros i Hi. field. auto. }
        destruct HW as (w & W1 & W2 & W3). exists (fun i c => if (c =? k)%nat then w i else u i c). split.
        + intros a b Ha Hb. unfold delta_ij. destruct (Nat.eqb_spec a k) as [->|Na], (Nat.eqb_spec b k) as [->|Nb].
          * rewrite Nat.eqb_refl. exact W1.
          * destruct (Nat.eqb_spec k b); [lia|]. rewrite <- (W2 b) by lia. apply rsum_ext_R'. intros; ring.
          * destruct (Nat.eqb_spec a k); [lia|]. rewrite <- (W2 a) by lia. apply rsum_ext_R'. intros; ring.
          * rewrite UO by lia. auto.
        + intros c i Hc Hi. destruct (Nat.eqb_spec c k) as [->|Nc]; [apply W3; auto|apply UM; auto; lia]. }
    destruct (HU (Nat.min m n)) as (u & UO & UM); [lia|lia|].
    assert (Ztail : forall c, (Nat.min m n <= c)%nat -> (c < n)%nat -> s c = 0).
    { intros c Hc Hcn. destruct (Req_dec (s c) 0) as [E|E]; auto. exfalso. assert (Ek : Nat.min m n = m) by lia. rewrite Ek in *.
      assert (Sc : 0 < s c) by (pose proof (S0 c); lra).
      assert (P : forall d, (d < m)%nat -> dotp m (fun l => u l d) (mv n M (fun j => v j c)) = 0).
      { intros d Hd. assert (Sd : 0 < s d). { pose proof (SD d c ltac:(lia) Hcn). lra. }
        assert (Q : s d * dotp m (fun l => u l d) (mv n M (fun j => v j c)) = 0).
        { rewrite <- dotp_scal_l. rewrite (dotp_ext m _ _ (mv n M (fun j => v j d)) (mv n M (fun j => v j c))); [|intros i Hi; rewrite UM by auto; auto]. rewrite HB by lia. unfold delta_ij. destruct (Nat.eqb_spec d c); [lia|ring]. }
        apply Rmult_integral in Q. destruct Q; [lra|auto]. }
      assert (Q : dotp m (mv n M (fun j => v j c)) (mv n M (fun j => v j c)) = 0).
      { apply rsum_zero_R. intros i Hi. rewrite (parseval m u (mv n M (fun j => v j c)) i UO Hi). rewrite rsum_zero_R; [ring|]. intros d Hd. rewrite P by auto. ring. }
      rewrite HB in Q by auto. unfold delta_ij in Q. rewrite Nat.eqb_refl, <- SS in Q by auto. nra. }
    exists u, s, v. cbn zeta. split; auto. split; [intros a b Ha Hb; apply HO; lia|]. split; [auto|]. split; [intros; apply SD; lia|].
    intros i j Hi Hj.
    transitivity (rsum n (fun c => mv n M (fun l => v l c) i * v j c)).
    { rewrite (parseval n v (fun l => M i l) j HO Hj). apply rsum_ext_R'. intros c _. unfold mv, dotp. rewrite Rmult_comm. f_equal. apply rsum_ext_R'. intros; ring. }
    replace n with (Nat.min m n + (n - Nat.min m n))%nat at 1 by lia. rewrite rsum_app_R.
    rewrite (rsum_zero_R (n - Nat.min m n)); [|intros c Hc; rewrite Z by (auto; try lia; apply Ztail; lia); ring].
    rewrite Rplus_0_r. apply rsum_ext_R'. intros c Hc. rewrite UM by auto. ring.
  Qed.
End SVD.
Theorem svd_contract_exists : exists svd, svd_contract svd.
Proof.
  destruct (functional_choice (fun (M : nd R) (r : nd R * list R * nd R) => forall m n, shape M = [m; n] ->
    let U := fst (fst r) in let s := snd (fst r) in let V := snd r in let k := Nat.min m n in
    shape U = [m; k] /\ length s = k /\ shape V = [k; n] /\
    (forall c, (c < k)%nat -> 0 <= nth c s 0) /\
    (forall c d, (c <= d)%nat -> (d < k)%nat -> nth d s 0 <= nth c s 0) /\
    (forall a b, (a < k)%nat -> (b < k)%nat -> rsum m (fun i => get U [i; a] * get U [i; b]) = if (a =? b)%nat then 1 else 0) /\
    (forall a b, (a < k)%nat -> (b < k)%nat -> rsum n (fun j => get V [a; j] * get V [b; j]) = if (a =? b)%nat then 1 else 0) /\
    (forall i j, (i < m)%nat -> (j < n)%nat -> get M [i; j] = rsum k (fun c => get U [i; c] * nth c s 0 * get V [c; j])))) as [f Hf].
  - intros M. destruct (shape M) as [|m [|n [|? ?]]] eqn:ES; try (exists (scalar 0, [], scalar 0); intros; congruence).
    destruct (svd_exists m n (fun i j => get M [i; j])) as (u & s & v & UO & VO & S0 & SD & HM). set (k := Nat.min m n) in *.
    exists (ND [m; k] (fun is => u (nth 0 is 0%nat) (nth 1 is 0%nat)), map s (seq 0 k), ND [k; n] (fun is => v (nth 1 is 0%nat) (nth 0 is 0%nat))).
    intros m' n' Hs. injection Hs as <- <-. cbn zeta. fold k. cbn [fst snd shape get nth].
    assert (Es : forall c, (c < k)%nat -> nth c (map s (seq 0 k)) 0 = s c) by (intros c Hc; apply (nth_map_seq s); auto).
    split; auto. split; [rewrite map_length, seq_length; auto|]. split; auto. split; [intros c Hc; rewrite Es by auto; auto|].
    split; [intros c d Hcd Hd; rewrite !Es by lia; auto|]. split; [exact UO|]. split; [exact VO|].
    intros i j Hi Hj. rewrite (HM i j Hi Hj). apply rsum_ext_R'. intros c Hc. rewrite Es by auto. auto.
  - exists f. exact Hf.
Qed.
