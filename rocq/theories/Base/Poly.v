(** Univariate real polynomials as coefficient lists (constant coefficient first). *)
From Coq Require Import List Arith Reals Lia Lra.
From Verif.Base Require Import ListAux.
Import ListNotations.
Local Open Scope R_scope.

(** c_0 + c_1 x + c_2 x^2 + ... *)
Fixpoint peval (p : list R) (x : R) : R := match p with [] => 0 | c :: p' => c + x * peval p' x end.
Fixpoint padd (p q : list R) : list R :=
  match p, q with [], _ => q | _, [] => p | a :: p', b :: q' => (a + b) :: padd p' q' end.
Definition pscal (c : R) (p : list R) : list R := map (Rmult c) p.
Fixpoint pmul (p q : list R) : list R :=
  match p with [] => [] | a :: p' => padd (pscal a q) (0 :: pmul p' q) end.
Fixpoint pderiv_from (k : nat) (p : list R) : list R :=
  match p with [] => [] | c :: p' => INR k * c :: pderiv_from (S k) p' end.
Definition pderiv (p : list R) : list R := pderiv_from 1 (tl p).

Lemma peval_padd p q x : peval (padd p q) x = peval p x + peval q x.
Proof. revert q; induction p as [|a p IH]; intros [|b q]; cbn; try lra. rewrite IH. lra. Qed.
Lemma peval_pscal c p x : peval (pscal c p) x = c * peval p x.
Proof. induction p as [|a p IH]; cbn; [lra|]. unfold pscal in IH. rewrite IH. lra. Qed.
Lemma peval_pmul p q x : peval (pmul p q) x = peval p x * peval q x.
Proof. induction p as [|a p IH]; cbn; [lra|]. rewrite peval_padd, peval_pscal. cbn. rewrite IH. lra. Qed.

Lemma padd_length p q : length (padd p q) = Nat.max (length p) (length q).
Proof. revert q; induction p as [|a p IH]; intros [|b q]; cbn; auto. Qed.
Lemma pscal_length c p : length (pscal c p) = length p.
Proof. apply map_length. Qed.
Lemma pderiv_from_length k p : length (pderiv_from k p) = length p.
Proof. revert k; induction p; cbn; auto. Qed.
Lemma pderiv_length p : length (pderiv p) = (length p - 1)%nat.
Proof. unfold pderiv. rewrite pderiv_from_length. destruct p; cbn; lia. Qed.

Lemma pderiv_from_S k p x : peval (pderiv_from (S k) p) x = peval (pderiv_from k p) x + peval p x.
Proof.
  revert k. induction p as [|c p IH]; intros k; [cbn; lra|].
  cbn [pderiv_from peval]. rewrite (IH (S k)), S_INR. lra.
Qed.

Lemma pderiv_cons c p x : peval (pderiv (c :: p)) x = peval p x + x * peval (pderiv p) x.
Proof.
  unfold pderiv. cbn [tl]. destruct p as [|a p]; [cbn; lra|].
  cbn [pderiv_from tl peval]. rewrite pderiv_from_S. cbn [INR]. lra.
Qed.

Lemma peval_deriv p x : derivable_pt_lim (peval p) x (peval (pderiv p) x).
Proof.
  induction p as [|c p IH].
  - cbn. apply (derivable_pt_lim_const 0).
  - rewrite pderiv_cons.
    replace (peval p x + x * peval (pderiv p) x) with (0 + (1 * peval p x + x * peval (pderiv p) x)) by lra.
    apply (derivable_pt_lim_plus (fct_cte c) (id * peval p)%F).
    + apply derivable_pt_lim_const.
    + apply derivable_pt_lim_mult; auto. apply derivable_pt_lim_id.
Qed.

(** polynomials vanishing everywhere have zero coefficients *)
Lemma peval_zero p : (forall x, peval p x = 0) -> forall k, nth k p 0 = 0.
Proof.
  remember (length p) as n eqn:En. revert p En. induction n as [|n IH]; intros p En H k.
  - destruct p; [|discriminate]. destruct k; auto.
  - destruct p as [|c p]; [discriminate|]. injection En as En.
    assert (Hc : c = 0). { pose proof (H 0) as H0. cbn in H0. lra. }
    destruct k as [|k]; [exact Hc|]. cbn [nth].
    assert (HD : forall x, peval (pderiv (c :: p)) x = 0).
    { intros x. apply (uniqueness_limite (peval (c :: p)) x); [apply peval_deriv|].
      apply (derivable_pt_lim_ext (fct_cte 0)); [intros z; symmetry; apply H|]. apply derivable_pt_lim_const. }
    pose proof (IH (pderiv (c :: p))) as IH'. rewrite pderiv_length in IH'. cbn [length] in IH'.
    specialize (IH' ltac:(lia) HD k). unfold pderiv in IH'. cbn [tl] in IH'.
    assert (E : forall m q j, nth j (pderiv_from m q) 0 = INR (m + j) * nth j q 0).
    { clear. intros m q. revert m. induction q as [|a q IHq]; intros m j.
      - cbn. destruct j; lra.
      - destruct j; cbn [pderiv_from nth]; [rewrite Nat.add_0_r; auto|]. rewrite IHq. do 2 f_equal. lia. }
    rewrite E in IH'. apply Rmult_integral in IH'. destruct IH' as [C|]; auto.
    pose proof (not_0_INR (1 + k) ltac:(lia)). lra.
Qed.

Lemma nth_padd k p q : nth k (padd p q) 0 = nth k p 0 + nth k q 0.
Proof.
  revert p q; induction k as [|k IH]; intros [|a p] [|b q]; cbn; auto; try lra.
Qed.
Lemma nth_pscal k c p : nth k (pscal c p) 0 = c * nth k p 0.
Proof. revert p; induction k as [|k IH]; intros [|a p]; cbn; auto; try lra. apply IH. Qed.

Lemma peval_unique p q : (forall x, peval p x = peval q x) -> forall k, nth k p 0 = nth k q 0.
Proof.
  intros H k. assert (E := peval_zero (padd p (pscal (-1) q))).
  assert (E0 : forall x, peval (padd p (pscal (-1) q)) x = 0) by (intros x; rewrite peval_padd, peval_pscal, H; lra).
  specialize (E E0 k).
  rewrite nth_padd, nth_pscal in E. lra.
Qed.

Lemma peval_app p q x : peval (p ++ q) x = peval p x + x ^ length p * peval q x.
Proof. induction p as [|a p IH]; cbn; [lra|]. rewrite IH. lra. Qed.

Lemma peval_zeros n x : peval (repeat 0 n) x = 0.
Proof. induction n; cbn; auto. rewrite IHn. lra. Qed.

Lemma peval_ext p q x : (forall k, nth k p 0 = nth k q 0) -> peval p x = peval q x.
Proof.
  revert q; induction p as [|a p IH]; intros q H.
  - cbn [peval]. symmetry. assert (H' : forall k, nth k q 0 = 0). { intros k. rewrite <- H. destruct k; auto. }
    clear H. induction q as [|b q IHq]; auto. cbn [peval]. rewrite IHq.
    + pose proof (H' 0%nat) as H0. cbn in H0. rewrite H0. lra.
    + intros k. apply (H' (S k)).
  - destruct q as [|b q].
    + pose proof (H 0%nat) as H0. cbn in H0. cbn [peval]. rewrite H0, (IH []); [cbn; lra|].
      intros k. pose proof (H (S k)) as H1. cbn [nth] in H1. rewrite H1. destruct k; auto.
    + cbn [peval]. pose proof (H 0%nat) as H0. cbn in H0. rewrite H0. rewrite (IH q); auto. intros k. apply (H (S k)).
Qed.

(** a monic polynomial of degree n has at most n distinct roots *)
Fixpoint synth (p : list R) (r : R) : list R :=  (* quotient by (x - r) *)
  match p with [] => [] | _ :: p' => match p' with [] => [] | _ => peval p' r :: synth p' r end end.
Lemma synth_eval p r x : peval p x = peval p r + (x - r) * peval (synth p r) x.
Proof.
  induction p as [|c p IH]; [cbn; lra|]. destruct p as [|c' p]; [cbn; lra|].
  change (synth (c :: c' :: p) r) with (peval (c' :: p) r :: synth (c' :: p) r).
  cbn [peval] in *. rewrite IH. ring.
Qed.
Lemma synth_length p r : length (synth p r) = (length p - 1)%nat.
Proof. induction p as [|c p IH]; auto. destruct p; auto. cbn [synth length] in *. rewrite IH. cbn. lia. Qed.
Lemma synth_last p r : (2 <= length p)%nat -> last (synth p r) 0 = last p 0.
Proof.
  induction p as [|c p IH]; cbn [length]; intros H; [lia|]. destruct p as [|c' [|c'' p]]; [cbn in H; lia| |].
  - cbn. lra.
  - change (synth (c :: c' :: c'' :: p) r) with (peval (c' :: c'' :: p) r :: synth (c' :: c'' :: p) r).
    change (last (c :: c' :: c'' :: p) 0) with (last (c' :: c'' :: p) 0). rewrite <- IH by (cbn; lia).
    change (synth (c' :: c'' :: p) r) with (peval (c'' :: p) r :: synth (c'' :: p) r). auto.
Qed.

Lemma roots_bound p rs : NoDup rs -> (forall r, In r rs -> peval p r = 0) -> last p 0 <> 0 -> (length rs < length p)%nat.
Proof.
  revert p. induction rs as [|r rs IH]; intros p ND H HL.
  - destruct p; cbn in *; [lra|lia].
  - inversion ND as [|? ? Hn ND']; subst.
    destruct p as [|c [|c' p]].
    + cbn in HL. lra.
    + cbn in HL. pose proof (H r (or_introl eq_refl)) as Hr. cbn in Hr. lra.
    + set (P := c :: c' :: p) in *.
      assert (L : (length rs < length (synth P r))%nat).
      { apply IH; auto.
        - intros s Hs. assert (s <> r) by (intros ->; auto).
          pose proof (synth_eval P r s) as E. rewrite (H s) in E by (right; auto).
          rewrite (H r (or_introl eq_refl)) in E. assert (E' : (s - r) * peval (synth P r) s = 0) by lra.
          apply Rmult_integral in E'. destruct E'; [lra|auto].
        - rewrite synth_last by (unfold P; cbn; lia). auto. }
      rewrite synth_length in L. cbn [length] in *. lia.
Qed.
