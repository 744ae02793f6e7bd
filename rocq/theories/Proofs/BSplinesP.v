(** Proofs about B-splines. *)
From Coq Require Import List Arith Lia Reals Lra Bool ZArith.
From Verif.Base Require Import ListAux CRing RealAux.
From Verif.Model Require Import BSplines.
From Verif.Spec Require Import BSplineSpec.
From Verif.Proofs Require Import PolyP5.
Import ListNotations.
Local Open Scope R_scope.

(** ** the Cox-de Boor recursion for an infinite increasing sequence of knots *)
Definition b0 (t : nat -> R) (i : nat) (x : R) : R := if Rlt_dec (t i) x then if Rle_dec x (t (S i)) then 1 else 0 else 0.
Fixpoint D (t : nat -> R) (k j i : nat) (x : R) : R :=
  match j with
  | O => if (k =? 0)%nat then b0 t i x else 0
  | S j' =>
    INR k / (t (i + j)%nat - t i) * D t (k - 1) j' i x - INR k / (t (i + j + 1)%nat - t (i + 1)%nat) * D t (k - 1) j' (i + 1) x
    + (x - t i) / (t (i + j)%nat - t i) * D t k j' i x + (t (i + j + 1)%nat - x) / (t (i + j + 1)%nat - t (i + 1)%nat) * D t k j' (i + 1) x
  end.
Definition B t j i x := D t 0 j i x.
Lemma B_S t j i x : B t (S j) i x = (x - t i) / (t (i + S j)%nat - t i) * B t j i x + (t (i + S j + 1)%nat - x) / (t (i + S j + 1)%nat - t (i + 1)%nat) * B t j (i + 1) x.
Proof. unfold B. cbn [D]. change (INR 0) with 0. unfold Rdiv. ring. Qed.
Lemma B_0 t i x : B t 0 i x = b0 t i x. Proof. reflexivity. Qed.

Lemma D_ext t t' c : forall j k i i' x, (forall l, (l <= j + 1)%nat -> t (i + l)%nat = t' (i' + l)%nat + c) -> D t k j i x = D t' k j i' (x - c).
Proof.
  induction j as [|j IH]; intros k i i' x H.
  - cbn [D]. destruct (k =? 0)%nat; auto. pose proof (H 0%nat ltac:(lia)) as E0. pose proof (H 1%nat ltac:(lia)) as E1. rewrite !Nat.add_0_r in E0.
    rewrite !Nat.add_1_r in E1. unfold b0. rewrite E0, E1.
    destruct (Rlt_dec (t' i' + c) x), (Rlt_dec (t' i') (x - c)); try lra; destruct (Rle_dec x (t' (S i') + c)), (Rle_dec (x - c) (t' (S i'))); lra.
  - cbn [D]. pose proof (H 0%nat ltac:(lia)) as E0. pose proof (H 1%nat ltac:(lia)) as E1. pose proof (H (S j)%nat ltac:(lia)) as E2. pose proof (H (S j + 1)%nat ltac:(lia)) as E3.
    rewrite !Nat.add_0_r in E0. rewrite !Nat.add_assoc in E3.
    rewrite (IH (k - 1)%nat i i' x), (IH (k - 1)%nat (i + 1)%nat (i' + 1)%nat x), (IH k i i' x), (IH k (i + 1)%nat (i' + 1)%nat x).
    + rewrite E0, E1, E2, E3. replace (t' (i' + S j)%nat + c - (t' i' + c)) with (t' (i' + S j)%nat - t' i') by ring.
      replace (t' (i' + S j + 1)%nat + c - (t' (i' + 1)%nat + c)) with (t' (i' + S j + 1)%nat - t' (i' + 1)%nat) by ring.
      unfold Rdiv. ring.
    + intros l Hl. rewrite <- !Nat.add_assoc. apply H. lia.
    + intros l Hl. apply H. lia.
    + intros l Hl. rewrite <- !Nat.add_assoc. apply H. lia.
    + intros l Hl. apply H. lia.
Qed.

Section Inf.
  Variable t : nat -> R.
  Hypothesis Ht : forall i, t i < t (S i).
  Lemma t_lt i j : (i < j)%nat -> t i < t j.
  Proof. induction 1; [apply Ht|]. apply Rlt_trans with (t m); auto. Qed.
  Lemma t_le i j : (i <= j)%nat -> t i <= t j.
  Proof. intros H. destruct (Nat.eq_dec i j) as [->|Hn]; [lra|]. apply Rlt_le, t_lt. lia. Qed.
  Lemma t_gap i j : (i < j)%nat -> 0 < t j - t i.
  Proof. intros H. pose proof (t_lt i j H). lra. Qed.

  (** support and sign *)
  Lemma B_left j : forall i x, x <= t i -> B t j i x = 0.
  Proof.
    induction j as [|j IH]; intros i x Hx.
    - rewrite B_0. unfold b0. destruct (Rlt_dec (t i) x); lra.
    - rewrite B_S. rewrite (IH i), (IH (i + 1)%nat); try ring; auto. pose proof (t_lt i (i + 1) ltac:(lia)). lra.
  Qed.
  Lemma B_right j : forall i x, t (i + j + 1)%nat < x -> B t j i x = 0.
  Proof.
    induction j as [|j IH]; intros i x Hx.
    - rewrite B_0. unfold b0. replace (i + 0 + 1)%nat with (S i) in Hx by lia. destruct (Rlt_dec (t i) x); auto. destruct (Rle_dec x (t (S i))); lra.
    - rewrite B_S. rewrite (IH i), (IH (i + 1)%nat); try ring.
      + replace (i + 1 + j + 1)%nat with (i + S j + 1)%nat by lia. auto.
      + pose proof (t_lt (i + j + 1) (i + S j + 1) ltac:(lia)). lra.
  Qed.
  Lemma B_end j : forall i, (0 < j)%nat -> B t j i (t (i + j + 1)%nat) = 0.
  Proof.
    induction j as [|j IH]; intros i Hj; [lia|].
    rewrite B_S. rewrite (B_right j i) by (apply t_lt; lia). unfold Rdiv. ring.
  Qed.
  Lemma B_pos j : forall i x, t i < x -> x < t (i + j + 1)%nat \/ j = 0%nat /\ x = t (i + 1)%nat -> 0 < B t j i x.
  Proof.
    induction j as [|j IH]; intros i x H1 H2.
    - rewrite B_0. unfold b0. replace (i + 0 + 1)%nat with (S i) in H2 by lia. replace (i + 1)%nat with (S i) in H2 by lia.
      destruct (Rlt_dec (t i) x); [|lra]. destruct (Rle_dec x (t (S i))); lra.
    - destruct H2 as [H2|[? _]]; [|lia]. rewrite B_S.
      assert (Hh1 : 0 < / (t (i + S j)%nat - t i)) by (apply Rinv_0_lt_compat, t_gap; lia).
      assert (Hh2 : 0 < / (t (i + S j + 1)%nat - t (i + 1)%nat)) by (apply Rinv_0_lt_compat, t_gap; lia).
      assert (NN : forall i, 0 <= B t j i x).
      { intros i0. destruct (Rle_dec x (t i0)) as [H|H]; [rewrite B_left by auto; lra|].
        destruct (Rlt_dec x (t (i0 + j + 1)%nat)) as [H'|H']; [apply Rlt_le, IH; [lra|auto]|].
        destruct (Req_dec x (t (i0 + j + 1)%nat)) as [E|E].
        - destruct (Nat.eq_dec j 0) as [Ej|Ej].
          + apply Rlt_le, IH; [lra|]. right. split; auto. rewrite E. f_equal. lia.
          + rewrite E, B_end by lia. lra.
        - rewrite B_right by lra. lra. }
      unfold Rdiv. destruct (Rle_dec x (t (i + 1)%nat)) as [H|H].
      + assert (0 < B t j i x).
        { apply IH; auto. destruct (Nat.eq_dec j 0) as [Ej|Ej].
          - destruct (Req_dec x (t (i + 1)%nat)); [right; auto|]. left. replace (i + j + 1)%nat with (i + 1)%nat by lia. lra.
          - left. pose proof (t_lt (i + 1) (i + j + 1) ltac:(lia)). lra. }
        apply Rplus_lt_le_0_compat.
        * apply Rmult_lt_0_compat; auto. apply Rmult_lt_0_compat; auto. lra.
        * apply Rmult_le_pos; [|apply NN]. apply Rmult_le_pos; lra.
      + assert (0 < B t j (i + 1) x).
        { apply IH; [lra|]. left. replace (i + 1 + j + 1)%nat with (i + S j + 1)%nat by lia. auto. }
        apply Rplus_le_lt_0_compat.
        * apply Rmult_le_pos; [|apply NN]. apply Rmult_le_pos; lra.
        * apply Rmult_lt_0_compat; auto. apply Rmult_lt_0_compat; auto. lra.
  Qed.
  Lemma B_nonneg j i x : 0 <= B t j i x.
  Proof.
    destruct (Rle_dec x (t i)) as [H|H]; [rewrite B_left by auto; lra|].
    destruct (Rlt_dec x (t (i + j + 1)%nat)) as [H'|H']; [apply Rlt_le, B_pos; [lra|auto]|].
    destruct (Req_dec x (t (i + j + 1)%nat)) as [E|E].
    - destruct (Nat.eq_dec j 0) as [Ej|Ej].
      + apply Rlt_le, B_pos; [lra|]. right. split; auto. rewrite E. f_equal. lia.
      + rewrite E, B_end by lia. lra.
    - rewrite B_right by lra. lra.
  Qed.

  (** partition of unity *)
  Lemma tele (f : nat -> R) n : rsum n (fun k => f k - f (S k)) = f 0%nat - f n.
  Proof. induction n as [|n IH]; cbn [rsum]; rcbn; [lra|]. change (rsum n (fun k => f k - f (S k)) + (f n - f (S n)) = f 0%nat - f (S n)). rewrite IH. ring. Qed.
  Lemma unity p : forall a n x, t (a + p)%nat < x -> x <= t (a + n)%nat -> rsum n (fun k => B t p (a + k) x) = 1.
  Proof.
    induction p as [|p IH]; intros a n x H1 H2.
    - rewrite (rsum_ext_R n _ (fun k => (fun k => if Rlt_dec (t (a + k)%nat) x then 1 else 0) k - (fun k => if Rlt_dec (t (a + k)%nat) x then 1 else 0) (S k))).
      + rewrite tele. rewrite Nat.add_0_r in *. destruct (Rlt_dec (t a) x); [|lra]. destruct (Rlt_dec (t (a + n)%nat) x); lra.
      + intros k Hk. rewrite B_0. unfold b0. replace (a + S k)%nat with (S (a + k)) by lia. pose proof (Ht (a + k)).
        destruct (Rlt_dec (t (a + k)%nat) x); destruct (Rlt_dec (t (S (a + k))) x); try lra; destruct (Rle_dec x (t (S (a + k)))); lra.
    - set (u k := (x - t (a + k)%nat) / (t (a + k + S p)%nat - t (a + k)%nat) * B t p (a + k) x).
      rewrite (rsum_ext_R n _ (fun k => (u k - u (S k)) + B t p (a + 1 + k) x)).
      + rewrite rsum_plus_R, tele.
        assert (Hn : exists m, n = S m).
        { destruct n as [|m]; [|exists m; auto]. rewrite Nat.add_0_r in H2. pose proof (t_lt a (a + S p) ltac:(lia)). lra. }
        destruct Hn as [m ->]. cbn [rsum]. change (u 0%nat - u (S m) + (rsum m (fun k => B t p (a + 1 + k) x) + B t p (a + 1 + m) x) = 1).
        rewrite (IH (a + 1)%nat m x).
        * assert (B t p (a + 1 + m) x = 0) as E1 by (apply B_left; replace (a + 1 + m)%nat with (a + S m)%nat by lia; auto).
          assert (B t p (a + S m) x = 0) as E2 by (apply B_left; auto).
          unfold u. rewrite Nat.add_0_r, E1, E2. rewrite (B_right p a) by (replace (a + p + 1)%nat with (a + S p)%nat by lia; auto). ring.
        * replace (a + 1 + p)%nat with (a + S p)%nat by lia. auto.
        * replace (a + 1 + m)%nat with (a + S m)%nat by lia. auto.
      + intros k Hk. rewrite B_S. unfold u. replace (a + S k)%nat with (a + k + 1)%nat by lia. replace (a + 1 + k)%nat with (a + k + 1)%nat by lia.
        replace (a + k + 1 + S p)%nat with (a + k + S p + 1)%nat by lia. pose proof (t_gap (a + k + 1) (a + k + S p + 1) ltac:(lia)).
        pose proof (t_gap (a + k) (a + k + S p) ltac:(lia)). field. lra.
  Qed.

  (** derivatives away from the knots *)
  Definition off (j i : nat) (x : R) : Prop := forall l, (l <= j + 1)%nat -> x <> t (i + l)%nat.
  Lemma b0_locally_const i x : x <> t i -> x <> t (S i) -> derivable_pt_lim (b0 t i) x 0.
  Proof.
    intros H1 H2 eps Heps. pose proof (Ht i).
    assert (0 < Rmin (Rabs (x - t i)) (Rabs (x - t (S i)))) as Hd by (apply Rmin_pos; apply Rabs_pos_lt; lra).
    exists (mkposreal _ Hd). cbn. intros h Hh Hl.
    assert (b0 t i (x + h) = b0 t i x).
    { pose proof (Rmin_l (Rabs (x - t i)) (Rabs (x - t (S i)))). pose proof (Rmin_r (Rabs (x - t i)) (Rabs (x - t (S i)))).
      assert (L1 : Rabs h < Rabs (x - t i)) by lra. assert (L2 : Rabs h < Rabs (x - t (S i))) by lra. clear - H1 H2 L1 L2 H.
      unfold b0. unfold Rabs in *. destruct (Rcase_abs h), (Rcase_abs (x - t i)), (Rcase_abs (x - t (S i)));
      destruct (Rlt_dec (t i) (x + h)), (Rlt_dec (t i) x); try lra; destruct (Rle_dec (x + h) (t (S i))), (Rle_dec x (t (S i))); lra. }
    rewrite H0. replace ((b0 t i x - b0 t i x) / h - 0) with 0 by (unfold Rdiv; ring). rewrite Rabs_R0. auto.
  Qed.
  Lemma dlin a b c x : derivable_pt_lim (fun y => (y - a) / b * c) x (c / b).
  Proof.
    replace (c / b) with (1 * (/ b * c) + (x - a) * 0) by (unfold Rdiv; ring).
    apply derivable_pt_lim_ext with (f := mult_fct (fun y => y - a) (fct_cte (/ b * c))); [intros y; unfold mult_fct, fct_cte, Rdiv; ring|].
    apply (derivable_pt_lim_mult (fun y => y - a) (fct_cte (/ b * c)) x 1 0).
    - replace 1 with (1 - 0) by ring. apply derivable_pt_lim_minus; [apply derivable_pt_lim_id|apply derivable_pt_lim_const].
    - apply derivable_pt_lim_const.
  Qed.
  (** derivative of the recursion *)
  Lemma step_deriv k j i x d1 d2 d3 d4 :
    derivable_pt_lim (D t (k - 1) j i) x d1 -> derivable_pt_lim (D t (k - 1) j (i + 1)) x d2 ->
    derivable_pt_lim (D t k j i) x d3 -> derivable_pt_lim (D t k j (i + 1)) x d4 ->
    derivable_pt_lim (D t k (S j) i) x
      (INR k / (t (i + S j)%nat - t i) * d1 - INR k / (t (i + S j + 1)%nat - t (i + 1)%nat) * d2
       + (1 / (t (i + S j)%nat - t i) * D t k j i x + (x - t i) / (t (i + S j)%nat - t i) * d3)
       + (- 1 / (t (i + S j + 1)%nat - t (i + 1)%nat) * D t k j (i + 1) x + (t (i + S j + 1)%nat - x) / (t (i + S j + 1)%nat - t (i + 1)%nat) * d4)).
  Proof.
    intros H1 H2 H3 H4. set (h := t (i + S j)%nat - t i) in *. set (h' := t (i + S j + 1)%nat - t (i + 1)%nat) in *.
    apply derivable_pt_lim_ext with (f := plus_fct (plus_fct (minus_fct (mult_real_fct (INR k / h) (D t (k - 1) j i)) (mult_real_fct (INR k / h') (D t (k - 1) j (i + 1))))
        (mult_fct (fun y => (y - t i) / h * 1) (D t k j i))) (mult_fct (fun y => (y - t (i + S j + 1)%nat) / h' * (-1)) (D t k j (i + 1)))).
    { intros y. unfold plus_fct, minus_fct, mult_fct, mult_real_fct. cbn [D]. fold h h'. unfold Rdiv. ring. }
    apply derivable_pt_lim_plus; [apply derivable_pt_lim_plus; [apply derivable_pt_lim_minus; apply derivable_pt_lim_scal; auto|]|].
    - replace (1 / h * D t k j i x + (x - t i) / h * d3) with (1 / h * D t k j i x + (x - t i) / h * 1 * d3) by ring.
      apply (derivable_pt_lim_mult (fun y => (y - t i) / h * 1) (D t k j i) x (1 / h) d3); [apply dlin|auto].
    - replace (- 1 / h' * D t k j (i + 1) x + (t (i + S j + 1)%nat - x) / h' * d4) with ((-1) / h' * D t k j (i + 1) x + (x - t (i + S j + 1)%nat) / h' * (-1) * d4) by (unfold Rdiv; ring).
      apply (derivable_pt_lim_mult (fun y => (y - t (i + S j + 1)%nat) / h' * (-1)) (D t k j (i + 1)) x ((-1) / h') d4); [apply dlin|auto].
  Qed.
  Lemma D_deriv_off j : forall k i x, off j i x -> derivable_pt_lim (D t k j i) x (D t (S k) j i x).
  Proof.
    induction j as [|j IH]; intros k i x Hx.
    - pose proof (Hx 0%nat ltac:(lia)) as H0. pose proof (Hx 1%nat ltac:(lia)) as H1. rewrite Nat.add_0_r in H0. rewrite Nat.add_1_r in H1.
      destruct k as [|k].
      + apply derivable_pt_lim_ext with (f := b0 t i); [reflexivity|]. cbn [D Nat.eqb]. apply b0_locally_const; auto.
      + apply derivable_pt_lim_ext with (f := fct_cte 0); [reflexivity|]. cbn [D Nat.eqb]. apply derivable_pt_lim_const.
    - assert (X0 : off j i x) by (intros l Hl; apply Hx; lia).
      assert (X1 : off j (i + 1) x) by (intros l Hl; rewrite <- Nat.add_assoc; apply Hx; lia).
      destruct k as [|k].
      + pose proof (step_deriv 0 j i x _ _ _ _ (IH 0%nat i x X0) (IH 0%nat (i + 1)%nat x X1) (IH 0%nat i x X0) (IH 0%nat (i + 1)%nat x X1)) as H.
        eapply eq_ind; [exact H|]. cbn [D Nat.sub]. change (INR 0) with 0. change (INR 1) with 1. unfold Rdiv. ring.
      + pose proof (step_deriv (S k) j i x _ _ _ _ (IH (S k - 1)%nat i x X0) (IH (S k - 1)%nat (i + 1)%nat x X1) (IH (S k) i x X0) (IH (S k) (i + 1)%nat x X1)) as H.
        replace (S k - 1)%nat with k in H by lia.
        eapply eq_ind; [exact H|]. cbn [D]. replace (S (S k) - 1)%nat with (S k) by lia. rewrite (S_INR (S k)). unfold Rdiv. ring.
  Qed.

  (** de Boor's formula for the derivative *)
  Lemma D_formula j : forall k i x, D t (S k) (S j) i x =
    INR (S j) * (D t k j i x / (t (i + S j)%nat - t i) - D t k j (i + 1) x / (t (i + S j + 1)%nat - t (i + 1)%nat)).
  Proof.
    induction j as [|j IH]; intros k i x.
    - cbn [D]. replace (S k - 1)%nat with k by lia. cbn [Nat.eqb]. destruct (Nat.eqb_spec k 0) as [->|Hk]; [change (INR 1) with 1|]; unfold Rdiv; ring.
    - assert (AUX : forall i, INR (S j) * ((x - t i) / (t (i + S j)%nat - t i) * D t k j i x + (t (i + S j + 1)%nat - x) / (t (i + S j + 1)%nat - t (i + 1)%nat) * D t k j (i + 1) x)
                 = (INR (S j) - INR k) * D t k (S j) i x).
      { intros i0. destruct k as [|k].
        - cbn [D]. change (INR 0) with 0. unfold Rdiv. ring.
        - pose proof (IH k i0 x) as E.
          assert (E2 : D t (S k) (S j) i0 x = INR (S k) * (D t (S k) (S j) i0 x / INR (S j)) + ((x - t i0) / (t (i0 + S j)%nat - t i0) * D t (S k) j i0 x
              + (t (i0 + S j + 1)%nat - x) / (t (i0 + S j + 1)%nat - t (i0 + 1)%nat) * D t (S k) j (i0 + 1) x)).
          { rewrite E at 2. cbn [D]. replace (S k - 1)%nat with k by lia. pose proof (lt_0_INR (S j) ltac:(lia)).
            pose proof (t_gap i0 (i0 + S j) ltac:(lia)). pose proof (t_gap (i0 + 1) (i0 + S j + 1) ltac:(lia)). field. lra. }
          pose proof (lt_0_INR (S j) ltac:(lia)).
          apply (f_equal (fun z => INR (S j) * z)) in E2. replace ((INR (S j) - INR (S k)) * D t (S k) (S j) i0 x)
            with (INR (S j) * D t (S k) (S j) i0 x - INR (S k) * D t (S k) (S j) i0 x) by ring. rewrite E2 at 1.
          pose proof (t_gap i0 (i0 + S j) ltac:(lia)). pose proof (t_gap (i0 + 1) (i0 + S j + 1) ltac:(lia)). field. lra. }
      remember (S j) as p eqn:Ep. cbn [D]. replace (S k - 1)%nat with k by lia.
      pose proof (AUX i) as A1. pose proof (AUX (i + 1)%nat) as A2. rewrite Ep in IH. pose proof (IH k i x) as I1. pose proof (IH k (i + 1)%nat x) as I2. rewrite <- Ep in I1, I2.
      rewrite I1, I2. set (X0 := D t k j i x) in *. set (X1 := D t k j (i + 1) x) in *. set (X2 := D t k j (i + 1 + 1) x) in *.
      set (Y0 := D t k p i x) in *. set (Y1 := D t k p (i + 1) x) in *.
      replace (i + S p)%nat with (i + p + 1)%nat in * by lia. replace (i + 1 + p)%nat with (i + p + 1)%nat in * by lia.
      pose proof (t_gap i (i + p) ltac:(lia)). pose proof (t_gap (i + 1) (i + p + 1) ltac:(lia)). pose proof (t_gap i (i + p + 1) ltac:(lia)).
      pose proof (t_gap (i + 1) (i + p + 1 + 1) ltac:(lia)). pose proof (t_gap (i + 1 + 1) (i + p + 1 + 1) ltac:(lia)).
      set (u0 := t i) in *. set (u1 := t (i + 1)%nat) in *. set (u2 := t (i + 1 + 1)%nat) in *. set (v0 := t (i + p)%nat) in *. set (v1 := t (i + p + 1)%nat) in *. set (v2 := t (i + p + 1 + 1)%nat) in *.
      rewrite (S_INR p), (S_INR k).
      set (q := INR p) in *. set (kk := INR k) in *. clearbody X0 X1 X2 Y0 Y1 u0 u1 u2 v0 v1 v2 q kk.
      assert (G : (q - kk) * Y0 / (v1 - u0) - (q - kk) * Y1 / (v2 - u1) = (x - u0) / (v1 - u0) * (q * (X0 / (v0 - u0) - X1 / (v1 - u1))) + (v2 - x) / (v2 - u1) * (q * (X1 / (v1 - u1) - X2 / (v2 - u2)))).
      { rewrite <- A1, <- A2. field. lra. }
      rewrite Rplus_assoc, <- G. unfold Rdiv. ring.
  Qed.

  (** continuity *)
  Lemma Rmax_eq a b : Rmax a b = (a + b + Rabs (a - b)) * / 2.
  Proof. unfold Rmax, Rabs. destruct (Rle_dec a b), (Rcase_abs (a - b)); lra. Qed.
  Lemma Rmin_eq a b : Rmin a b = (a + b - Rabs (a - b)) * / 2.
  Proof. unfold Rmin, Rabs. destruct (Rle_dec a b), (Rcase_abs (a - b)); lra. Qed.
  Lemma cont_ext f g x : (forall y, f y = g y) -> continuity_pt f x -> continuity_pt g x.
  Proof. intros E H. unfold continuity_pt, continue_in, limit1_in, limit_in in *. intros e He. destruct (H e He) as (d & Hd & K). exists d. split; auto. intros y Hy. rewrite <- !E. auto. Qed.
  Lemma cont_abs f x : continuity_pt f x -> continuity_pt (fun y => Rabs (f y)) x.
  Proof. intros H. apply (continuity_pt_comp f Rabs); auto. apply Rcontinuity_abs. Qed.
  Lemma cont_lin a b x : continuity_pt (fun y => (y - a) / b) x.
  Proof. apply derivable_continuous_pt. exists (1 / b). apply derivable_pt_lim_ext with (f := fun y => (y - a) / b * 1); [intros y; ring|]. apply dlin. Qed.
  Lemma cont_lin' a b x : continuity_pt (fun y => (a - y) / b) x.
  Proof. apply cont_ext with (f := fun y => (y - a) / (- b)). 2:apply cont_lin. intros y. unfold Rdiv. destruct (Req_dec b 0) as [->|Hb]; [rewrite Ropp_0, !Rinv_0; ring|]. rewrite Rinv_opp. ring. Qed.
  Lemma hat i x : B t 1 i x = Rmax 0 (Rmin ((x - t i) / (t (i + 1)%nat - t i)) ((t (i + 2)%nat - x) / (t (i + 2)%nat - t (i + 1)%nat))).
  Proof.
    rewrite B_S, !B_0. replace (i + 1 + 1)%nat with (i + 2)%nat by lia.
    pose proof (t_gap i (i + 1) ltac:(lia)) as G1. pose proof (t_gap (i + 1) (i + 2) ltac:(lia)) as G2. unfold b0. replace (S i) with (i + 1)%nat by lia. replace (S (i + 1)) with (i + 2)%nat by lia.
    set (u0 := t i) in *. set (u1 := t (i + 1)%nat) in *. set (u2 := t (i + 2)%nat) in *. clearbody u0 u1 u2.
    assert (I1 : 0 < / (u1 - u0)) by (apply Rinv_0_lt_compat; auto). assert (I2 : 0 < / (u2 - u1)) by (apply Rinv_0_lt_compat; auto).
    assert (E1 : (u1 - u0) * / (u1 - u0) = 1) by (field; lra). assert (E2 : (u2 - u1) * / (u2 - u1) = 1) by (field; lra).
    unfold Rdiv. set (p := / (u1 - u0)) in *. set (q := / (u2 - u1)) in *. clearbody p q.
    assert (S1 : x <= u0 -> (x - u0) * p <= 0) by (intros; nra). assert (S1' : u0 <= x -> 0 <= (x - u0) * p) by (intros; nra).
    assert (S2 : u2 <= x -> (u2 - x) * q <= 0) by (intros; nra). assert (S2' : x <= u2 -> 0 <= (u2 - x) * q) by (intros; nra).
    assert (S3 : x <= u1 -> (x - u0) * p <= 1) by (intros; nra). assert (S3' : u1 <= x -> 1 <= (x - u0) * p) by (intros; nra).
    assert (S4 : x <= u1 -> 1 <= (u2 - x) * q) by (intros; nra). assert (S4' : u1 <= x -> (u2 - x) * q <= 1) by (intros; nra).
    set (P := (x - u0) * p) in *. set (Q := (u2 - x) * q) in *.
    assert (N : x <= u0 \/ u0 < x <= u1 \/ u1 < x <= u2 \/ u2 < x) by lra.
    destruct N as [N|[N|[N|N]]].
    - destruct (Rlt_dec u0 x); [lra|]. destruct (Rlt_dec u1 x); [lra|]. specialize (S1 N). specialize (S4 ltac:(lra)). unfold Rmax, Rmin. destruct (Rle_dec P Q); destruct (Rle_dec _ _); lra.
    - destruct (Rlt_dec u0 x); [|lra]. destruct (Rle_dec x u1); [|lra]. destruct (Rlt_dec u1 x); [lra|]. specialize (S1' ltac:(lra)). specialize (S4 ltac:(lra)). specialize (S3 ltac:(lra)).
      unfold Rmax, Rmin. destruct (Rle_dec P Q); destruct (Rle_dec _ _); lra.
    - destruct (Rlt_dec u0 x); [|lra]. destruct (Rle_dec x u1); [lra|]. destruct (Rlt_dec u1 x); [|lra]. destruct (Rle_dec x u2); [|lra]. specialize (S2' ltac:(lra)). specialize (S4' ltac:(lra)). specialize (S3' ltac:(lra)).
      unfold Rmax, Rmin. destruct (Rle_dec P Q); destruct (Rle_dec _ _); lra.
    - destruct (Rlt_dec u0 x); [|lra]. destruct (Rle_dec x u1); [lra|]. destruct (Rlt_dec u1 x); [|lra]. destruct (Rle_dec x u2); [lra|]. specialize (S2 ltac:(lra)). specialize (S3' ltac:(lra)).
      unfold Rmax, Rmin. destruct (Rle_dec P Q); destruct (Rle_dec _ _); lra.
  Qed.
  Lemma B_cont j : forall i x, continuity_pt (B t (S j) i) x.
  Proof.
    induction j as [|j IH]; intros i x.
    - eapply cont_ext; [intros y; symmetry; apply hat|].
      set (f := fun y => (y - t i) / (t (i + 1)%nat - t i)). set (g := fun y => (t (i + 2)%nat - y) / (t (i + 2)%nat - t (i + 1)%nat)).
      assert (F : continuity_pt f x) by apply cont_lin. assert (G : continuity_pt g x) by apply cont_lin'.
      assert (M : continuity_pt (fun y => (f y + g y - Rabs (f y - g y)) * / 2) x).
      { apply (continuity_pt_mult (fun y => f y + g y - Rabs (f y - g y)) (fct_cte (/ 2))); [|apply continuity_pt_const; intros ? ?; reflexivity].
        apply (continuity_pt_minus (fun y => f y + g y) (fun y => Rabs (f y - g y))); [apply (continuity_pt_plus f g); auto|]. apply cont_abs. apply (continuity_pt_minus f g); auto. }
      set (m := fun y => (f y + g y - Rabs (f y - g y)) * / 2) in M.
      apply cont_ext with (f := fun y => (0 + m y + Rabs (0 - m y)) * / 2). { intros y. rewrite Rmax_eq, Rmin_eq. reflexivity. }
      apply (continuity_pt_mult (fun y => 0 + m y + Rabs (0 - m y)) (fct_cte (/ 2))); [|apply continuity_pt_const; intros ? ?; reflexivity].
      apply (continuity_pt_plus (fun y => 0 + m y) (fun y => Rabs (0 - m y))).
      + apply (continuity_pt_plus (fct_cte 0) m); auto. apply continuity_pt_const. intros ? ?. reflexivity.
      + apply cont_abs. apply (continuity_pt_minus (fct_cte 0) m); auto. apply continuity_pt_const. intros ? ?. reflexivity.
    - eapply cont_ext; [intros y; symmetry; apply B_S|].
      apply (continuity_pt_plus (fun y => (y - t i) / (t (i + S (S j))%nat - t i) * B t (S j) i y) (fun y => (t (i + S (S j) + 1)%nat - y) / (t (i + S (S j) + 1)%nat - t (i + 1)%nat) * B t (S j) (i + 1) y)).
      + apply (continuity_pt_mult (fun y => (y - t i) / (t (i + S (S j))%nat - t i)) (B t (S j) i)); [apply cont_lin|apply IH].
      + apply (continuity_pt_mult (fun y => (t (i + S (S j) + 1)%nat - y) / (t (i + S (S j) + 1)%nat - t (i + 1)%nat)) (B t (S j) (i + 1))); [apply cont_lin'|apply IH].
  Qed.
  Lemma D_cont k : forall j i x, (k < j)%nat -> continuity_pt (D t k j i) x.
  Proof.
    induction k as [|k IH]; intros j i x H; destruct j as [|j]; try lia.
    - apply B_cont.
    - apply cont_ext with (f := fun y => INR (S j) * / (t (i + S j)%nat - t i) * D t k j i y + - (INR (S j) * / (t (i + S j + 1)%nat - t (i + 1)%nat)) * D t k j (i + 1) y).
      { intros y. rewrite D_formula. unfold Rdiv. ring. }
      set (c1 := INR (S j) * / (t (i + S j)%nat - t i)). set (c2 := - (INR (S j) * / (t (i + S j + 1)%nat - t (i + 1)%nat))).
      apply (continuity_pt_plus (mult_real_fct c1 (D t k j i)) (mult_real_fct c2 (D t k j (i + 1)))); apply continuity_pt_scal; apply IH; lia.
  Qed.
  Lemma isolated j i x : exists d, 0 < d /\ forall y, y <> x -> Rabs (y - x) < d -> off j i y.
  Proof.
    unfold off. induction (j + 1)%nat as [|n (d & Hd & IH)].
    - destruct (Req_dec x (t i)) as [E|E].
      + exists 1. split; [lra|]. intros y Hy _ l Hl. replace (i + l)%nat with i by lia. congruence.
      + exists (Rabs (t i - x)). split; [apply Rabs_pos_lt; lra|]. intros y Hy H l Hl. replace (i + l)%nat with i by lia. intros ->. lra.
    - destruct (Req_dec x (t (i + S n)%nat)) as [E|E].
      + exists d. split; auto. intros y Hy H l Hl. destruct (Nat.eq_dec l (S n)) as [->|Hn]; [congruence|]. apply IH; auto. lia.
      + exists (Rmin d (Rabs (t (i + S n)%nat - x))). split; [apply Rmin_pos; auto; apply Rabs_pos_lt; lra|]. intros y Hy H l Hl.
        pose proof (Rmin_l d (Rabs (t (i + S n)%nat - x))). pose proof (Rmin_r d (Rabs (t (i + S n)%nat - x))).
        destruct (Nat.eq_dec l (S n)) as [->|Hn]; [intros ->; lra|]. apply IH; auto. lra. lia.
  Qed.
  Lemma deriv_through (f g : R -> R) x d : 0 < d -> (forall y, continuity_pt f y) -> continuity_pt g x ->
    (forall y, y <> x -> Rabs (y - x) < d -> derivable_pt_lim f y (g y)) -> derivable_pt_lim f x (g x).
  Proof.
    intros Hd Cf Cg Hf eps Heps. destruct (Cg eps Heps) as (d' & Hd' & K).
    assert (Hm : 0 < Rmin d d') by (apply Rmin_pos; auto). exists (mkposreal _ Hm). cbn. intros h Hh Hl.
    pose proof (Rmin_l d d'). pose proof (Rmin_r d d').
    assert (KEY : forall a b, a < b -> (a = x \/ b = x) -> (forall c, a < c < b -> Rabs (c - x) < Rmin d d') -> exists c, a < c < b /\ f b - f a = g c * (b - a)).
    { intros a b Hab Hx Hc. assert (pr : forall c, a < c < b -> derivable_pt f c). { intros c Hcc. exists (g c). apply Hf; [lra|]. specialize (Hc c Hcc). lra. }
      assert (pr2 : forall c, a < c < b -> derivable_pt id c) by (intros; apply derivable_pt_id).
      destruct (MVT f id a b pr pr2 Hab) as (c & P & E); [intros; apply Cf|intros; apply derivable_continuous_pt, derivable_pt_id|].
      exists c. split; auto. rewrite (pr_nu id c (pr2 c P) (derivable_pt_id c)), derive_pt_id in E. unfold id in E.
      assert (derive_pt f c (pr c P) = g c) as E2. { apply derive_pt_eq_0. apply Hf; [lra|]. specialize (Hc c P). lra. }
      rewrite E2 in E. lra. }
    assert (exists c, c <> x /\ Rabs (c - x) < Rmin d d' /\ f (x + h) - f x = g c * h) as (c & Hc1 & Hc2 & Hc3).
    { destruct (Rlt_dec 0 h) as [P|P].
      - rewrite Rabs_right in Hl by lra. destruct (KEY x (x + h)) as (c & Hc & E); [lra|auto|intros c Hc; rewrite Rabs_right; lra|].
        exists c. split; [lra|]. split; [rewrite Rabs_right; lra|]. rewrite E. ring.
      - rewrite Rabs_left in Hl by lra. destruct (KEY (x + h) x) as (c & Hc & E); [lra|auto|intros c Hc; rewrite Rabs_left; lra|].
        exists c. split; [lra|]. split; [rewrite Rabs_left; lra|]. replace (f (x + h) - f x) with (- (f x - f (x + h))) by ring. rewrite E. ring. }
    rewrite Hc3. replace (g c * h / h) with (g c) by (field; auto).
    apply (K c). split; [split; [exact Logic.I|auto]|]. cbn. unfold R_dist. lra.
  Qed.
  Lemma D_deriv k j i x : (S k < j)%nat -> derivable_pt_lim (D t k j i) x (D t (S k) j i x).
  Proof.
    intros H. destruct (isolated j i x) as (d & Hd & K). apply deriv_through with (d := d); auto.
    - intros y. apply D_cont. lia.
    - apply D_cont. lia.
    - intros y Hy Hl. apply D_deriv_off. auto.
  Qed.
End Inf.
