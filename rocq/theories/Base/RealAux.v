(** The reals as scalars (for the parts of the code that need an order, square roots or powers). *)
From Coq Require Import List Arith Lia Reals Lra Ring_theory Permutation Bool.
From Verif.Base Require Import ListAux CRing Index.
Import ListNotations.
Local Open Scope R_scope.

#[global] Instance CRing_R : CRing R :=
  {| r0 := 0; r1 := 1; radd := Rplus; rmul := Rmult; rsub := Rminus; ropp := Ropp; rth := RTheory |}.
Ltac rcbn := cbn [r0 r1 radd rmul rsub ropp CRing_R].
Ltac rcbn_in H := cbn [r0 r1 radd rmul rsub ropp CRing_R] in H.

Lemma rsum_nonneg n (f : nat -> R) : (forall i, (i < n)%nat -> 0 <= f i) -> 0 <= rsum n f.
Proof. induction n as [|n IH]; intros H; rcbn; [simpl; rcbn; lra|]. simpl. rcbn. specialize (IH (fun i Hi => H i (Nat.lt_lt_succ_r _ _ Hi))). specialize (H n (Nat.lt_succ_diag_r n)). lra. Qed.
Lemma rsum_le n (f g : nat -> R) : (forall i, (i < n)%nat -> f i <= g i) -> rsum n f <= rsum n g.
Proof. induction n as [|n IH]; intros H; simpl; rcbn; [lra|]. specialize (IH (fun i Hi => H i (Nat.lt_lt_succ_r _ _ Hi))). specialize (H n (Nat.lt_succ_diag_r n)). lra. Qed.
Lemma rsum_term_le n (f : nat -> R) k : (forall i, (i < n)%nat -> 0 <= f i) -> (k < n)%nat -> f k <= rsum n f.
Proof.
  induction n as [|n IH]; intros H Hk; [lia|]. simpl. rcbn.
  assert (H' : 0 <= rsum n f) by (apply rsum_nonneg; auto). pose proof (H n (Nat.lt_succ_diag_r n)).
  destruct (Nat.eq_dec k n) as [->|Hne]; [lra|]. assert (f k <= rsum n f) by (apply IH; auto; lia). lra.
Qed.
Lemma bsum_nonneg s (f : list nat -> R) : (forall is, Forall2 lt is s -> 0 <= f is) -> 0 <= bsum s f.
Proof. revert f. induction s as [|n s IH]; intros f H; simpl; [apply H; constructor|]. apply rsum_nonneg. intros i Hi. apply IH. intros. apply H. constructor; auto. Qed.
Lemma bsum_le s (f g : list nat -> R) : (forall is, Forall2 lt is s -> f is <= g is) -> bsum s f <= bsum s g.
Proof. revert f g. induction s as [|n s IH]; intros f g H; simpl; [apply H; constructor|]. apply rsum_le. intros i Hi. apply IH. intros. apply H. constructor; auto. Qed.
Lemma lsum_nonneg {A} (l : list A) (f : A -> R) : (forall a, In a l -> 0 <= f a) -> 0 <= lsum l f.
Proof. induction l as [|a l IH]; intros H; simpl; rcbn; [lra|]. assert (0 <= lsum l f) by (apply IH; intros; apply H; simpl; auto). assert (0 <= f a) by (apply H; simpl; auto). lra. Qed.
Lemma lsum_le {A} (l : list A) (f g : A -> R) : (forall a, In a l -> f a <= g a) -> lsum l f <= lsum l g.
Proof. induction l as [|a l IH]; intros H; simpl; rcbn; [lra|]. assert (lsum l f <= lsum l g) by (apply IH; intros; apply H; simpl; auto). assert (f a <= g a) by (apply H; simpl; auto). lra. Qed.
Lemma lsum_zero_iff {A} (l : list A) (f : A -> R) : (forall a, In a l -> 0 <= f a) -> lsum l f = 0 -> forall a, In a l -> f a = 0.
Proof.
  induction l as [|b l IH]; intros H E a Ha; [destruct Ha|]. simpl in E. rcbn_in E.
  assert (H1 : 0 <= lsum l f) by (apply lsum_nonneg; intros; apply H; simpl; auto). assert (H2 : 0 <= f b) by (apply H; simpl; auto).
  destruct Ha as [<-|Ha]; [lra|]. apply IH; auto; [intros; apply H; simpl; auto|lra].
Qed.
Lemma lsum_app_R {A} (l l' : list A) (f : A -> R) : lsum (l ++ l') f = lsum l f + lsum l' f.
Proof. induction l as [|a l IH]; simpl; rcbn; [lra|]. rewrite IH. lra. Qed.
Lemma bsum_minus_R s (f g : list nat -> R) : bsum s (fun is => f is - g is) = bsum s f - bsum s g.
Proof.
  change (bsum s (fun is => f is - g is)) with (bsum s (fun is => radd (f is) (ropp (g is)))). rewrite bsum_plus, bsum_opp. rcbn. lra.
Qed.

(** the ring lemmas, stated with the operations of R *)
Lemma bsum_scal_l_R s c (f : list nat -> R) : bsum s (fun a => c * f a) = c * bsum s f.
Proof. exact (bsum_scal_l s c f). Qed.
Lemma bsum_scal_r_R s c (f : list nat -> R) : bsum s (fun a => f a * c) = bsum s f * c.
Proof. exact (bsum_scal_r s c f). Qed.
Lemma bsum_plus_R s (f g : list nat -> R) : bsum s (fun a => f a + g a) = bsum s f + bsum s g.
Proof. exact (bsum_plus s f g). Qed.
Lemma rsum_scal_l_R n c (f : nat -> R) : rsum n (fun a => c * f a) = c * rsum n f.
Proof. exact (rsum_scal_l n c f). Qed.
Lemma rsum_scal_r_R n c (f : nat -> R) : rsum n (fun a => f a * c) = rsum n f * c.
Proof. exact (rsum_scal_r n c f). Qed.
Lemma rsum_plus_R n (f g : nat -> R) : rsum n (fun a => f a + g a) = rsum n f + rsum n g.
Proof. exact (rsum_plus n f g). Qed.
Lemma rsum_minus_R n (f g : nat -> R) : rsum n (fun a => f a - g a) = rsum n f - rsum n g.
Proof. exact (rsum_minus n f g). Qed.
Lemma rmul_rsum_R n m (f g : nat -> R) : rsum n f * rsum m g = rsum n (fun i => rsum m (fun j => f i * g j)).
Proof. exact (rmul_rsum n m f g). Qed.
Lemma lsum_scal_l_R {A} (l : list A) c (f : A -> R) : lsum l (fun a => c * f a) = c * lsum l f.
Proof. exact (lsum_scal_l l c f). Qed.
Lemma lsum_scal_r_R {A} (l : list A) c (f : A -> R) : lsum l (fun a => f a * c) = lsum l f * c.
Proof. exact (lsum_scal_r l c f). Qed.
Lemma lsum_plus_R {A} (l : list A) (f g : A -> R) : lsum l (fun a => f a + g a) = lsum l f + lsum l g.
Proof. exact (lsum_plus l f g). Qed.
Lemma lsum_minus_R {A} (l : list A) (f g : A -> R) : lsum l (fun a => f a - g a) = lsum l f - lsum l g.
Proof. exact (lsum_minus l f g). Qed.
Lemma rsum_zero_R n (f : nat -> R) : (forall i, (i < n)%nat -> f i = 0) -> rsum n f = 0.
Proof. exact (rsum_zero n f). Qed.
Lemma lsum_zero_R {A} (l : list A) (f : A -> R) : (forall a, In a l -> f a = 0) -> lsum l f = 0.
Proof. exact (lsum_zero l f). Qed.
Lemma rsum_S_R n (f : nat -> R) : rsum (S n) f = rsum n f + f n.
Proof. reflexivity. Qed.
Lemma lsum_cons_R {A} a (l : list A) (f : A -> R) : lsum (a :: l) f = f a + lsum l f.
Proof. reflexivity. Qed.
(** real power, with 0^p = 0 (numpy.power for a base >= 0 and an exponent > 0) *)
Definition rpow (x p : R) : R := if Rlt_dec 0 x then Rpower x p else 0.
Lemma rpow_nonneg x p : 0 <= rpow x p.
Proof. unfold rpow. destruct (Rlt_dec 0 x); [|lra]. unfold Rpower. apply Rlt_le, exp_pos. Qed.
Lemma rpow_pos x p : 0 < x -> 0 < rpow x p.
Proof. intros H. unfold rpow. destruct (Rlt_dec 0 x); [|lra]. unfold Rpower. apply exp_pos. Qed.
Lemma rpow_0 p : rpow 0 p = 0.
Proof. unfold rpow. destruct (Rlt_dec 0 0); lra. Qed.
Lemma rpow_le x y p : 0 < p -> 0 <= x -> x <= y -> rpow x p <= rpow y p.
Proof.
  intros Hp Hx Hxy. destruct (Req_dec x 0) as [->|Hne]; [rewrite rpow_0; apply rpow_nonneg|].
  unfold rpow. destruct (Rlt_dec 0 x); [|lra]. destruct (Rlt_dec 0 y); [|lra]. apply Rle_Rpower_l; lra.
Qed.
Lemma rpow_div x y p : 0 <= x -> 0 < y -> rpow (x / y) p = rpow x p / rpow y p.
Proof.
  intros Hx Hy. destruct (Req_dec x 0) as [->|Hne].
  - unfold Rdiv. rewrite !Rmult_0_l, rpow_0. lra.
  - assert (Hx' : 0 < x) by lra. assert (0 < x / y) by (apply Rdiv_lt_0_compat; auto).
    unfold rpow. destruct (Rlt_dec 0 (x / y)); [|lra]. destruct (Rlt_dec 0 x); [|lra]. destruct (Rlt_dec 0 y); [|lra].
    unfold Rpower, Rdiv. rewrite ln_mult by (auto; apply Rinv_0_lt_compat; auto). rewrite ln_Rinv by auto.
    rewrite <- exp_Ropp, <- exp_plus. f_equal. ring.
Qed.
Lemma rpow_mult x y p : 0 <= x -> 0 <= y -> rpow (x * y) p = rpow x p * rpow y p.
Proof.
  intros Hx Hy. destruct (Req_dec x 0) as [->|Hnx]; [rewrite Rmult_0_l, !rpow_0; ring|].
  destruct (Req_dec y 0) as [->|Hny]; [rewrite Rmult_0_r, !rpow_0; ring|].
  assert (Hx' : 0 < x) by lra. assert (Hy' : 0 < y) by lra. assert (0 < x * y) by (apply Rmult_lt_0_compat; auto).
  unfold rpow. destruct (Rlt_dec 0 (x * y)); [|lra]. destruct (Rlt_dec 0 x); [|lra]. destruct (Rlt_dec 0 y); [|lra].
  unfold Rpower. rewrite ln_mult by auto. rewrite <- exp_plus. f_equal. ring.
Qed.
Lemma rpow_rpow_inv x p : 0 < p -> 0 <= x -> rpow (rpow x p) (1 / p) = x.
Proof.
  intros Hp Hx. destruct (Req_dec x 0) as [->|Hne]; [rewrite !rpow_0; auto|]. assert (Hx' : 0 < x) by lra.
  pose proof (rpow_pos x p Hx') as H. unfold rpow at 1. destruct (Rlt_dec 0 (rpow x p)); [|lra]. unfold rpow. destruct (Rlt_dec 0 x); [|lra].
  rewrite Rpower_mult. replace (p * (1 / p)) with 1 by (field; lra). apply Rpower_1. auto.
Qed.
Lemma rpow_1 x : 0 <= x -> rpow x 1 = x.
Proof. intros Hx. destruct (Req_dec x 0) as [->|Hne]; [apply rpow_0|]. unfold rpow. destruct (Rlt_dec 0 x); [|lra]. apply Rpower_1. auto. Qed.
Lemma rpow_2 x : 0 <= x -> rpow x 2 = x * x.
Proof.
  intros Hx. destruct (Req_dec x 0) as [->|Hne]; [rewrite rpow_0; ring|]. unfold rpow. destruct (Rlt_dec 0 x); [|lra].
  replace 2 with (1 + 1) by ring. rewrite Rpower_plus, Rpower_1 by auto. auto.
Qed.
Lemma rpow_half x : 0 <= x -> rpow x (1 / 2) = sqrt x.
Proof.
  intros Hx. destruct (Req_dec x 0) as [->|Hne]; [rewrite rpow_0, sqrt_0; auto|]. unfold rpow. destruct (Rlt_dec 0 x); [|lra].
  replace (1 / 2) with (/ 2) by field. apply Rpower_sqrt. auto.
Qed.
