(** Property C30: the Tensorizer maps are inverse of each other. *)
From Coq Require Import List Arith ZArith Reals Lia Lra.
From Verif.Base Require Import ListAux.
From Verif.Model Require Import Utils Tensorizer.
From Verif.Spec Require Import MultiIndicesSpec TensorizerSpec.
From Verif.Proofs Require Import TensorizerP.
Import ListNotations.
Local Open Scope R_scope.

(** u2z writes every u >= 0 as (i + y) b^-d with i given by its d digits in base b (most significant first);
    for u in [0,1) the remainder y is in [0,1), for u = 1 the index is clamped and y = 1; z2u undoes it *)
Theorem c30_u2z : forall b d u, (1 <= b)%nat -> 0 <= u ->
  exists digits y, u2z u b d = Some (map INR digits ++ [y]) /\
    length digits = d /\ Forall (fun c => (c < b)%nat) digits /\
    u = (INR (digits_value b digits) + y) / INR (b ^ d) /\
    0 <= y /\ (u <= 1 -> y <= 1) /\ (u < 1 -> y < 1) /\
    z2u (map INR digits ++ [y]) b = Some u.
Proof.
  intros b d u Hb Hu. destruct (u2z_ok u b d Hb Hu) as [D [y [H1 [H2 [H3 [H4 [H5 [H6 H7]]]]]]]].
  exists D, y. repeat split; auto. rewrite z2u_ok, H2; auto. rewrite <- H4. auto.
Qed.
Print Assumptions c30_u2z.

(** z2u sends digits and a remainder y to (i + y) b^-d, and u2z gives them back when y is in [0,1) *)
Theorem c30_z2u : forall b digits y, (1 <= b)%nat -> Forall (fun c => (c < b)%nat) digits ->
  z2u (map INR digits ++ [y]) b = Some ((INR (digits_value b digits) + y) / INR (b ^ length digits)) /\
  (0 <= y < 1 ->
     0 <= (INR (digits_value b digits) + y) / INR (b ^ length digits) < 1 /\
     u2z ((INR (digits_value b digits) + y) / INR (b ^ length digits)) b (length digits) = Some (map INR digits ++ [y])).
Proof.
  intros b D y Hb HD. split; [apply z2u_ok; auto|]. intros Hy. split; [|apply u2z_inv; auto].
  pose proof (digits_value_lt b D HD) as L. assert (HB := pow_pos_R b (length D) Hb).
  assert (INR (digits_value b D) + 1 <= INR (b ^ length D)) by (rewrite <- S_INR; apply le_INR; lia).
  pose proof (pos_INR (digits_value b D)).
  split; [apply Rmult_le_pos; [lra|left; apply Rinv_0_lt_compat; lra]|].
  apply (Rmult_lt_reg_r (INR (b ^ length D))); auto. unfold Rdiv. rewrite Rmult_assoc, Rinv_l by lra. lra.
Qed.
Print Assumptions c30_z2u.

(** outside the domain: a negative u raises *)
Theorem c30_u2z_negative : forall b d u, (1 <= b)%nat -> u < 0 -> u2z u b d = None.
Proof. intros b d u. exact (u2z_neg u b d). Qed.
Print Assumptions c30_u2z_negative.

(** map: both orderings; the l-th digit of the k-th variable is in column [digit_col], the remainders come last *)
Theorem c30_map : forall ordering b d dim Xcdf Yicdf x,
  (ordering = 1 \/ ordering = 2)%nat -> (1 <= b)%nat -> (1 <= d)%nat ->
  length x = dim -> (forall k, (k < dim)%nat -> 0 <= Xcdf k (nth k x 0)) ->
  exists z (digits : nat -> list nat) (y : nat -> R),
    tz_map ordering b d dim Xcdf Yicdf x = Some z /\ length z = (d * dim + dim)%nat /\
    forall k, (k < dim)%nat ->
      length (digits k) = d /\ Forall (fun c => (c < b)%nat) (digits k) /\
      (forall l, (l < d)%nat -> nth (digit_col ordering d dim k l) z 0 = INR (nth l (digits k) 0%nat)) /\
      nth (d * dim + k) z 0 = Yicdf k (y k) /\
      Xcdf k (nth k x 0) = (INR (digits_value b (digits k)) + y k) / INR (b ^ d) /\
      0 <= y k /\ (Xcdf k (nth k x 0) <= 1 -> y k <= 1) /\ (Xcdf k (nth k x 0) < 1 -> y k < 1).
Proof. intros ordering b d dim Xcdf Yicdf x Ho Hb _. exact (tz_map_spec ordering b d dim Xcdf Yicdf x Ho Hb). Qed.
Print Assumptions c30_map.

(** inverse_map(map(x)) = x on the support of X *)
Theorem c30_inverse_map_map : forall ordering b d dim Xcdf Xicdf Ycdf Yicdf SX SY x,
  (ordering = 1 \/ ordering = 2)%nat -> (1 <= b)%nat -> (1 <= d)%nat ->
  (forall k, (k < dim)%nat -> cdf_on (SX k) (Xcdf k) (Xicdf k) /\ icdf_on (SY k) (Ycdf k) (Yicdf k)) ->
  length x = dim -> (forall k, (k < dim)%nat -> SX k (nth k x 0)) ->
  exists z, tz_map ordering b d dim Xcdf Yicdf x = Some z /\ tz_inverse_map ordering b d dim Ycdf Xicdf z = Some x.
Proof.
  intros ordering b d dim Xcdf Xicdf Ycdf Yicdf SX SY x Ho Hb _.
  exact (tz_inverse_map_map ordering b d dim Xcdf Xicdf Ycdf Yicdf SX SY x Ho Hb).
Qed.
Print Assumptions c30_inverse_map_map.

(** map(inverse_map(z)) = z when the digits are in 0..b-1 and the remainders correspond to [0,1) *)
Theorem c30_map_inverse_map : forall ordering b d dim Xcdf Xicdf Ycdf Yicdf SX SY z digits,
  (ordering = 1 \/ ordering = 2)%nat -> (1 <= b)%nat -> (1 <= d)%nat ->
  (forall k, (k < dim)%nat -> icdf_on (SX k) (Xcdf k) (Xicdf k) /\ cdf_on (SY k) (Ycdf k) (Yicdf k)) ->
  length z = (d * dim + dim)%nat ->
  (forall k, (k < dim)%nat -> length (digits k) = d /\ Forall (fun c => (c < b)%nat) (digits k) /\
     forall l, (l < d)%nat -> nth (digit_col ordering d dim k l) z 0 = INR (nth l (digits k) 0%nat)) ->
  (forall k, (k < dim)%nat -> SY k (nth (d * dim + k) z 0) /\ Ycdf k (nth (d * dim + k) z 0) < 1) ->
  exists x, tz_inverse_map ordering b d dim Ycdf Xicdf z = Some x /\ length x = dim /\
    (forall k, (k < dim)%nat -> SX k (nth k x 0)) /\ tz_map ordering b d dim Xcdf Yicdf x = Some z.
Proof.
  intros ordering b d dim Xcdf Xicdf Ycdf Yicdf SX SY z digits Ho Hb _.
  exact (tz_map_inverse_map ordering b d dim Xcdf Xicdf Ycdf Yicdf SX SY z digits Ho Hb).
Qed.
Print Assumptions c30_map_inverse_map.

(** evaluating tensorize(f) at a point of the support of X gives f at that point *)
Theorem c30_tensorized_function : forall V ordering b d dim Xcdf Xicdf Ycdf Yicdf SX SY (f : list R -> V) x,
  (ordering = 1 \/ ordering = 2)%nat -> (1 <= b)%nat -> (1 <= d)%nat ->
  (forall k, (k < dim)%nat -> cdf_on (SX k) (Xcdf k) (Xicdf k) /\ icdf_on (SY k) (Ycdf k) (Yicdf k)) ->
  length x = dim -> (forall k, (k < dim)%nat -> SX k (nth k x 0)) ->
  tensorized_eval ordering b d dim Xcdf Xicdf Ycdf Yicdf f x = Some (f x).
Proof.
  intros V ordering b d dim Xcdf Xicdf Ycdf Yicdf SX SY f x Ho Hb _.
  exact (tensorized_eval_ok ordering b d dim Xcdf Xicdf Ycdf Yicdf SX SY f x Ho Hb).
Qed.
Print Assumptions c30_tensorized_function.

(** the distributions of the constructor: uniform on [a, b] (the default is [0, 1]) *)
Theorem c30_uniform : forall a b, a < b ->
  cdf_on (fun x => a <= x <= b) (unif_cdf a b) (unif_icdf a b) /\
  icdf_on (fun x => a <= x <= b) (unif_cdf a b) (unif_icdf a b).
Proof. exact unif_ok. Qed.
Print Assumptions c30_uniform.

(** Examples: 0.7 = (2 + 0.8) / 4 in base 2 with two digits *)
Example c30_ex : u2z (7 / 10) 2 2 = Some [1; 0; 8 / 10].
Proof.
  replace (7 / 10) with ((INR (digits_value 2 [1; 0]%nat) + 8 / 10) / INR (2 ^ length [1; 0]%nat)).
  - pose proof (u2z_inv [1; 0]%nat (8 / 10) 2) as H. change (length [1; 0]%nat) with 2%nat in *. rewrite H.
    + cbn. auto.
    + lia.
    + repeat constructor.
    + left. lra.
  - cbn. lra.
Qed.

Example c30_ex_hyp : let x := [/ 2; 3] in let SX := fun k x => match k with O => 0 <= x <= 1 | _ => 2 <= x <= 5 end in
  (forall k, (k < 2)%nat -> SX k (nth k x 0)) /\
  (forall k, (k < 2)%nat -> cdf_on (SX k) (match k with O => unif_cdf 0 1 | _ => unif_cdf 2 5 end)
     (match k with O => unif_icdf 0 1 | _ => unif_icdf 2 5 end)).
Proof.
  split; intros k Hk.
  - destruct k as [|[|k]]; cbn; lra || lia.
  - destruct k as [|k]; [exact (proj1 (unif_ok 0 1 ltac:(lra)))|exact (proj1 (unif_ok 2 5 ltac:(lra)))].
Qed.
