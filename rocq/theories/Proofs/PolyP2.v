(** Derivatives of the orthonormal polynomials. *)
From Coq Require Import List Arith Reals Bool Lia Lra.
From Verif.Base Require Import ListAux CRing RealAux Poly.
From Verif.Model Require Import Polynomials.
From Verif.Spec Require Import PolySpec.
From Verif.Proofs Require Import PolyP.
Import ListNotations.
Local Open Scope R_scope.

Fixpoint dvs (a b : nat -> R) (k : nat) (prev : nat -> R) (n : nat) (x : R) : R * R :=
  match n with
  | O => (0, if (k =? 1)%nat then 1 / sqrt (b 1%nat) else 0)
  | S m => let q := dvs a b k prev m x in
           (snd q, (INR k * prev n + (x - a n) * snd q - sqrt (b n) * fst q) / sqrt (b (S n)))
  end.
Fixpoint dval (a b : nat -> R) (n i : nat) (x : R) : R :=
  match n with O => pval a b i x | S n' => fst (dvs a b n (fun j => dval a b n' j x) i x) end.

Lemma dval_S0 a b n x : dval a b (S n) 0 x = 0. Proof. reflexivity. Qed.
Lemma dval_S1 a b n x : dval a b (S n) 1 x = if (S n =? 1)%nat then 1 / sqrt (b 1%nat) else 0. Proof. reflexivity. Qed.
Lemma dval_SS a b n i x : dval a b (S n) (S (S i)) x =
  (INR (S n) * dval a b n (S i) x + (x - a (S i)) * dval a b (S n) (S i) x - sqrt (b (S i)) * dval a b (S n) i x) / sqrt (b (S (S i))).
Proof. reflexivity. Qed.

Lemma dn_step_eq a b m x n out0 : out0 = map (fun i => dval a b n i x) (seq 0 (S m)) ->
  dn_step a b m x out0 (S n) = map (fun i => dval a b (S n) i x) (seq 0 (S m)).
Proof.
  intros E. unfold dn_step. destruct m as [|m]; auto. cbn [Nat.eqb]. replace (S m - 1)%nat with m by lia.
  assert (H : forall p, (p <= m)%nat -> fold_left (dn_inner a b x (S n) out0) (seq 2 p) [0; if (n =? 0)%nat then 1 / sqrt (b 1%nat) else 0]
     = map (fun i => dval a b (S n) i x) (seq 0 (S (S p)))).
  { induction p as [|p IH]; intros Hp; auto.
    rewrite seq_S_snoc, fold_left_app, IH by lia. cbn [fold_left]. unfold dn_inner.
    rewrite (seq_S_snoc 0 (S (S p))), map_app. f_equal. cbn [map]. f_equal.
    replace (2 + p - 1)%nat with (S p) by lia. replace (2 + p - 2)%nat with p by lia.
    rewrite E. rewrite !nth_map_seq by lia. cbn [Nat.add]. rewrite dval_SS. auto. }
  apply H. lia.
Qed.

Lemma dn_polyval_eq a b n ind x : dn_polyval a b 1 n ind x = map (fun i => dval a b n i x) ind.
Proof.
  unfold dn_polyval. set (m := maxl ind).
  assert (H : fold_left (dn_step a b m x) (seq 1 n) (polyval a b 1 (seq 0 (m + 1)) x) = map (fun i => dval a b n i x) (seq 0 (S m))).
  { induction n as [|n IH].
    - cbn [seq fold_left]. rewrite polyval_eq. rewrite Nat.add_1_r. apply map_ext. intros i. rewrite sqrt_1. cbn. lra.
    - rewrite seq_S_snoc, fold_left_app, IH. cbn [fold_left]. apply dn_step_eq. auto. }
  rewrite H. apply map_ext_in. intros i Hi. apply maxl_le in Hi. rewrite nth_map_seq by lia. auto.
Qed.

Lemma deriv_rec c a s1 s2 f g h x f' g' h' :
  derivable_pt_lim f x f' -> derivable_pt_lim g x g' -> derivable_pt_lim h x h' ->
  derivable_pt_lim (fun y => (c * f y + (y - a) * g y - s1 * h y) / s2) x
    ((c * f' + (g x + (x - a) * g') - s1 * h') / s2).
Proof.
  intros Hf Hg Hh.
  apply (derivable_pt_lim_ext (fun y => ((c * f y + (y - a) * g y) - s1 * h y) * / s2)%R); [intros; auto|].
  replace ((c * f' + (g x + (x - a) * g') - s1 * h') / s2) with
    ((c * f' + ((1 - 0) * g x + (x - a) * g') - s1 * h') * / s2 + ((c * f x + (x - a) * g x) - s1 * h x) * 0) by (unfold Rdiv; ring).
  apply (derivable_pt_lim_mult (fun y => (c * f y + (y - a) * g y) - s1 * h y) (fct_cte (/ s2))); [|apply derivable_pt_lim_const].
  apply (derivable_pt_lim_minus (fun y => c * f y + (y - a) * g y) (mult_real_fct s1 h)); [|apply derivable_pt_lim_scal; auto].
  apply (derivable_pt_lim_plus (mult_real_fct c f) (fun y => (y - a) * g y)); [apply derivable_pt_lim_scal; auto|].
  apply (derivable_pt_lim_mult (fun y => y - a) g); auto.
  apply (derivable_pt_lim_minus id (fct_cte a)); [apply derivable_pt_lim_id|apply derivable_pt_lim_const].
Qed.

Lemma dval_deriv a b n i x : derivable_pt_lim (dval a b n i) x (dval a b (S n) i x).
Proof.
  revert i x. induction n as [|n IHn]; intros i.
  - enough (H : (forall x, derivable_pt_lim (dval a b 0 i) x (dval a b 1 i x)) /\ (forall x, derivable_pt_lim (dval a b 0 (S i)) x (dval a b 1 (S i) x))) by apply H.
    induction i as [|i [IH1 IH2]].
    + split; intros x.
      * apply (derivable_pt_lim_const 1).
      * rewrite dval_S1. cbn [Nat.eqb]. apply (derivable_pt_lim_ext (fun y => (0 * 1 + (y - a 0%nat) * 1 - 0 * 1) / sqrt (b 1%nat))).
        { intros z. cbn [dval]. rewrite pval_1. f_equal. lra. }
        replace (1 / sqrt (b 1%nat)) with ((0 * 0 + (1 + (x - a 0%nat) * 0) - 0 * 0) / sqrt (b 1%nat)) by (f_equal; lra).
        apply (deriv_rec 0 (a 0%nat) 0 (sqrt (b 1%nat)) (fct_cte 1) (fct_cte 1) (fct_cte 1)); apply derivable_pt_lim_const.
    + split; auto. intros x. rewrite dval_SS.
      apply (derivable_pt_lim_ext (fun y => (0 * 0 + (y - a (S i)) * dval a b 0 (S i) y - sqrt (b (S i)) * dval a b 0 i y) / sqrt (b (S (S i))))).
      { intros z. cbn [dval]. rewrite pval_SS. f_equal. lra. }
      replace ((INR 1 * dval a b 0 (S i) x + (x - a (S i)) * dval a b 1 (S i) x - sqrt (b (S i)) * dval a b 1 i x) / sqrt (b (S (S i))))
        with ((0 * 0 + (dval a b 0 (S i) x + (x - a (S i)) * dval a b 1 (S i) x) - sqrt (b (S i)) * dval a b 1 i x) / sqrt (b (S (S i))))
        by (f_equal; cbn [INR]; lra).
      apply (deriv_rec 0 (a (S i)) (sqrt (b (S i))) (sqrt (b (S (S i)))) (fct_cte 0) (dval a b 0 (S i)) (dval a b 0 i)); auto.
      apply derivable_pt_lim_const.
  - enough (H : (forall x, derivable_pt_lim (dval a b (S n) i) x (dval a b (S (S n)) i x)) /\ (forall x, derivable_pt_lim (dval a b (S n) (S i)) x (dval a b (S (S n)) (S i) x))) by apply H.
    induction i as [|i [IH1 IH2]].
    + split; intros x.
      * apply (derivable_pt_lim_const 0).
      * rewrite dval_S1. cbn [Nat.eqb].
        apply (derivable_pt_lim_ext (fct_cte (if (S n =? 1)%nat then 1 / sqrt (b 1%nat) else 0))); [intros z; rewrite dval_S1; auto|].
        apply derivable_pt_lim_const.
    + split; auto. intros x. rewrite dval_SS.
      apply (derivable_pt_lim_ext (fun y => (INR (S n) * dval a b n (S i) y + (y - a (S i)) * dval a b (S n) (S i) y - sqrt (b (S i)) * dval a b (S n) i y) / sqrt (b (S (S i))))).
      { intros z. rewrite dval_SS. auto. }
      match goal with |- derivable_pt_lim _ _ ?r => replace r with
        ((INR (S n) * dval a b (S n) (S i) x + (dval a b (S n) (S i) x + (x - a (S i)) * dval a b (S (S n)) (S i) x)
          - sqrt (b (S i)) * dval a b (S (S n)) i x) / sqrt (b (S (S i)))) end.
      2:{ f_equal. rewrite (S_INR (S n)). lra. }
      apply (deriv_rec (INR (S n)) (a (S i)) (sqrt (b (S i))) (sqrt (b (S (S i)))) (dval a b n (S i)) (dval a b (S n) (S i)) (dval a b (S n) i)); auto.
Qed.

(** in terms of the model *)
Lemma nth_map_in0 {A} (f : A -> R) l k d : (k < length l)%nat -> nth k (map f l) 0 = f (nth k l d).
Proof. intros. apply map_nth_in. auto. Qed.

Lemma dn_polyval_deriv a b n ind k x : (k < length ind)%nat ->
  derivable_pt_lim (fun y => nth k (dn_polyval a b 1 n ind y) 0) x (nth k (dn_polyval a b 1 (S n) ind x) 0).
Proof.
  intros Hk. rewrite dn_polyval_eq, (nth_map_in0 _ _ _ 0%nat) by auto.
  apply (derivable_pt_lim_ext (dval a b n (nth k ind 0%nat))).
  - intros z. rewrite dn_polyval_eq, (nth_map_in0 _ _ _ 0%nat); auto.
  - apply dval_deriv.
Qed.

Lemma dn_polyval_0 a b ind x : dn_polyval a b 1 0 ind x = polyval a b 1 ind x.
Proof. rewrite dn_polyval_eq, polyval_eq. apply map_ext. intros. rewrite sqrt_1. cbn. lra. Qed.

Lemma derivable_shift f x sh sc f' : sc <> 0 -> derivable_pt_lim f ((x - sh) / sc) f' ->
  derivable_pt_lim (fun y => f ((y - sh) / sc)) x (f' / sc).
Proof.
  intros Hs H. replace (f' / sc) with (f' * / sc) by auto.
  apply (derivable_pt_lim_comp (fun y => (y - sh) / sc) f); [|auto].
  apply (derivable_pt_lim_ext (fun y => / sc * (y - sh))); [intros; unfold Rdiv; ring|].
  match goal with |- derivable_pt_lim ?F ?y _ => enough (HH : derivable_pt_lim F y (/ sc * (1 - 0))) by (replace (/ sc * (1 - 0)) with (/ sc) in HH by ring; exact HH) end.
  apply (derivable_pt_lim_scal (fun y => y - sh)).
  apply (derivable_pt_lim_minus id (fct_cte sh)); [apply derivable_pt_lim_id|apply derivable_pt_lim_const].
Qed.

Lemma shifted_dn_polyval_deriv a b sh sc n ind k x : (k < length ind)%nat -> sc <> 0 ->
  derivable_pt_lim (fun y => nth k (shifted_dn_polyval a b 1 sh sc n ind y) 0) x
    (nth k (shifted_dn_polyval a b 1 sh sc (S n) ind x) 0).
Proof.
  intros Hk Hs. unfold shifted_dn_polyval.
  assert (L : forall n y, length (dn_polyval a b 1 n ind y) = length ind) by (intros; rewrite dn_polyval_eq, map_length; auto).
  rewrite (nth_map_in0 _ _ _ 0) by (rewrite L; auto).
  apply (derivable_pt_lim_ext (fun y => / sc ^ n * nth k (dn_polyval a b 1 n ind ((y - sh) / sc)) 0)).
  { intros z. rewrite (nth_map_in0 _ _ _ 0) by (rewrite L; auto). unfold Rdiv. ring. }
  match goal with |- derivable_pt_lim _ _ (?v / _) => replace (v / sc ^ S n) with (/ sc ^ n * (v / sc)) end.
  2:{ cbn [pow]. field. split; auto. apply pow_nonzero; auto. }
  apply (derivable_pt_lim_scal (fun y => nth k (dn_polyval a b 1 n ind ((y - sh) / sc)) 0)).
  apply (derivable_shift (fun y => nth k (dn_polyval a b 1 n ind y) 0)); auto. apply dn_polyval_deriv. auto.
Qed.
