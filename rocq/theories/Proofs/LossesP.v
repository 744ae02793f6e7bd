(** Losses. *)
From Coq Require Import List Arith Lia Reals Lra Bool.
From Verif.Base Require Import ListAux CRing Index RealAux LinAlg.
From Verif.Model Require Import Measures Learning Losses.
From Verif.Spec Require Import LearningSpec.
From Verif.Proofs Require Import LearningP.
Import ListNotations.
Local Open Scope R_scope.

Lemma bdim_refl a : bdim a a = Some a.
Proof. unfold bdim. rewrite Nat.eqb_refl. auto. Qed.
Lemma bix_ok a i : (i < a)%nat -> bix a i = i.
Proof. intros H. unfold bix. destruct (Nat.eqb_spec a 1); lia. Qed.
Lemma mean_rows A B : mrows A = mrows B -> mcols A = mcols B -> exists D, bsub A B = Some D /\ mrows D = mrows A /\ mcols D = mcols A /\
  forall i j, (i < mrows A)%nat -> (j < mcols A)%nat -> ment D i j = ment A i j - ment B i j.
Proof.
  intros E1 E2. unfold bsub. rewrite <- E1, <- E2, !bdim_refl. eexists. split; [reflexivity|]. split; [reflexivity|]. split; [reflexivity|]. intros i j Hi Hj. cbn [ment].
  rewrite !bix_ok by auto. auto.
Qed.
Lemma np_mean_rsum n f : np_mean n f = rsum n f / INR n.
Proof. reflexivity. Qed.
Lemma square_risk_2d P Y : mrows P = mrows Y -> mcols P = mcols Y ->
  square_risk (A2 P) (A2 Y) = Some (rsum (mrows Y) (fun i => rsum (mcols Y) (fun j => (ment P i j - ment Y i j) ^ 2)) / INR (mrows Y),
                                    rsum (mrows Y) (fun i => rsum (mcols Y) (fun j => ment Y i j ^ 2)) / INR (mrows Y)).
Proof.
  intros E1 E2. unfold square_risk, square_eval. cbn [atleast_2d]. destruct (mean_rows P Y E1 E2) as (D & -> & D1 & D2 & D3). unfold np_mean_v, sum_sq_rows, np_mean. cbn [fst snd].
  rewrite D1, D2. rewrite E1, E2 in *. do 3 f_equal. apply rsum_ext_R'. intros i Hi. apply rsum_ext_R'. intros j Hj. rewrite D3; auto.
Qed.
Lemma square_risk_1d n p y : square_risk (A1 n p) (A1 n y) = Some (rsum n (fun j => (p j - y j) ^ 2), rsum n (fun j => y j ^ 2)).
Proof.
  unfold square_risk, square_eval. cbn [atleast_2d]. destruct (mean_rows (MX 1 n (fun _ j => p j)) (MX 1 n (fun _ j => y j)) eq_refl eq_refl) as (D & -> & D1 & D2 & D3).
  unfold np_mean_v, sum_sq_rows, np_mean. cbn [fst snd mrows mcols ment] in *. rewrite D1, D2. rewrite !rsum_S_R. cbn [rsum INR]. do 2 f_equal.
  - rewrite (rsum_ext_R' n _ (fun j => (p j - y j) ^ 2)) by (intros j Hj; rewrite D3 by auto; auto). rcbn. field.
  - rcbn. field.
Qed.
Lemma ratio_cancel a b n : 0 < n -> (a / n) / (b / n) = a / b.
Proof.
  intros Hn. destruct (Req_EM_T b 0) as [->|Hb].
  - unfold Rdiv. rewrite !Rmult_0_l, Rinv_0. ring.
  - field. split; auto. lra.
Qed.
