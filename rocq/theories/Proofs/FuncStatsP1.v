(** Inner products and variances of functional tensors. *)
From Coq Require Import List Arith Bool ZArith Lia.
From Verif.Base Require Import ListAux CRing Index.
From Verif.Model Require Import Sorting MultiIndices Numpy FullTensor FunctionalBases FuncStats.
From Verif.Spec Require Import TensorSpec FunctionSpec FunctionalSpec.
From Verif.Proofs Require Import NumpyP FullTensorP FullTensorP3 FunctionalP FunctionalP3 FunctionalP5.
Import ListNotations.

Section P.
  Context {R : Type} {CR : CRing R} {A V : Type}.
  Add Ring Rfs1 : rth.
  Local Open Scope cr_scope.
  Notation fb := (fbasis R A V).

  Lemma omap_nth_seq (bs : list fb) : omap (nth_error bs) (seq 0 (length bs)) = Some bs.
  Proof.
    assert (H : forall l : list fb, forall pre, omap (nth_error (pre ++ l)) (seq (length pre) (length l)) = Some l).
    { induction l as [|b l IH]; intros pre; [reflexivity|]. cbn [length seq omap].
      rewrite nth_error_app2, Nat.sub_diag by lia. cbn [nth_error bind]. specialize (IH (pre ++ [b])). rewrite <- app_assoc in IH. cbn [app] in IH.
      rewrite app_length in IH. cbn [length] in IH. rewrite Nat.add_1_r in IH. rewrite IH. reflexivity. }
    exact (H bs []).
  Qed.
  Lemma bsum_prod s (f g : list nat -> R) : bsum s f * bsum s g = bsum s (fun is => bsum s (fun js => f is * g js)).
  Proof. rewrite <- bsum_scal_r. apply bsum_ext. intros is _. rewrite bsum_scal_l. auto. Qed.
  Lemma gram_shape (bs : list fb) G W k : each3 gram_ok bs G W -> (k < length bs)%nat ->
    shape (nth k (map fb_gram bs) (scalar r0)) = [nth k (cards bs) 0%nat; nth k (cards bs) 0%nat].
  Proof.
    revert G W k. induction bs as [|b bs IH]; intros [|g G] [|w W] [|k] H Hk; cbn [each3 length] in *; try lia; try tauto.
    - destruct H as [(_ & _ & E & _) _]. cbn [map nth]. exact E.
    - destruct H as [_ H]. cbn [map nth]. apply (IH G W k H). lia.
  Qed.
  Lemma factors_sym (bs : list fb) G W : each3 gram_ok bs G W -> forall is js, valid (cards bs) is -> valid (cards bs) js ->
    factors (map fb_gram bs) is js = factors (map fb_gram bs) js is.
  Proof.
    intros H is js Hi Hj. rewrite <- (tmean_prod2 bs is js G W Hi Hj H), <- (tmean_prod2 bs js is G W Hj Hi H). apply tmean_ext. intros; ring.
  Qed.
  Theorem fun_dot_ok (T1 T2 : nd R) (bs : list fb) G W : shape T1 = cards bs -> shape T2 = cards bs -> each3 gram_ok bs G W ->
    fun_dot_of (Some fbs_gram_matrices) true T1 T2 bs = Some (tmean G W (fun p => expansion bs (get T1) p * expansion bs (get T2) p)).
  Proof.
    intros H1 H2 H. unfold fun_dot_of. assert (Hnd : ndim T1 = length bs) by (unfold ndim; rewrite H1; apply map_length).
    assert (Hnd2 : ndim T2 = length bs) by (unfold ndim; rewrite H2; apply map_length). rewrite Hnd, Hnd2, Nat.eqb_refl. cbn [bind].
    unfold fbs_gram_matrices. rewrite omap_nth_seq. cbn [bind].
    assert (LC : length (cards bs) = length bs) by apply map_length.
    rewrite <- LC. destruct (tmp_all T1 (map fb_gram bs) (cards bs)) as (Y & EY & SY & GY).
    { lia. } { rewrite map_length. auto. } { intros k Hk. rewrite (gram_shape bs G W) by (auto; lia). rewrite H1. auto. }
    rewrite EY. cbn [bind]. rewrite ft_dot_spec by congruence. f_equal. rewrite SY.
    transitivity (bsum (cards bs) (fun js => bsum (cards bs) (fun is => (get T1 js * get T2 is) * tmean G W (fun p => prod_fun bs js p * prod_fun bs is p)))).
    - rewrite <- bsum_exchange. apply bsum_ext. intros is Hi. rewrite GY by auto. rewrite H1. rewrite <- bsum_scal_r. apply bsum_ext. intros js Hj.
      rewrite (tmean_prod2 bs js is G W Hj Hi H). rewrite (factors_sym bs G W H is js Hi Hj). ring.
    - symmetry. transitivity (tmean G W (fun p => bsum (cards bs) (fun js => get T1 js * (bsum (cards bs) (fun is => get T2 is * (prod_fun bs js p * prod_fun bs is p)))))).
      + apply tmean_ext. intros q Hq. unfold expansion. rewrite <- bsum_scal_r. apply bsum_ext. intros js Hj. rewrite <- bsum_scal_l, <- bsum_scal_l. apply bsum_ext. intros is Hi. ring.
      + unfold tmean. transitivity (bsum (cards bs) (fun js => bsum (map (@length _) G) (fun ks => bsum (cards bs) (fun is => (get T1 js * get T2 is) * (lfactors W ks * (prod_fun bs js (grid_point G ks) * prod_fun bs is (grid_point G ks))))))).
        * rewrite <- bsum_exchange. apply bsum_ext. intros ks Hk. rewrite <- bsum_scal_l. apply bsum_ext. intros js Hj. rewrite <- !bsum_scal_l. apply bsum_ext. intros is Hi. ring.
        * apply bsum_ext. intros js Hj. rewrite bsum_exchange. apply bsum_ext. intros is Hi. rewrite bsum_scal_l. auto.
  Qed.
  Theorem fun_variance_ok (T : nd R) (bs : list fb) G W : shape T = cards bs -> each3 mean_ok bs G W -> each3 gram_ok bs G W -> tmean G W (fun _ => r1) = r1 ->
    fun_variance_of (Some fbs_gram_matrices) T bs = Some (let m := tmean G W (expansion bs (get T)) in tmean G W (fun p => (expansion bs (get T) p - m) * (expansion bs (get T) p - m))).
  Proof.
    intros HT HM HG H1. unfold fun_variance_of. destruct (fun_mean_full_ok T bs G W HT HM) as (e & Ee & Se & Ge). rewrite Ee. cbn [bind]. rewrite Se.
    rewrite (fun_dot_ok T T bs G W HT HT HG). cbn [bind]. f_equal. rewrite Ge by constructor. cbv zeta. set (f := expansion bs (get T)). set (m := tmean G W f).
    symmetry. transitivity (tmean G W (fun p => f p * f p) - (r1 + r1) * m * tmean G W f + m * m * tmean G W (fun _ => r1)); [|rewrite H1; fold m; ring].
    unfold tmean. rewrite <- !bsum_scal_l.
    transitivity (bsum (map (@length _) G) (fun is => (lfactors W is * (f (grid_point G is) * f (grid_point G is)) + (- ((r1 + r1) * m * (lfactors W is * f (grid_point G is))))) + m * m * (lfactors W is * r1))).
    - apply bsum_ext. intros is Hi. ring.
    - rewrite !bsum_plus, bsum_opp. ring.
  Qed.
End P.
