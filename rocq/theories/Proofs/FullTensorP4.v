(** Dense tensors: contractions of one axis, written with concatenations. *)
From Coq Require Import List Arith Lia Bool ZArith Ring Permutation.
From Verif.Base Require Import ListAux CRing Index.
From Verif.Model Require Import Sorting Numpy FullTensor.
From Verif.Spec Require Import TensorSpec.
From Verif.Proofs Require Import NumpyP FullTensorP FullTensorP2 FullTensorP3.
Import ListNotations.

Lemma sel_seq_mid {A} (d : A) (l1 l2 l3 : list A) : sel d (l1 ++ l2 ++ l3) (seq (length l1) (length l2)) = l2.
Proof.
  apply nth_ext' with (d := d); [rewrite sel_length, seq_length; auto|]. intros k Hk. rewrite sel_length, seq_length in Hk.
  rewrite sel_nth by (rewrite seq_length; auto). rewrite seq_nth by auto. rewrite app_nth2 by lia.
  replace (length l1 + k - length l1) with k by lia. rewrite app_nth1; auto.
Qed.
Lemma sel_app_ks {A} (d : A) l ks js : sel d l (ks ++ js) = sel d l ks ++ sel d l js.
Proof. unfold sel. apply map_app. Qed.
Lemma sel_compl1 (s1 s2 : list nat) m : sel 0 (s1 ++ m :: s2) (compl (length (s1 ++ m :: s2)) [length s1]) = s1 ++ s2.
Proof.
  rewrite compl_single by (rewrite app_length; simpl; lia). rewrite sel_app_ks. f_equal.
  - apply (sel_seq_mid 0 [] s1 (m :: s2)).
  - pose proof (sel_seq_mid 0 (s1 ++ [m]) s2 []) as H. rewrite app_nil_r, <- app_assoc in H. simpl in H. rewrite <- H at 3.
    f_equal. rewrite !app_length. simpl. f_equal; lia.
Qed.
Lemma asm1_app n a1 a2 k : n = S (length (a1 ++ a2)) -> asm n [length a1] [k] (a1 ++ a2) = a1 ++ k :: a2.
Proof.
  intros ->. rewrite app_length. rewrite asm_ins by (rewrite ?app_length; lia).
  rewrite firstn_app, Nat.sub_diag, firstn_all, skipn_app, Nat.sub_diag, skipn_all. simpl. rewrite app_nil_r. auto.
Qed.

Section FT4.
  Context {R : Type} {CR : CRing R}.
  Add Ring Rr4 : rth.
  Local Open Scope cr_scope.

  Lemma td_single (A B : nd R) sa1 sa2 sb1 sb2 m : shape A = sa1 ++ m :: sa2 -> shape B = sb1 ++ m :: sb2 ->
    exists C, ft_tensordot A B [length sa1] [length sb1] = Some C /\ shape C = (sa1 ++ sa2) ++ (sb1 ++ sb2) /\
      forall a1 a2 b1 b2, valid sa1 a1 -> valid sa2 a2 -> valid sb1 b1 -> valid sb2 b2 ->
        get C ((a1 ++ a2) ++ (b1 ++ b2)) = rsum m (fun k => get A (a1 ++ k :: a2) * get B (b1 ++ k :: b2)).
  Proof.
    intros HA HB.
    assert (NA : ndim A = length (sa1 ++ m :: sa2)) by (unfold ndim; rewrite HA; auto).
    assert (NB : ndim B = length (sb1 ++ m :: sb2)) by (unfold ndim; rewrite HB; auto).
    assert (LA : (length sa1 < ndim A)%nat) by (rewrite NA, app_length; simpl; lia).
    assert (LB : (length sb1 < ndim B)%nat) by (rewrite NB, app_length; simpl; lia).
    assert (EA : sel 0%nat (shape A) [length sa1] = [m]).
    { unfold sel. simpl. rewrite HA, app_nth2, Nat.sub_diag by lia. auto. }
    assert (EB : sel 0%nat (shape B) [length sb1] = [m]).
    { unfold sel. simpl. rewrite HB, app_nth2, Nat.sub_diag by lia. auto. }
    assert (CA : sel 0%nat (shape A) (compl (ndim A) [length sa1]) = sa1 ++ sa2) by (rewrite NA, HA; apply sel_compl1).
    assert (CB : sel 0%nat (shape B) (compl (ndim B) [length sb1]) = sb1 ++ sb2) by (rewrite NB, HB; apply sel_compl1).
    destruct (ft_tensordot_spec A B [length sa1] [length sb1]) as (C & H1 & H2 & H3); auto using NoDup_single, Forall_lt_single.
    { rewrite EA, EB; auto. }
    exists C. split; auto. rewrite CA, CB in *. split; auto.
    intros a1 a2 b1 b2 Ha1 Ha2 Hb1 Hb2. rewrite H3 by (apply valid_app; auto). rewrite EA. cbn [bsum].
    apply rsum_ext. intros k Hk.
    rewrite <- (valid_length _ _ Ha1), <- (valid_length _ _ Hb1).
    rewrite !asm1_app; auto.
    - rewrite NB, !app_length, (valid_length _ _ Hb1), (valid_length _ _ Hb2). simpl. lia.
    - rewrite NA, !app_length, (valid_length _ _ Ha1), (valid_length _ _ Ha2). simpl. lia.
  Qed.

  (** product with one matrix along one axis *)
  Lemma tmp_single (A M : nd R) s1 s2 m q : shape A = s1 ++ m :: s2 -> shape M = [q; m] ->
    exists C, ft_tensor_matrix_product A [M] (Some [length s1]) = Some C /\ shape C = s1 ++ q :: s2 /\
      forall a1 i a2, valid s1 a1 -> (i < q)%nat -> valid s2 a2 ->
        get C (a1 ++ i :: a2) = rsum m (fun k => get M [i; k] * get A (a1 ++ k :: a2)).
  Proof.
    intros HA HM.
    assert (NA : ndim A = length (s1 ++ m :: s2)) by (unfold ndim; rewrite HA; auto).
    assert (LA : (length s1 < ndim A)%nat) by (rewrite NA, app_length; simpl; lia).
    destruct (ft_tensor_matrix_product_spec A [M] [length s1]) as (C & H1 & H2 & H3); auto using NoDup_single, Forall_lt_single.
    { intros k Hk. simpl in Hk. assert (k = 0%nat) by lia. subst k. simpl. exists q. rewrite HM, HA, app_nth2, Nat.sub_diag by lia. auto. }
    assert (U : forall x (b1 b2 : list nat) (y : nat), length b1 = length s1 -> upd (length s1) x (b1 ++ y :: b2) = b1 ++ x :: b2).
    { intros x b1 b2 y Hb. rewrite upd_app_r by lia. rewrite Hb, Nat.sub_diag. auto. }
    exists C. split; auto. cbn [put map] in H2, H3. rewrite HM, HA, U in H2, H3 by auto. cbn [nth] in H2, H3. split; auto.
    intros a1 i a2 H4 H5 H6. rewrite H3 by (apply valid_app; auto; constructor; auto).
    unfold sel. cbn [map bsum]. rewrite app_nth2, Nat.sub_diag by lia. cbn [nth].
    apply rsum_ext. intros k Hk. cbn [put factors]. rewrite U by (apply valid_length; auto).
    rewrite app_nth2 by (rewrite (valid_length _ _ H4); lia). rewrite (valid_length _ _ H4), Nat.sub_diag. cbn [nth]. ring.
  Qed.
End FT4.
