(** The singular values: agreement of the two methods, the root of a tree-based tensor. *)
From Coq Require Import List Arith Lia Bool Reals Lra.
From Verif.Base Require Import ListAux CRing Index RealAux LinAlg.
From Verif.Model Require Import Sorting Numpy FullTensor Diagonal Canonical DimensionTree TreeBased Truncator HSVD HsvdTree SingularValues.
From Verif.Spec Require Import TensorSpec TreeSpec TreeTensorSpec TruncatorSpec GramSpec SingularSpec.
From Verif.Proofs Require Import NumpyP FullTensorP DimTreeP TreeTensorP TreeTensorP2 TreeTensorP3 TreeTensorP4 TreeTensorP12 TreeTensorP15 HsvdTreeP12 HsvdTreeP5 HsvdTreeP8 HsvdTreeP9 SingularP1 SingularP2 SingularP3.
Import ListNotations.
Local Open Scope R_scope.

Lemma Forall2_seq {B} (P : nat -> B -> Prop) (d : B) : forall m k l, Forall2 P (seq k m) l -> length l = m /\ forall i, (i < m)%nat -> P (k + i)%nat (nth i l d).
Proof.
  induction m as [|m IH]; intros k l H; inversion H; subst; [split; auto; intros; lia|]. destruct (IH (S k) l' H4) as [IH1 IH2]. split; [cbn; auto|]. intros [|i] Hi; [rewrite Nat.add_0_r; auto|]. replace (k + S i)%nat with (S k + i)%nat by lia. apply IH2. lia.
Qed.
Section Svd.
  Variable svd : nd R -> nd R * list R * nd R.
  Variable qr : nd R -> nd R * nd R.
  Hypothesis SVD : svd_contract svd.
  Hypothesis QR : qr_contract qr.
  Lemma tb_sv_nth (X : tbt R) r A : tb_ok X r -> (2 <= tb_order X)%nat -> tb_full X = Some A ->
    exists L, tb_singular_values svd qr X = Some L /\ length L = nbn (ttree X) /\ forall n, node (ttree X) n ->
      (n = r -> nth (n - 1) L None = Some [1]) /\
      (n <> r -> active X n = false -> nth (n - 1) L None = None) /\
      (n <> r -> active X n = true -> exists sv, nth (n - 1) L None = Some sv /\ singular_values_of A (dims (ttree X) n) sv /\ (length sv <= last (shape (core X n)) 0)%nat).
  Proof.
    intros O H2 HA. destruct (tb_sv_main svd SVD qr QR X r A O H2 HA) as (L & E & F). exists L. split; auto.
    destruct (Forall2_seq _ None _ _ _ F) as [F1 F2]. split; auto. intros n Hn. unfold node in Hn. specialize (F2 (n - 1)%nat ltac:(lia)). cbv beta in F2. replace (1 + (n - 1))%nat with n in F2 by lia. exact F2.
  Qed.
  (** the leaves of a tree-based tensor and the dense tensor *)
  Lemma sv_agree (X : tbt R) r A L l d : tb_ok X r -> (2 <= tb_order X)%nat -> tb_full X = Some A -> Forall (fun n => (0 < n)%nat) (shape A) ->
    tb_singular_values svd qr X = Some L -> ft_singular_values svd A = Some (inr l) -> (d < tb_order X)%nat -> active X (nth d (d2i (ttree X)) 0%nat) = true ->
    exists sv, nth (nth d (d2i (ttree X)) 0%nat - 1) L None = Some sv /\ forall k, nth k sv 0 = nth k (nth d l []) 0.
  Proof.
    intros O H2 HA HP EL El Hd Ha. pose proof (proj1 O) as V. pose proof (proj1 V) as T.
    destruct (tb_sv_nth X r A O H2 HA) as (L' & E & _ & F). rewrite EL in E. inversion E; subst L'. clear E.
    set (n := nth d (d2i (ttree X)) 0%nat) in *.
    assert (Hl : is_leaf (ttree X) n = true) by (apply d2i_leaf; exact Hd).
    assert (Hn : node (ttree X) n) by (apply (d2i_node _ r V); exact Hd).
    assert (ED : dims (ttree X) n = [d]) by (rewrite (dims_leaf _ r V n Hl); f_equal; unfold n; apply index_of_NoDup; [apply V|exact Hd]).
    assert (NE : n <> r).
    { intros Er. pose proof (is_perm_length _ _ (dims_root _ r V)) as LD. rewrite <- Er, ED in LD. cbn in LD. unfold tb_order in H2. lia. }
    destruct (F n Hn) as (_ & _ & F3). destruct (F3 NE Ha) as (sv & E1 & E2 & _). exists sv. split; auto.
    destruct (SingularP2.ft_sv_main svd SVD A) as (v & Ev & Sv). rewrite El in Ev. inversion Ev; subst v. destruct Sv as (N2 & Ll & Sv).
    assert (LA : (d < ndim A)%nat). { destruct (full_inv X r A O H2 HA) as [SA _]. unfold ndim. rewrite SA, app_length, tb_shape_length. unfold tb_order in *. lia. }
    rewrite ED in E2. apply (sv_unique A [d] ltac:(apply NoDup_single) ltac:(repeat constructor; auto) HP); auto.
  Qed.

  Lemma root_wrong : exists X r A L, tb_ok X r /\ tb_full X = Some A /\ tb_singular_values svd qr X = Some L /\ (2 <= tb_order X)%nat /\ dims (ttree X) r = seq 0 (ndim A) /\
    nth (r - 1) L None = Some [1] /\ ~ singular_values_of A (dims (ttree X) r) [1] /\ sumsq [1] <> frob2 A.
  Proof.
    pose proof flag_ok as O. assert (H2 : (2 <= tb_order flag_X)%nat) by (cbn; lia).
    destruct (full_returns flag_X 1 _ (fun is => tval flag_X 1 (firstn 3 is) []) O H2 eq_refl) as (A & HA & HsA & HgA).
    { intros is e Hi He. assert (e = []) by (inversion He; auto). subst e. rewrite app_nil_r. f_equal. symmetry. apply firstn_all2. rewrite (valid_length _ _ Hi). cbn. lia. }
    destruct (tb_sv_nth flag_X 1 A O H2 HA) as (L & EL & _ & F).
    assert (FR : frob2 A = 25).
    { unfold frob2. change (tb_shape flag_X ++ exts flag_X 1) with [2; 2; 1]%nat in *. rewrite HsA. 
      rewrite (HsvdP2.bsum_ext_R _ _ (fun is => tval flag_X 1 is [] * tval flag_X 1 is [])).
      - cbn [bsum rsum]. rcbn. rewrite !flag_A by lia. cbn [Nat.eqb]. ring.
      - intros is Hi. rewrite HgA by (exact Hi). rewrite firstn_all2; auto. rewrite (valid_length _ _ Hi). cbn. lia. }
    exists flag_X, 1%nat, A, L. split; auto. split; auto. split; auto. split; auto.
    assert (ED : dims (ttree flag_X) 1 = seq 0 (ndim A)) by (unfold ndim; rewrite HsA; vm_compute; reflexivity).
    split; auto. assert (S1 : sumsq [1] <> frob2 A) by (rewrite FR; unfold sumsq; cbn; lra).
    split; [apply (F 1%nat); [unfold node; cbn; lia|auto]|]. split; auto.
    intros H. apply S1. apply (sv_frob A (dims (ttree flag_X) 1)); auto.
    - rewrite ED. apply seq_NoDup.
    - rewrite ED. apply Forall_forall. intros d Hd. apply in_seq in Hd. lia.
    - rewrite HsA. repeat (apply Forall_cons; [cbn; lia|]). apply Forall_nil.
  Qed.
End Svd.
