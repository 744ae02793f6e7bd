(** Tree-based tensors on the trivial tree (Tucker format). *)
From Coq Require Import List Arith Lia Bool.
From Verif.Base Require Import ListAux CRing Index.
From Verif.Model Require Import Numpy FullTensor DimensionTree TreeBased.
From Verif.Spec Require Import TensorSpec TreeSpec TreeTensorSpec.
From Verif.Proofs Require Import NumpyP DimTreeP DimTreeP2 TreeTensorP TreeTensorP2.
Import ListNotations.

Lemma trivial_children D n : children (dt_trivial D) n = if n =? 1 then seq 2 D else [].
Proof.
  unfold children, nodes. cbn [nbn adj dt_trivial]. destruct (Nat.eqb_spec n 1) as [->|Hn].
  - rewrite Nat.add_1_r. cbn [seq filter]. rewrite andb_false_r. apply filter_true. intros x Hx. apply in_seq in Hx. apply andb_true_iff. split; auto. apply Nat.leb_le. lia.
  - apply filter_none. auto.
Qed.
Lemma trivial_leaf D n : is_leaf (dt_trivial D) n = (2 <=? n) && (n <? D + 2).
Proof.
  unfold is_leaf. cbn [d2i dt_trivial]. destruct (inb n (seq 2 D)) eqn:E.
  - apply inb_spec in E. apply in_seq in E. symmetry. apply andb_true_iff. rewrite Nat.leb_le, Nat.ltb_lt. lia.
  - apply inb_false in E. rewrite in_seq in E. symmetry. apply andb_false_iff. rewrite Nat.leb_gt, Nat.ltb_ge. lia.
Qed.

Section Trivial.
  Context {R : Type} {CR : CRing R}.
  Add Ring Rr_t16 : rth.
  Local Open Scope cr_scope.
  Variables (D : nat) (C : nd R) (Us : list (nd R)).
  Hypothesis HD : (2 <= D)%nat.
  Hypothesis HL : length Us = D.
  Hypothesis HU : forall d, (d < D)%nat -> exists n, shape (nth d Us (scalar r0)) = [n; nth d (shape C) 0%nat] /\ (0 < n)%nat.
  Hypothesis HC : ndim C = D.
  Hypothesis HP : Forall (fun n => (0 < n)%nat) (shape C).
  Let X := TB (dt_trivial D) (C :: Us).
  Lemma triv_core1 : core X 1 = C.
  Proof. reflexivity. Qed.
  Lemma triv_core d : (d < D)%nat -> core X (d + 2) = nth d Us (scalar r0).
  Proof. intros Hd. unfold core, nthc. replace (d + 2 - 1)%nat with (S d) by lia. cbn [nth cores X]. apply nth_indep. lia. Qed.
  Lemma triv_activeC : active X 1 = true.
  Proof.
    unfold active, activec. fold (core X 1). change (nthc (cores X) 1) with C. unfold ft_storage, np_size.
    apply negb_true_iff, Nat.eqb_neq. pose proof (prodn_pos _ HP). change (core X 1) with C. lia.
  Qed.
  Lemma triv_active d : (d < D)%nat -> active X (d + 2) = true.
  Proof.
    intros Hd. unfold active, activec. fold (core X (d + 2)). change (nthc (cores X) (d + 2)) with (core X (d + 2)). rewrite triv_core by auto.
    destruct (HU d Hd) as (n & Hn & Hp). unfold ft_storage, np_size. rewrite Hn. simpl.
    assert (0 < nth d (shape C) 0)%nat by (apply (proj1 (Forall_nth' _ _ 0%nat) HP); unfold ndim in HC; lia).
    apply negb_true_iff, Nat.eqb_neq. nia.
  Qed.
  Lemma triv_leaf d : (d < D)%nat -> is_leaf (dt_trivial D) (d + 2) = true.
  Proof. intros Hd. rewrite trivial_leaf. apply andb_true_iff. rewrite Nat.leb_le, Nat.ltb_lt. lia. Qed.
  Lemma triv_root_notleaf : is_leaf (dt_trivial D) 1 = false.
  Proof. rewrite trivial_leaf. auto. Qed.
  Lemma triv_ok : tb_ok X 1.
  Proof.
    assert (Hd : dim_tree (dt_trivial D) 1) by (apply dt_trivial_ok; lia).
    split; [exact Hd|]. split; [cbn; lia|]. split; [apply triv_activeC|].
    assert (HN : forall n, node (dt_trivial D) n -> n = 1%nat \/ exists d, (d < D)%nat /\ n = (d + 2)%nat).
    { intros n Hn. unfold node in Hn. cbn in Hn. destruct (Nat.eq_dec n 1); auto. right. exists (n - 2)%nat. lia. }
    cbn [ttree X]. intros n Hn. destruct (HN n Hn) as [->|(d & Hd1 & ->)].
    - split; [intros _; apply triv_activeC|]. split.
      + intros _. unfold exts, arity_at. cbn [ttree X]. rewrite triv_root_notleaf, trivial_children, triv_core1. cbn [Nat.eqb]. rewrite seq_length. unfold ndim in *.
        rewrite skipn_all2 by lia. simpl. lia.
      + intros c Hc Ha. apply (in_children (dt_trivial D) 1 c Hn) in Hc. rewrite trivial_children in *. cbn [Nat.eqb] in *. apply in_seq in Hc.
        rewrite triv_core1. replace c with ((c - 2) + 2)%nat at 2 by lia. rewrite triv_core by lia. destruct (HU (c - 2)%nat) as (n & E & _); [lia|]. rewrite E. cbn [last].
        f_equal. replace c with (nth (c - 2) (seq 2 D) 0%nat) at 1 by (rewrite seq_nth; lia). apply index_of_NoDup; [apply seq_NoDup|rewrite seq_length; lia].
    - split; [rewrite triv_leaf by auto; discriminate|]. split.
      + intros _. unfold exts, arity_at. cbn [ttree X]. rewrite triv_leaf, triv_core by auto. destruct (HU d) as (m & E & _); auto. unfold ndim. rewrite E. simpl.
        destruct (Nat.eqb_spec (d + 2) 1); lia.
      + intros c Hc. apply (in_children _ _ _ Hn) in Hc. rewrite trivial_children in Hc. destruct (Nat.eqb_spec (d + 2) 1); [lia|destruct Hc].
  Qed.
  Lemma triv_make : tb_make (C :: Us) (dt_trivial D) = Some X.
  Proof.
    unfold tb_make. rewrite (proj2 (forallb_forall _ _)); auto. intros n Hn. unfold internal_nodes in Hn. apply filter_In in Hn. destruct Hn as [Hi Hn].
    unfold nodes in Hi. apply in_seq in Hi. cbn [nbn dt_trivial] in Hi.
    rewrite trivial_leaf in Hn. apply negb_true_iff, andb_false_iff in Hn. rewrite Nat.leb_gt, Nat.ltb_ge in Hn. replace n with 1%nat by lia. apply triv_activeC.
  Qed.
  Lemma triv_leaf_val f d is k : (d < D)%nat -> tval_fuel (S f) X (d + 2) is [k] = get (nth d Us (scalar r0)) [nth d is 0%nat; k].
  Proof.
    intros Hd. cbn [tval_fuel]. cbn [ttree X]. rewrite triv_leaf, triv_active, triv_core by auto. cbn [d2i dt_trivial].
    replace (d + 2)%nat with (nth d (seq 2 D) 0%nat) by (rewrite seq_nth; lia). rewrite index_of_NoDup; auto; [apply seq_NoDup|rewrite seq_length; auto].
  Qed.
  Lemma factors_lprod : forall (l : list (nd R)) (is ks : list nat) a f, (length l <= length is)%nat -> length ks = length l ->
    (forall d k, (d < length l)%nat -> f (a + d)%nat k = get (nth d l (scalar r0)) [nth d is 0%nat; k]) ->
    lprod (combine (seq a (length l)) ks) (fun p => f (fst p) (snd p)) = factors l is ks.
  Proof.
    induction l as [|M l IH]; intros is ks a f H1 H2 H3; destruct ks as [|k ks]; try discriminate; cbn [length seq combine lprod factors]; auto.
    destruct is as [|i is]; [simpl in H1; lia|]. cbn [fst snd].
    rewrite (IH is ks (S a) f); [|simpl in H1; lia|simpl in H2; lia|].
    - f_equal. specialize (H3 0%nat k ltac:(simpl; lia)). rewrite Nat.add_0_r in H3. exact H3.
    - intros d k' Hd. specialize (H3 (S d) k' ltac:(simpl; lia)). rewrite Nat.add_succ_r in H3. exact H3.
  Qed.
  Lemma triv_val is : (D <= length is)%nat -> tval X 1 is [] = bsum (shape C) (fun ks => get C ks * factors Us is ks).
  Proof.
    intros Hi. unfold tval. cbn [nbn ttree X dt_trivial].
    replace (D + 1)%nat with (S (S (D - 1))) by lia.
    remember (S (D - 1)) as f1. cbn [tval_fuel]. subst f1. cbn [ttree X]. rewrite triv_root_notleaf.
    unfold heads, arity_at. cbn [ttree X]. rewrite triv_root_notleaf, trivial_children. cbn [Nat.eqb]. rewrite seq_length.
    change (core X 1) with C. unfold ndim in HC. rewrite firstn_all2 by lia. apply bsum_ext. intros ks Hk. rewrite app_nil_r. f_equal.
    pose proof (valid_length _ _ Hk) as Lk. rewrite <- HL.
    apply (factors_lprod Us is ks 2 (fun a b => tval_fuel (S (length Us - 1)) X a is [b])); [lia|lia|]. intros d k Hd. rewrite (Nat.add_comm 2 d). apply triv_leaf_val. lia.
  Qed.
  Lemma triv_shape : tb_shape X = map (fun M : nd R => nth 0 (shape M) 0%nat) Us.
  Proof.
    unfold tb_shape. cbn [ttree X d2i dt_trivial]. apply nth_ext' with (d := 0%nat); [rewrite !map_length, seq_length; auto|].
    rewrite map_length, seq_length. intros d Hd. rewrite map_nth_in with (da := 0%nat) by (rewrite seq_length; auto).
    rewrite map_nth_in with (da := scalar r0) by lia. rewrite seq_nth by auto. rewrite (Nat.add_comm 2 d). unfold tb_size. rewrite triv_active, triv_core by auto. auto.
  Qed.
  Lemma triv_exts : exts X 1 = [].
  Proof.
    unfold exts, arity_at. cbn [ttree X]. rewrite triv_root_notleaf, trivial_children, triv_core1. cbn [Nat.eqb]. rewrite seq_length. unfold ndim in HC. apply skipn_all2. lia.
  Qed.
  Lemma triv_full : returns (tb_full X) (map (fun M : nd R => nth 0 (shape M) 0%nat) Us) (fun is => bsum (shape C) (fun ks => get C ks * factors Us is ks)).
  Proof.
    assert (HO : tb_order X = D) by (unfold tb_order; cbn [ttree X d2i dt_trivial]; apply seq_length).
    destruct (tb_full_ok X 1 triv_ok) as (A & HA & HsA & HgA); [lia|]. exists A. split; auto. rewrite triv_exts, app_nil_r, triv_shape in HsA. split; auto.
    intros is Hv. assert (Li : length is = D) by (rewrite (valid_length _ _ Hv), map_length; auto). rewrite HgA by (rewrite triv_exts, app_nil_r, triv_shape; auto).
    rewrite HO. rewrite firstn_all2, skipn_all2 by lia. apply triv_val. lia.
  Qed.
End Trivial.
