(** Tree-based tensors: sums and differences (end), Kronecker and Hadamard products. *)
From Coq Require Import List Arith Lia Bool ZArith Ring Permutation.
From Verif.Base Require Import ListAux CRing Index.
From Verif.Model Require Import Sorting Numpy FullTensor DimensionTree TreeBased.
From Verif.Spec Require Import TensorSpec TreeSpec TreeTensorSpec.
From Verif.Proofs Require Import NumpyP FullTensorP FullTensorP2 FullTensorP3 FullTensorP4 DimTreeP DimTreeP2 DimTreeP3 TreeTensorP TreeTensorP2 TreeTensorP3 TreeTensorP4 TreeTensorP5 TreeTensorP6 TreeTensorP7 TreeTensorP8.
Import ListNotations.

Section AddThm.
  Context {R : Type} {CR : CRing R}.
  Add Ring Rradt : rth.
  Local Open Scope cr_scope.

  (** a map over the nodes *)
  Lemma omap_nodes (f : nat -> option (nd R)) (t : dtree) :
    (forall n, node t n -> exists C, f n = Some C) ->
    exists l, omap f (nodes t) = Some l /\ length l = nbn t /\ forall n, node t n -> f n = Some (nthc l n).
  Proof.
    intros H. set (g := fun n => match f n with Some C => C | None => no_core end).
    assert (Hg : forall n, node t n -> f n = Some (g n)).
    { intros n Hn. unfold g. destruct (H n Hn) as (C & ->). auto. }
    exists (map g (nodes t)). unfold nodes. split.
    - apply omap_some. intros n Hn. apply Hg. apply in_seq in Hn. unfold node. lia.
    - split; [rewrite map_length, seq_length; auto|]. intros n Hn. rewrite (Hg n Hn). f_equal. unfold nthc. unfold node in Hn.
      rewrite map_nth_in with (da := 0%nat) by (rewrite seq_length; lia). rewrite seq_nth by lia. f_equal. lia.
  Qed.
  Lemma add_core_some X Y r n : tb_ok X r -> tb_ok Y r -> ttree Y = ttree X -> tb_shape Y = tb_shape X -> exts Y r = exts X r ->
    (forall n, node (ttree X) n -> active Y n = active X n) -> (2 <= tb_order X)%nat -> node (ttree X) n ->
    exists C, tb_add_core X Y n = Some C.
  Proof.
    intros OX OY HT HS HE HA H2 Hn. destruct (is_leaf (ttree X) n) eqn:Hl.
    - destruct (active X n) eqn:Ha.
      + destruct (add_core_leaf X Y r OX OY HT HS HA H2 n Hl Ha) as (C & HC & _). eauto.
      + unfold tb_add_core. rewrite Hl, Ha. cbn. eauto.
    - destruct (add_core_internal X Y r OX OY HT HS HE HA H2 n Hn Hl) as (C & HC & _). eauto.
  Qed.
  Definition sum_val (X Y Z : tbt R) (r : nat) : Prop :=
    tb_ok Z r /\ ttree Z = ttree X /\ tb_shape Z = tb_shape X /\ exts Z r = exts X r /\
    forall is e, valid (tb_shape X) is -> valid (exts X r) e -> tval Z r is e = tval X r is e + tval Y r is e.
  Lemma add_same X Y r : tb_ok X r -> tb_ok Y r -> ttree Y = ttree X -> tb_shape Y = tb_shape X -> exts Y r = exts X r ->
    (forall n, node (ttree X) n -> active Y n = active X n) -> (2 <= tb_order X)%nat ->
    exists l, omap (tb_add_core X Y) (nodes (ttree X)) = Some l /\ tb_make l (ttree X) = Some (TB (ttree X) l) /\ sum_val X Y (TB (ttree X) l) r /\
      forall n, node (ttree X) n -> active (TB (ttree X) l) n = active X n.
  Proof.
    intros OX OY HT HS HE HA H2.
    destruct (omap_nodes (tb_add_core X Y) (ttree X)) as (l & Hl & HL & HC).
    { intros n Hn. apply (add_core_some X Y r n); auto. }
    exists l. split; auto. set (Z := TB (ttree X) l).
    destruct (add_facts X Y r OX OY HT HS HE HA H2 Z eq_refl HL HC) as (OZ & SZ & EZ & _).
    split; [apply (tb_make_ok l (ttree X) r); exact OZ|]. split.
    2:{ intros n Hn. apply (add_active X Y r OX OY HT HS HE HA H2 Z HL HC n Hn). }
    split; auto. split; auto. split; auto. split; auto.
    intros is e Hi He. apply (add_tval_root X Y r OX OY HT HS HE HA H2 Z eq_refl HL HC); auto.
  Qed.
  Lemma active_nodes_spec (X : tbt R) n : inb n (active_nodes X) = true <-> node (ttree X) n /\ active X n = true.
  Proof. rewrite inb_spec. unfold active_nodes, nodes. rewrite filter_In, in_seq. unfold node. intuition lia. Qed.
  Lemma tb_add_val X Y r : tb_ok X r -> tb_ok Y r -> ttree Y = ttree X -> tb_shape Y = tb_shape X -> exts Y r = exts X r ->
    (2 <= tb_order X)%nat -> exists Z, tb_add X Y = Some Z /\ sum_val X Y Z r /\
      forall n, node (ttree X) n -> active Z n = active X n || active Y n.
  Proof.
    intros OX OY HT HS HE H2. unfold tb_add. rewrite HT, Nat.eqb_refl. cbn [negb].
    assert (HL2 : (2 <= tb_order Y)%nat) by (unfold tb_order in *; rewrite HT; auto).
    destruct (forallb (fun n => Bool.eqb (active X n) (active Y n)) (nodes (ttree X))) eqn:Es; cbn [bind].
    - assert (HA : forall n, node (ttree X) n -> active Y n = active X n).
      { intros n Hn. rewrite forallb_forall in Es. assert (Hi : In n (nodes (ttree X))) by (apply in_seq; unfold node in Hn; lia).
        apply Es in Hi. apply Bool.eqb_prop in Hi. auto. }
      rewrite HT, (dt_eqb_refl _ r (proj1 OX)).
      destruct (add_same X Y r OX OY HT HS HE HA H2) as (l & H1 & H3 & H4 & H5). rewrite H1. cbn [bind]. rewrite H3. eexists. split; [reflexivity|]. split; auto.
      intros n Hn. rewrite HA, orb_diag by auto.
      apply H5; auto.
    - destruct (tb_activate_spec X r (active_nodes Y) OX H2) as (X' & HX' & SX' & AX' & _).
      { intros n Hn. apply inb_spec, active_nodes_spec in Hn. rewrite HT in Hn. tauto. }
      rewrite HX'. cbn [bind]. destruct SX' as (OX' & TX' & ShX' & EX' & VX').
      destruct (tb_activate_spec Y r (active_nodes X') OY HL2) as (Y' & HY' & SY' & AY' & _).
      { intros n Hn. apply inb_spec, active_nodes_spec in Hn. rewrite TX', <- HT in Hn. tauto. }
      rewrite HY'. cbn [bind]. destruct SY' as (OY' & TY' & ShY' & EY' & VY').
      assert (HA : forall n, node (ttree X') n -> active Y' n = active X' n).
      { intros n Hn. rewrite TX' in Hn. rewrite AY' by (rewrite HT; auto). 
        assert (E : inb n (active_nodes X') = active X' n).
        { apply Bool.eq_iff_eq_true. rewrite active_nodes_spec, TX'. tauto. }
        rewrite E, AX' by auto.
        assert (E' : inb n (active_nodes Y) = active Y n).
        { apply Bool.eq_iff_eq_true. rewrite active_nodes_spec, HT. tauto. }
        rewrite E'. destruct (active X n), (active Y n); auto. }
      assert (HA0 : forall n, node (ttree X) n -> active X' n = active X n || active Y n).
      { intros n Hn. rewrite AX' by auto. f_equal. apply Bool.eq_iff_eq_true. rewrite active_nodes_spec, HT. tauto. }
      assert (ET : ttree Y' = ttree X') by congruence.
      assert (H2' : (2 <= tb_order X')%nat) by (unfold tb_order in *; rewrite TX'; auto).
      assert (HS' : tb_shape Y' = tb_shape X') by congruence. assert (HE' : exts Y' r = exts X' r) by congruence.
      rewrite ET, (dt_eqb_refl _ r (proj1 OX')).
      destruct (add_same X' Y' r OX' OY' ET HS' HE' HA H2') as (l & H1 & H3 & H4 & H5). rewrite H1. cbn [bind]. rewrite H3. eexists. split; [reflexivity|].
      split.
      + destruct H4 as (OZ & TZ & SZ & EZ & VZ). split; auto. split; [congruence|]. split; [congruence|]. split; [congruence|].
        intros is e Hi He. rewrite VZ, VX', VY' by congruence. auto.
      + intros n Hn. rewrite <- HA0 by auto. rewrite <- TX' in Hn.
        apply H5; auto.
  Qed.
  (** same shape of the full tensors gives same sizes and same root extension *)
  Lemma full_shapes_eq X Y r A B : tb_ok X r -> tb_ok Y r -> ttree Y = ttree X -> (2 <= tb_order X)%nat ->
    tb_full X = Some A -> tb_full Y = Some B -> shape B = shape A -> tb_shape Y = tb_shape X /\ exts Y r = exts X r.
  Proof.
    intros OX OY HT H2 HA HB Hs. assert (HL2 : (2 <= tb_order Y)%nat) by (unfold tb_order in *; rewrite HT; auto).
    destruct (full_inv X r A OX H2 HA) as [HsA _]. destruct (full_inv Y r B OY HL2 HB) as [HsB _].
    rewrite HsA, HsB in Hs. assert (L : length (tb_shape Y) = length (tb_shape X)) by (rewrite !tb_shape_length, HT; auto).
    revert L Hs. generalize (exts Y r) (exts X r) (tb_shape X) (tb_shape Y). intros e1 e2 l1 l2. revert l1.
    induction l2 as [|a l2 IH]; intros [|b l1]; cbn; intros L Hs; try discriminate; auto.
    injection Hs as -> Hs. injection L as L. destruct (IH l1 L Hs) as [-> ->]. auto.
  Qed.
  Theorem tb_add_full X Y r A B : tb_ok X r -> tb_ok Y r -> ttree Y = ttree X -> (2 <= tb_order X)%nat ->
    tb_full X = Some A -> tb_full Y = Some B -> shape B = shape A ->
    exists Z, tb_add X Y = Some Z /\ tb_ok Z r /\ ttree Z = ttree X /\ (forall n, node (ttree X) n -> active Z n = active X n || active Y n) /\
      returns (tb_full Z) (shape A) (fun is => get A is + get B is).
  Proof.
    intros OX OY HT H2 HA HB Hs. assert (HL2 : (2 <= tb_order Y)%nat) by (unfold tb_order in *; rewrite HT; auto).
    destruct (full_shapes_eq X Y r A B) as [HS HE]; auto.
    destruct (full_inv X r A OX H2 HA) as [HsA HgA]. destruct (full_inv Y r B OY HL2 HB) as [HsB HgB].
    destruct (tb_add_val X Y r) as (Z & HZ & (OZ & TZ & SZ & EZ & VZ) & AZ); auto.
    exists Z. split; auto. split; auto. split; auto. split; auto. apply (full_returns Z r); auto.
    - unfold tb_order. rewrite TZ. exact H2.
    - congruence.
    - rewrite SZ, EZ. intros is e Hi He. rewrite VZ, HgA, HgB by congruence. auto.
  Qed.
  Lemma tb_neg_tree (X : tbt R) : ttree (tb_neg X) = ttree X.
  Proof. auto. Qed.
  Theorem tb_sub_full X Y r A B : tb_ok X r -> tb_ok Y r -> ttree Y = ttree X -> (2 <= tb_order X)%nat ->
    tb_full X = Some A -> tb_full Y = Some B -> shape B = shape A ->
    exists Z, tb_sub X Y = Some Z /\ tb_ok Z r /\ ttree Z = ttree X /\
      returns (tb_full Z) (shape A) (fun is => get A is - get B is).
  Proof.
    intros OX OY HT H2 HA HB Hs. assert (HL2 : (2 <= tb_order Y)%nat) by (unfold tb_order in *; rewrite HT; auto).
    destruct (tb_neg_full Y r B OY HL2 HB) as (ON & N & HN & HsN & HgN).
    destruct (tb_add_full X (tb_neg Y) r A N) as (Z & HZ & OZ & TZ & _ & C & HC & HsC & HgC); auto; [congruence|].
    exists Z. split; auto. split; auto. split; auto. exists C. split; auto. split; auto. intros is Hv. rewrite HgC, HgN by congruence. ring.
  Qed.
End AddThm.
