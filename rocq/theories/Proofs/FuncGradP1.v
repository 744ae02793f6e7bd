(** Proofs for Model/FuncGrad.v: the contracted tensor. *)
From Coq Require Import List Arith Lia Bool Permutation.
From Verif.Base Require Import ListAux CRing Index.
From Verif.Model Require Import Numpy FullTensor DimensionTree TreeBased TreeEval HsvdTree TreeGrad FuncGrad.
From Verif.Spec Require Import TensorSpec TreeSpec TreeTensorSpec GradSpec FuncGradSpec.
From Verif.Proofs Require Import NumpyP FullTensorP DimTreeP TreeTensorP TreeTensorP3 TreeTensorP4 TreeTensorP17.
Import ListNotations.
Local Open Scope cr_scope.

Section FuncGradP1.
  Context {R : Type} {CR : CRing R}.
  Add Ring Rfg1 : rth.

  (** two lists of cores that agree outside node a stay so, and the core of a is not changed, if no dimension has target a *)
  Lemma dim_fold_agree (X Y : tbt R) a op mus : ttree Y = ttree X -> (forall mu, In mu mus -> active Y (nth mu (d2i (ttree X)) 0%nat) = active X (nth mu (d2i (ttree X)) 0%nat)) ->
    (forall mu, In mu mus -> target X mu <> a) -> node (ttree X) a -> (forall mu, In mu mus -> node (ttree X) (target X mu)) ->
    forall l l' k k', (forall m, node (ttree X) m -> m <> a -> nthc l m = nthc l' m) -> length l = length l' ->
      ofold (fun l mu => dim_step X (op mu) l mu) mus l = Some k -> ofold (fun l mu => dim_step Y (op mu) l mu) mus l' = Some k' ->
      (forall m, node (ttree X) m -> m <> a -> nthc k m = nthc k' m) /\ nthc k a = nthc l a /\ nthc k' a = nthc l' a.
  Proof.
    intros Et Ea HT Ha H1. induction mus as [|mu mus IH]; intros l l' k k' Hag Hlen E E'; cbn [ofold] in E, E'.
    - inversion E; inversion E'; subst. auto.
    - destruct (dim_step X (op mu) l mu) as [l1|] eqn:S1; [|discriminate]. destruct (dim_step Y (op mu) l' mu) as [l1'|] eqn:S1'; [|discriminate].
      assert (HTm : target X mu <> a) by (apply HT; simpl; auto). assert (Hm1 : node (ttree X) (target X mu)) by (apply H1; simpl; auto).
      assert (S : exists A, l1 = setc (target X mu) A l /\ l1' = setc (target X mu) A l').
      { unfold dim_step in S1, S1'. unfold target. unfold target in HTm, Hm1. rewrite Et in S1'. unfold tb_order in S1, S1'. rewrite Et in S1'. rewrite Ea in S1' by (simpl; auto).
        destruct (mu <? length (d2i (ttree X)))%nat; [|discriminate]. destruct (active X (nth mu (d2i (ttree X)) 0%nat)).
        - rewrite <- Hag in S1' by auto. destruct (op mu _ _) as [A|]; [|discriminate]. cbn [bind] in S1, S1'. inversion S1; inversion S1'. exists A; auto.
        - rewrite <- Hag in S1' by auto. destruct (op mu _ _) as [A|]; [|discriminate]. cbn [bind] in S1, S1'. inversion S1; inversion S1'. exists A; auto. }
      destruct S as (A & -> & ->).
      destruct (IH (fun m Hm => Ea m (or_intror Hm)) (fun m Hm => HT m (or_intror Hm)) (fun m Hm => H1 m (or_intror Hm)) (setc (target X mu) A l) (setc (target X mu) A l') k k') as (I1 & I2 & I3); [| |exact E|exact E'|].
      + intros m Hm Hne. destruct (Nat.eq_dec m (target X mu)) as [->|Hn].
        * unfold nthc, setc. destruct (Nat.lt_ge_cases (target X mu - 1) (length l)).
          -- rewrite !nth_upd_eq by lia. auto.
          -- rewrite !nth_overflow by (rewrite upd_length; lia). auto.
        * unfold nthc, setc. rewrite !nth_upd_neq by (unfold node in *; lia). apply Hag; auto.
      + unfold setc. rewrite !upd_length. auto.
      + split; auto. rewrite I2, I3. unfold nthc, setc. rewrite !nth_upd_neq by (unfold node in *; lia). auto.
  Qed.

  (** tensor_matrix_product along dims, on tensors that differ in the core of a only *)
  Lemma tmp_agree (X Y : tbt R) r a Ms mus Z : tb_ok X r -> (2 <= tb_order X)%nat -> node (ttree X) a ->
    differs_at X Y r a -> NoDup mus -> Forall (fun k => (k < tb_order X)%nat) mus -> length Ms = length mus ->
    (forall k, (k < length mus)%nat -> exists q, (0 < q)%nat /\ shape (nth k Ms (scalar r0)) = [q; nth (nth k mus 0%nat) (tb_shape X) 0%nat]) ->
    tb_shape Y = tb_shape X -> (forall mu, In mu mus -> target X mu <> a) -> tb_tmp X Ms (Some mus) = Some Z ->
    exists W, tb_tmp Y Ms (Some mus) = Some W /\ (forall m, node (ttree X) m -> m <> a -> core W m = core Z m) /\ core Z a = core X a /\ core W a = core Y a.
  Proof.
    intros O H2 Ha (OY & Et & Es & Ec) ND HF L HM ES HT EZ.
    assert (OrdY : tb_order Y = tb_order X) by (unfold tb_order; rewrite Et; auto).
    destruct (tb_tmp_chain Y r Ms mus OY) as (W & EW & _); auto; try (rewrite OrdY; auto); try (rewrite ES; auto).
    exists W. split; auto. unfold tb_tmp in EZ, EW. rewrite L, Nat.eqb_refl in EZ, EW.
    destruct (ofold _ mus (cores X)) as [k|] eqn:EK in EZ; [|discriminate]. destruct (ofold _ mus (cores Y)) as [k'|] eqn:EK' in EW; [|discriminate].
    cbn [bind] in EZ, EW. 
    assert (NA : forall m, node (ttree X) m -> active Y m = active X m) by (intros m Hm; apply active_shape_eq; destruct (Nat.eq_dec m a) as [->|NE]; auto; rewrite Ec by auto; auto).
    assert (HN : forall mu, In mu mus -> node (ttree X) (nth mu (d2i (ttree X)) 0%nat)).
    { intros mu Hmu. apply (leaf_node _ r (proj1 O)). apply d2i_leaf. rewrite Forall_forall in HF. apply HF. auto. }
    assert (TN : forall mu, In mu mus -> node (ttree X) (target X mu)).
    { intros mu Hmu. unfold target. destruct (active X _); auto. rewrite Forall_forall in HF. pose proof (HF mu Hmu) as Hl.
      assert (E : edge (ttree X) (parent (ttree X) (nth mu (d2i (ttree X)) 0%nat)) (nth mu (d2i (ttree X)) 0%nat)); [|apply E]. apply (parent_is_edge _ r (proj1 (proj1 O))); auto.
      intros Er. pose proof (d2i_leaf (ttree X) mu Hl) as L1. rewrite Er, (root_not_leaf X r O H2) in L1. discriminate. }
    destruct (dim_fold_agree X Y a (fun mu A d => ft_tensor_matrix_product A [nth (index_of mu mus) Ms (scalar r0)] (Some [d])) mus Et) with (l := cores X) (l' := cores Y) (k := k) (k' := k') as (I1 & I2 & I3); auto.
    - intros m Hm NE. symmetry. apply Ec; auto.
    - rewrite (ok_cores_length X r O), (ok_cores_length Y r OY), Et. auto.
    - unfold tb_make in EZ, EW. destruct (forallb (activec k) _) in EZ; [|discriminate]. destruct (forallb (activec k') _) in EW; [|discriminate].
      inversion EZ; inversion EW; subst. split; [|split; auto]. intros m Hm NE. symmetry. apply I1; auto.
  Qed.
End FuncGradP1.
