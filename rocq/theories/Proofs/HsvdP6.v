(** Truncator.hsvd: the effect of the previous calls. *)
From Coq Require Import List Arith Lia Bool Reals Lra Permutation.
From Verif.Base Require Import ListAux CRing Index RealAux.
From Verif.Model Require Import Sorting Numpy FullTensor Diagonal Canonical DimensionTree TreeBased Truncator HSVD.
From Verif.Spec Require Import TensorSpec TreeSpec TreeTensorSpec TruncatorSpec.
From Verif.Proofs Require Import NumpyP FullTensorP FullTensorP4 DimTreeP DimTreeP2 TreeTensorP TreeTensorP2 TreeTensorP3 TreeTensorP4 TreeTensorP14 DiagonalP TruncatorP TruncatorP2 TruncatorP3 TruncatorP4 PolyP5 HsvdP HsvdP2 HsvdP3 HsvdP4 HsvdP5.
Import ListNotations.
Local Open Scope R_scope.

Section Hist.
  Variable svd : nd R -> nd R * list R * nd R.
  Hypothesis SVD : svd_contract svd.
  Let A := ND [2;2]%nat (fun is => if (nth 0 is 0 =? nth 1 is 0)%nat then 1 else 0).
  Let t := Trunc 0 [Some 1; Some 1; None]%nat Hard None.
  Let tr := dt_trivial 2.
  Lemma tr_V : dim_tree tr 1.
  Proof. apply dt_trivial_ok. lia. Qed.
  Lemma hsvd_twice : exists X1 t1 F1 X2 t2 F2, hsvd svd t A tr None = Some (X1, t1) /\ tb_full X1 = Some F1 /\
    hsvd svd t1 A tr None = Some (X2, t2) /\ tb_full X2 = Some F2 /\ shape F1 = [2;2]%nat /\ shape F2 = [2;2]%nat /\ exists is, valid [2;2]%nat is /\ get F1 is <> get F2 is.
  Proof.
    destruct (hsvd_main svd SVD t A tr 1 None (repeat true 3) [Some 1; Some 1; None]%nat tr_V) as (X1 & t1 & F1 & H1 & H2 & H3 & H4 & H5 & H6' & H6 & _); auto; try (cbn; lia).
    - cbn. repeat constructor.
    - intros n Hn _. unfold node in Hn. cbn in Hn. destruct n as [|[|[|[|n]]]]; try lia; reflexivity.
    - repeat constructor; discriminate.
    - assert (Et : t1 = Trunc 0 [None] Hard None).
      { unfold hsvd in H1. cbv zeta in H1. change (hsvd_nodes tr) with [2;3]%nat in H1. destruct (ofold _ _ _) as [st|] eqn:E; cbn [bind] in H1; [|discriminate].
        destruct (omap _ _) as [rep|]; cbn [bind] in H1; [|discriminate]. destruct (ft_transpose _ _) as [C|]; cbn [bind] in H1; [|discriminate].
        destruct (tb_make _ _) as [X'|]; cbn [bind] in H1; [|discriminate]. inversion H1. clear H1. cbn [ofold] in E.
        destruct (hsvd_step _ _ _ _ _ _ _ 2) as [s1|] eqn:E1; [|discriminate]. destruct (hsvd_step _ _ _ _ _ _ s1 3) as [s2|] eqn:E2; [|discriminate].
        apply step_t in E1, E2. inversion E. subst s2. rewrite E2, E1. reflexivity. }
      destruct (hsvd_main svd SVD t1 A tr 1 None (repeat true 3) (repeat None 3) tr_V) as (X2 & t2 & F2 & G1 & G2 & G3 & G4 & G5 & _ & _ & _ & G6); auto; try (cbn; lia).
      + cbn. repeat constructor.
      + intros n Hn _. unfold node in Hn. cbn in Hn. destruct n as [|[|[|[|n]]]]; try lia; reflexivity.
      + rewrite Et. auto.
      + rewrite Et. auto.
      + repeat constructor; discriminate.
      + rewrite Et in G6. specialize (G6 (fun n _ _ => nth_repeat None 3 (n - 1)%nat)). specialize (G6 (Rle_refl 0)).
        exists X1, t1, F1, X2, t2, F2. split; auto. split; auto. split; auto. split; auto. split; auto. split; auto.
        destruct (tb_full_ok X1 1 H3) as (F & HF & HsF & HgF); [unfold tb_order; rewrite H2; cbn; lia|]. assert (F = F1) by congruence. subst F.
        assert (HS : shape A = [2;2]%nat) by reflexivity. rewrite HS in *. rewrite <- HsF, H5 in HgF.
        assert (Hn1 : forall n, node (ttree X1) n <-> (1 <= n <= 3)%nat) by (intros n; rewrite H2; unfold node; cbn; tauto).
        assert (Ha : forall n, node tr n -> n <> 1%nat -> active X1 n = true).
        { intros n Hn NE. rewrite H6' by auto. unfold node in Hn. cbn in Hn. destruct n as [|[|[|[|n]]]]; try lia; reflexivity. }
        assert (N2 : node tr 2) by (unfold node; cbn; lia). assert (N3 : node tr 3) by (unfold node; cbn; lia).
        assert (Hk : (nth 0 (heads X1 1) 0 <= 1)%nat).
        { destruct H3 as (_ & _ & _ & K). destruct (K 1%nat) as (_ & _ & K3); [apply Hn1; lia|]. specialize (K3 2%nat). rewrite H2 in K3. change (index_of 2 (children tr 1)) with 0%nat in K3.
          specialize (K3 ltac:(unfold edge, node; cbn; repeat split; lia) (Ha 2%nat N2 ltac:(lia))).
          destruct (H6 2%nat N2 ltac:(lia) (Ha 2%nat N2 ltac:(lia))) as [_ K4]. cbn [Nat.sub nth] in K4.
          unfold heads. rewrite H2. change (arity_at tr 1) with 2%nat. rewrite nth_firstn_lt by lia. lia. }
        assert (L2 : length (heads X1 1) = 2%nat).
        { destruct H3 as (_ & _ & K1 & K). destruct (K 1%nat) as (_ & K2 & _); [apply Hn1; lia|]. specialize (K2 K1). unfold heads. rewrite firstn_length. rewrite H2 in *. change (arity_at tr 1) with 2%nat in *. unfold ndim in K2. lia. }
        destruct (heads X1 1) as [|k1 [|k2 [|? ?]]] eqn:EH; cbn in L2; try lia. cbn [nth] in Hk.
        assert (Et2 : tb_order X1 = 2%nat) by (unfold tb_order; rewrite H2; reflexivity).
        assert (V1 : dim_tree (ttree X1) 1) by (rewrite H2; apply tr_V).
        assert (HV : exists (u g : nat -> R), forall i j, (i < 2)%nat -> (j < 2)%nat -> get F1 [i; j] = u i * g j).
        { exists (fun i => match k1 with 0%nat => 0 | _ => get (core X1 2) [i; 0%nat] end).
          exists (fun j => rsum k2 (fun b => get (core X1 1) [0; b]%nat * get (core X1 3) [j; b])). intros i j Hi Hj.
          rewrite HgF by (constructor; [exact Hi|constructor; [exact Hj|constructor]]). rewrite Et2. cbn [firstn skipn].
          rewrite (tval_internal X1 1 V1 1) by (rewrite H2; first [reflexivity|unfold node; cbn; lia]). rewrite EH. cbn [bsum].
          assert (E : forall a, rsum k2 (fun b => get (core X1 1) ([a; b] ++ []) * lprod (combine (children (ttree X1) 1) [a; b]) (fun p => tval X1 (fst p) [i; j] [snd p])) = get (core X1 2) [i; a] * rsum k2 (fun b => get (core X1 1) [a; b] * get (core X1 3) [j; b])).
          { intros a. rewrite <- rsum_scal_l_R. apply rsum_ext_R. intros b Hb. rewrite H2. change (children tr 1) with [2;3]%nat. cbn [combine lprod fst snd app].
            rewrite !(tval_leaf X1 1 V1) by (rewrite ?H2; first [reflexivity|apply Ha; auto]). rewrite H2. change (index_of 2 (d2i tr)) with 0%nat. change (index_of 3 (d2i tr)) with 1%nat. cbn [nth]. rcbn. ring. }
          destruct k1 as [|[|k1]]; [cbn [rsum]; rcbn; ring| |lia].
          change (rsum 1 ?f) with (f 0%nat + 0) || cbn [rsum]. rewrite E. rcbn. ring. }
        destruct HV as (u & g & HV).
        assert (V00 : valid [2;2]%nat [0;0]%nat) by (repeat constructor). assert (V01 : valid [2;2]%nat [0;1]%nat) by (repeat constructor).
        assert (V10 : valid [2;2]%nat [1;0]%nat) by (repeat constructor). assert (V11 : valid [2;2]%nat [1;1]%nat) by (repeat constructor).
        destruct (Req_dec (get F1 [0;0]%nat) (get F2 [0;0]%nat)) as [Q1|]; [|eauto].
        destruct (Req_dec (get F1 [0;1]%nat) (get F2 [0;1]%nat)) as [Q2|]; [|eauto].
        destruct (Req_dec (get F1 [1;0]%nat) (get F2 [1;0]%nat)) as [Q3|]; [|eauto].
        destruct (Req_dec (get F1 [1;1]%nat) (get F2 [1;1]%nat)) as [Q4|]; [|eauto].
        exfalso. rewrite HV, G6 in Q1, Q2, Q3, Q4 by (auto; lia). cbn in Q1, Q2, Q3, Q4. nra.
  Qed.
End Hist.
