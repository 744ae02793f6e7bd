(** hsvd of a tree-based tensor: the whole function. *)
From Coq Require Import List Arith Lia Bool Reals Lra Permutation.
From Verif.Base Require Import ListAux CRing Index RealAux.
From Verif.Model Require Import Sorting Numpy FullTensor Diagonal Canonical DimensionTree TreeBased Truncator HSVD HsvdTree.
From Verif.Spec Require Import TensorSpec TreeSpec TreeTensorSpec TruncatorSpec.
From Verif.Proofs Require Import NumpyP FullTensorP FullTensorP3 FullTensorP4 DiagonalP DimTreeP DimTreeP2 TreeTensorP TreeTensorP2 TreeTensorP3 TreeTensorP4 TreeTensorP6 TreeTensorP7 TreeTensorP12 TreeTensorP13 TreeTensorP14 TreeTensorP15 TreeTensorP29 PolyP5 SpectralP LapackP EckartP FunctionalP4 MeasuresP TruncatorP TruncatorP2 TruncatorP3 TruncatorP4 TruncatorP5 HsvdP2 HsvdP3 HsvdP5 HsvdP7 HsvdP9 HsvdTreeP1 HsvdTreeP2 HsvdTreeP3 HsvdTreeP4 HsvdTreeP5 HsvdTreeP6 HsvdTreeP7.
Import ListNotations.
Local Open Scope R_scope.

(** gramians without argument, of an orthonormal tensor *)
Lemma gramians_all qr (Z : tbt R) r : tb_ok Z r -> (2 <= tb_order Z)%nat -> (forall n, node (ttree Z) n -> active Z n = true -> n <> r -> orth_cols (core Z n)) ->
  exists g, tb_gramians qr true Z None = Some (g, Z) /\ length g = nbn (ttree Z) /\ nth (r - 1) g None = Some one11 /\
    (forall m, node (ttree Z) m -> m <> r -> active Z m = true -> exists G, nth (m - 1) g None = Some G /\ good Z r m G) /\
    (forall m, node (ttree Z) m -> m <> r -> active Z m = false -> nth (m - 1) g None = None).
Proof.
  intros O H2 HO. pose proof (proj1 (proj1 O)) as T. assert (HI : forall m, In m (filter (active Z) (nodes (ttree Z))) <-> node (ttree Z) m /\ active Z m = true).
  { intros m. rewrite filter_In, in_nodes. tauto. }
  destruct (gram_loop Z r O H2 HO (filter (active Z) (nodes (ttree Z))) (max_level (ttree Z))) as (g & E1 & E2 & E3 & E4 & E5).
  - intros m Hm. apply HI. auto.
  - intros m Hm NE. apply HI in Hm. destruct Hm as [Hm Ha]. apply HI. pose proof (parent_is_edge _ r T m Hm NE) as He. split; [apply He|]. apply (ok_internal Z r O); [apply He|]. apply (int_of_edge Z r O _ m He).
  - intros m Hm. apply HI in Hm. apply (level_le_max (ttree Z) r T). tauto.
  - exists g. split; [|split; [auto|split; [auto|split]]].
    + unfold tb_gramians. cbn [bind]. unfold one11 in E1. rewrite E1. reflexivity.
    + intros m Hm NE Ha. apply E4; auto. apply HI. auto.
    + intros m Hm NE Ha. apply E5; auto. intros Hi. apply HI in Hi. destruct Hi as [_ Hi]. congruence.
Qed.
Lemma err2_tdist (X Y : tbt R) r A F : tb_ok X r -> tb_ok Y r -> (2 <= tb_order X)%nat -> ttree Y = ttree X -> tb_shape Y = tb_shape X -> exts Y r = exts X r ->
  tb_full X = Some A -> tb_full Y = Some F -> err2 A (get F) = tdist X r (tval X r) (tval Y r).
Proof.
  intros OX OY H2 TY SY EY HA HF. destruct (full_inv X r A OX H2 HA) as [SA VA]. assert (H2Y : (2 <= tb_order Y)%nat) by (unfold tb_order; rewrite TY; exact H2).
  destruct (full_inv Y r F OY H2Y HF) as [SF VF]. unfold err2, tdist. rewrite SA, bsum_app, bsum_exchange. apply bsum_ext_R. intros e He. apply bsum_ext_R. intros is Hi.
  rewrite VA, VF by congruence. auto.
Qed.
Lemma frob2_tdist (X : tbt R) r A : tb_ok X r -> (2 <= tb_order X)%nat -> tb_full X = Some A -> frob2 A = tdist X r (tval X r) (fun _ _ => 0).
Proof.
  intros OX H2 HA. destruct (full_inv X r A OX H2 HA) as [SA VA]. unfold frob2, tdist. rewrite SA, bsum_app, bsum_exchange. apply bsum_ext_R. intros e He. apply bsum_ext_R. intros is Hi.
  rewrite VA by auto. ring.
Qed.
Lemma ofold_ext_in {A B} (f h : B -> A -> option B) l : (forall x c, In x l -> f c x = h c x) -> forall c, ofold f l c = ofold h l c.
Proof. induction l as [|x l IH]; intros H c; cbn [ofold]; auto. rewrite H by (simpl; auto). destruct (h c x); auto. apply IH. intros; apply H; simpl; auto. Qed.
Lemma lsum_le_const (l : list nat) f c : (forall x, In x l -> f x <= c) -> lsum l f <= INR (length l) * c.
Proof.
  induction l as [|a l IH]; intros H; [cbn; lra|]. change (lsum (a :: l) f) with (f a + lsum l f). cbn [length]. rewrite S_INR. specialize (IH (fun x Hx => H x (or_intror Hx))). specialize (H a (or_introl eq_refl)). lra.
Qed.

