(** orth_at_node: the tensor seen from a node. *)
From Coq Require Import List Arith Lia Bool Reals Lra Permutation.
From Verif.Base Require Import ListAux CRing Index RealAux LinAlg.
From Verif.Model Require Import Sorting Numpy FullTensor Diagonal Canonical DimensionTree TreeBased Truncator HSVD HsvdTree OrthNode.
From Verif.Spec Require Import TensorSpec TreeSpec TreeTensorSpec TruncatorSpec GramSpec LearningSpec FunctionalSpec OrthNodeSpec.
From Verif.Proofs Require Import NumpyP FullTensorP FullTensorP4 DimTreeP DimTreeP2 TreeTensorP TreeTensorP2 TreeTensorP3 TreeTensorP4 TreeTensorP6 TreeTensorP7 TreeTensorP12 TreeTensorP13 TreeTensorP14 TreeTensorP15 TreeTensorP29 PolyP5 HsvdP2 HsvdTreeP1 HsvdTreeP2 HsvdTreeP3 HsvdTreeP4 HsvdTreeP5 HsvdTreeP9 HsvdTreeP10 OrthNodeP1.
Import ListNotations.
Local Open Scope R_scope.

(** G = W W^T = L L^T and S L = I: the rows of S W are orthonormal and L S W = W *)
Section Fac.
  Variables (ns : list nat) (K a : nat) (W : nat -> list nat -> R) (L : nat -> nat -> R) (Si : nat -> nat -> R).
  Hypothesis HW : forall k l, (k < K)%nat -> (l < K)%nat -> bsum ns (fun y => W k y * W l y) = rsum a (fun c => L k c * L l c).
  Hypothesis HI : forall c d, (c < a)%nat -> (d < a)%nat -> rsum K (fun k => Si c k * L k d) = if (c =? d)%nat then 1 else 0.
  Definition fw (c : nat) (y : list nat) : R := rsum K (fun k => Si c k * W k y).
  Lemma fw_cross k c : (k < K)%nat -> (c < a)%nat -> bsum ns (fun y => W k y * fw c y) = L k c.
  Proof.
    intros Hk Hc. unfold fw. rewrite (bsum_ext_R _ _ (fun y => rsum K (fun l => Si c l * (W k y * W l y)))).
    - rewrite bsum_rsum_exchange_R. rewrite (rsum_ext_R _ _ (fun l => rsum a (fun d => L k d * (Si c l * L l d)))).
      + rewrite rsum_swap_R. rewrite (rsum_ext_R _ _ (fun d => if (d =? c)%nat then L k d else 0)); [apply rsum_delta_R; auto|].
        intros d Hd. rewrite rsum_scal_l_R, HI by auto. rewrite Nat.eqb_sym. destruct (d =? c)%nat; ring.
      + intros l Hl. rewrite bsum_scal_l_R, HW by auto. rewrite <- rsum_scal_l_R. apply rsum_ext_R. intros. ring.
    - intros y _. rewrite <- rsum_scal_l_R. apply rsum_ext_R. intros. ring.
  Qed.
  Lemma fw_orth c d : (c < a)%nat -> (d < a)%nat -> bsum ns (fun y => fw c y * fw d y) = if (c =? d)%nat then 1 else 0.
  Proof.
    intros Hc Hd. rewrite <- HI by auto. rewrite (bsum_ext_R _ _ (fun y => rsum K (fun k => Si c k * (W k y * fw d y)))).
    - rewrite bsum_rsum_exchange_R. apply rsum_ext_R. intros k Hk. rewrite bsum_scal_l_R, fw_cross by auto. auto.
    - intros y _. unfold fw at 1. rewrite <- rsum_scal_r_R. apply rsum_ext_R. intros. ring.
  Qed.
  Lemma fw_back k y : (k < K)%nat -> valid ns y -> rsum a (fun c => L k c * fw c y) = W k y.
  Proof.
    intros Hk Hy. set (D := fun y => W k y - rsum a (fun c => L k c * fw c y)).
    assert (E : bsum ns (fun y => D y * D y) = 0).
    { rewrite (bsum_ext_R _ _ (fun y => W k y * W k y + (-2) * rsum a (fun c => L k c * (W k y * fw c y)) + rsum a (fun c => L k c * rsum a (fun d => L k d * (fw c y * fw d y))))).
      - rewrite !bsum_plus_R, bsum_scal_l_R, !bsum_rsum_exchange_R. rewrite HW by auto.
        rewrite (rsum_ext_R a (fun c => bsum ns (fun y => L k c * (W k y * fw c y))) (fun c => L k c * L k c)).
        + rewrite (rsum_ext_R a (fun c => bsum ns (fun y => L k c * rsum a (fun d => L k d * (fw c y * fw d y)))) (fun c => L k c * L k c)); [ring|].
          intros c Hc. rewrite bsum_scal_l_R, bsum_rsum_exchange_R. f_equal. rewrite (rsum_ext_R _ _ (fun d => if (d =? c)%nat then L k d else 0)); [apply rsum_delta_R; auto|].
          intros d Hd. rewrite bsum_scal_l_R, fw_orth by auto. rewrite Nat.eqb_sym. destruct (d =? c)%nat; ring.
        + intros c Hc. rewrite bsum_scal_l_R, fw_cross by auto. auto.
      - intros z _. unfold D. replace (rsum a (fun c => L k c * (W k z * fw c z))) with (W k z * rsum a (fun c => L k c * fw c z)) by (rewrite <- rsum_scal_l_R; apply rsum_ext_R; intros; ring).
        replace (rsum a (fun c => L k c * rsum a (fun d => L k d * (fw c z * fw d z)))) with (rsum a (fun c => L k c * fw c z) * rsum a (fun c => L k c * fw c z)); [ring|].
        rewrite <- rsum_scal_r_R. apply rsum_ext_R. intros c _. rewrite <- rsum_scal_l_R. rewrite <- rsum_scal_l_R. apply rsum_ext_R. intros. ring. }
    pose proof (HsvdP5.bsum_zero_iff_R ns (fun y => D y * D y) (fun y _ => Rle_0_sqr (D y)) E y Hy) as E0. clear E. rename E0 into E. cbv beta in E. apply Rmult_integral in E. assert (E' : D y = 0) by tauto. unfold D in E'. lra.
  Qed.
End Fac.

(** the other factor as a function of the other indices *)
Section Pos.
  Variables (X : tbt R) (r : nat).
  Hypothesis O : tb_ok X r.
  Hypothesis H2 : (2 <= tb_order X)%nat.
  Local Notation t := (ttree X).
  Variables (A : nd R) (n : nat) (W : list nat -> list nat -> list nat -> R).
  Hypothesis HA : tb_full X = Some A.
  Hypothesis Hn : node t n.
  Hypothesis FW : fact X r n W.
  Let c0 := length (co X n).
  Definition cod := filter (fun d => negb (existsb (Nat.eqb d) (dims t n))) (seq 0 (ndim A)).
  Definition WW (k : nat) (y : list nat) : R := W [k] (put (co X n) (firstn c0 y) (zN X)) (skipn c0 y).
  Let LS : length (tb_shape X) = tb_order X.
  Proof. apply tb_shape_length. Qed.
  Let SA : shape A = tb_shape X ++ exts X r.
  Proof. apply (full_inv X r A O H2 HA). Qed.
  Let HC : Forall (fun d => (d < tb_order X)%nat) (co X n).
  Proof. apply Forall_forall. intros d Hd. apply (in_co X n d Hn) in Hd. tauto. Qed.
  Let NDC : NoDup (co X n).
  Proof. apply NoDup_filter, seq_NoDup. Qed.
  Let EC : cod = co X n ++ seq (tb_order X) (length (exts X r)).
  Proof.
    unfold cod, ndim. rewrite SA, app_length, LS, seq_app, filter_app. f_equal. cbn [plus]. apply filter_true. intros d Hd. apply in_seq in Hd. apply negb_true_iff. apply (proj2 (inb_false d (dims t n))). intros Q.
    pose proof (proj1 (Forall_forall _ _) (dims_N X r O n Hn) d Q). cbv beta in *. lia.
  Qed.
  Let ES : sel 0%nat (shape A) cod = map (sz X) (co X n) ++ exts X r.
  Proof.
    rewrite EC. unfold sel. rewrite map_app. f_equal.
    - apply map_ext_in. intros d Hd. pose proof (proj1 (Forall_forall _ _) HC d Hd). cbv beta in *. rewrite SA, app_nth1 by lia. auto.
    - rewrite SA, <- LS. apply nth_ext' with (d := 0%nat); [rewrite map_length, seq_length; auto|]. rewrite map_length, seq_length. intros q Hq.
      rewrite map_nth_in with (da := 0%nat) by (rewrite seq_length; auto). rewrite seq_nth by auto. rewrite app_nth2 by lia. f_equal. lia.
  Qed.
  Lemma pos_gm c d : gm X r n W [c] [d] = bsum (sel 0%nat (shape A) cod) (fun y => WW c y * WW d y).
  Proof.
    assert (Lm : length (map (sz X) (co X n)) = c0) by (apply map_length).
    unfold gm, nu. rewrite ES, bsum_app, bsum_exchange. apply bsum_ext_R. intros e He. rewrite part_put by auto. apply bsum_ext_R. intros x Hx.
    assert (L2 : length x = c0) by (rewrite (valid_length _ _ Hx); auto). unfold WW.
    rewrite firstn_app, skipn_app, L2, Nat.sub_diag, firstn_O, app_nil_r, skipn_O, (firstn_all2 (n := c0)), (skipn_all2 (n := c0)) by lia. reflexivity.
  Qed.
  Lemma pos_W k i1 e : valid (tb_shape X) i1 -> valid (exts X r) e -> W [k] i1 e = WW k (sel 0%nat (i1 ++ e) cod).
  Proof.
    intros Hi1 He. assert (L1 : length i1 = tb_order X) by (rewrite <- LS; apply (valid_length _ _ Hi1)).
    assert (EQ : sel 0%nat (i1 ++ e) cod = sel 0%nat i1 (co X n) ++ e).
    { rewrite EC. unfold sel. rewrite map_app. f_equal.
      - apply map_ext_in. intros d Hd. pose proof (proj1 (Forall_forall _ _) HC d Hd). cbv beta in *. apply app_nth1. lia.
      - rewrite <- (valid_length _ _ He), <- L1. apply nth_ext' with (d := 0%nat); [rewrite map_length, seq_length; auto|]. rewrite map_length, seq_length. intros q Hq.
        rewrite map_nth_in with (da := 0%nat) by (rewrite seq_length; auto). rewrite seq_nth by auto. rewrite app_nth2 by lia. f_equal. lia. }
    rewrite EQ. assert (L2 : length (sel 0%nat i1 (co X n)) = c0) by apply sel_length. unfold WW.
    rewrite firstn_app, skipn_app, L2, Nat.sub_diag, firstn_O, app_nil_r, skipn_O, (firstn_all2 (n := c0)), (skipn_all2 (n := c0)) by lia. cbn [app].
    apply FW. intros d Hd. pose proof (proj1 (Forall_forall _ _) HC d Hd). cbv beta in *.
    rewrite put_nth_idx; auto; [|unfold zN; rewrite repeat_length; auto]. destruct (index_of_nth _ _ Hd) as [K1 K2]. rewrite sel_nth by auto. rewrite K2. auto.
  Qed.
  Lemma pos_valid i1 e : valid (tb_shape X) i1 -> valid (exts X r) e -> valid (sel 0%nat (shape A) cod) (sel 0%nat (i1 ++ e) cod).
  Proof.
    intros Hi He. apply sel_valid; [rewrite SA; apply valid_app; auto|]. apply Forall_forall. intros d Hd. apply filter_In in Hd. destruct Hd as [Hd _]. apply in_seq in Hd. unfold ndim in Hd. lia.
  Qed.
End Pos.

(** the value of a node whose core is multiplied by a matrix along its last axis *)
Section NodeVal.
  Variables (A B : tbt R) (r n K a : nat) (M : nat -> nat -> R) (hd : list nat).
  Hypothesis V : dim_tree (ttree A) r.
  Hypothesis HT : ttree B = ttree A.
  Hypothesis Hn : node (ttree A) n.
  Hypothesis AA : active A n = true.
  Hypothesis AB : active B n = true.
  Hypothesis LH : length hd = arity_at (ttree A) n.
  Hypothesis SA : shape (core A n) = hd ++ [K].
  Hypothesis SB : shape (core B n) = hd ++ [a].
  Hypothesis HM : forall ks c, valid hd ks -> (c < a)%nat -> get (core B n) (ks ++ [c]) = rsum K (fun l => M l c * get (core A n) (ks ++ [l])).
  Hypothesis HB : forall m, node (ttree A) m -> below (ttree A) n m -> m <> n -> core B m = core A m.
  Lemma node_val is c : (forall mu, is_leaf (ttree A) n = true -> mu = index_of n (d2i (ttree A)) -> (nth mu is 0 < nth 0 hd 0)%nat) -> (c < a)%nat ->
    tval B n is [c] = rsum K (fun l => M l c * tval A n is [l]).
  Proof.
    intros Hi Hc. assert (VB : dim_tree (ttree B) r) by (rewrite HT; auto). pose proof (proj1 V) as T. destruct (is_leaf (ttree A) n) eqn:Hl.
    - rewrite (tval_leaf B r VB n) by (rewrite ?HT; auto). rewrite HT.
      assert (L1 : length hd = 1%nat) by (rewrite LH; unfold arity_at; rewrite Hl; auto). destruct hd as [|h [|]]; try discriminate.
      assert (Q : (nth (index_of n (d2i (ttree A))) is 0 < h)%nat) by (apply (Hi _ eq_refl eq_refl)).
      assert (Q2 : valid [h] [nth (index_of n (d2i (ttree A))) is 0%nat]) by (apply Forall2_cons; [exact Q|apply Forall2_nil]).
      etransitivity; [exact (HM _ c Q2 Hc)|].
      apply rsum_ext_R. intros l _. rewrite (tval_leaf A r V n) by auto. reflexivity.
    - assert (EA : heads A n = hd) by (unfold heads; rewrite SA, <- LH, firstn_app, firstn_all, Nat.sub_diag; apply app_nil_r).
      assert (EB : heads B n = hd) by (unfold heads; rewrite SB, HT, <- LH, firstn_app, firstn_all, Nat.sub_diag; apply app_nil_r).
      rewrite (tval_internal B r VB n) by (rewrite ?HT; auto). rewrite EB, HT.
      transitivity (bsum hd (fun ks => rsum K (fun l => M l c * (get (core A n) (ks ++ [l]) * lprod (combine (children (ttree A) n) ks) (fun q => tval A (fst q) is [snd q]))))).
      + apply bsum_ext_R. intros ks Hks. rewrite HM by auto.
        replace (lprod (combine (children (ttree A) n) ks) (fun q => tval B (fst q) is [snd q])) with (lprod (combine (children (ttree A) n) ks) (fun q => tval A (fst q) is [snd q])).
        * rcbn. rewrite <- rsum_scal_r_R. apply rsum_ext_R. intros l _. ring.
        * apply lprod_ext. intros [x y] Hx. apply in_combine_l in Hx. apply in_children in Hx; auto. cbn [fst snd]. symmetry.
          apply (tval_same_below A B r x V HT); [apply Hx|]. intros m Hm Hb. apply HB; auto.
          -- apply below_step. right. exists x. auto.
          -- intros ->. destruct Hb as [d Hd]. pose proof (level_below _ r T x n d (proj1 (proj2 Hx)) Hd) as HL1. rewrite (level_edge _ r T _ _ Hx) in HL1. lia.
      + rewrite bsum_rsum_exchange_R. apply rsum_ext_R. intros l _. rewrite bsum_scal_l_R. f_equal. rewrite (tval_internal A r V n) by auto. rewrite EA. reflexivity.
  Qed.
End NodeVal.
