(** Tree-based tensors: splitting the value at one child; changing one axis of one core. *)
From Coq Require Import List Arith Lia Bool ZArith Ring Permutation.
From Verif.Base Require Import ListAux CRing Index.
From Verif.Model Require Import Sorting Numpy FullTensor DimensionTree TreeBased.
From Verif.Spec Require Import TensorSpec TreeSpec TreeTensorSpec.
From Verif.Proofs Require Import NumpyP FullTensorP FullTensorP2 FullTensorP3 FullTensorP4 DimTreeP DimTreeP2 TreeTensorP TreeTensorP2.
Import ListNotations.

Section Split.
  Context {R : Type} {CR : CRing R}.
  Add Ring Rrs : rth.
  Local Open Scope cr_scope.

  Lemma nthc_setc (l : list (nd R)) n m A : (1 <= n <= length l)%nat -> (1 <= m)%nat -> nthc (setc n A l) m = if m =? n then A else nthc l m.
  Proof.
    intros Hn Hm. unfold nthc, setc. rewrite nth_upd. destruct (Nat.eqb_spec m n) as [->|].
    - rewrite Nat.eqb_refl. destruct (Nat.ltb_spec (n - 1) (length l)); [auto|lia].
    - destruct (Nat.eqb_spec (m - 1) (n - 1)); [lia|auto].
  Qed.
  Lemma setc_length (l : list (nd R)) n A : length (setc n A l) = length l.
  Proof. apply upd_length. Qed.
  Lemma active_prod (X : tbt R) n : active X n = true <-> prodn (shape (core X n)) <> 0%nat.
  Proof. unfold active, activec, ft_storage, np_size. rewrite negb_true_iff, Nat.eqb_neq. tauto. Qed.
  Lemma active_shape_eq (X Y : tbt R) n m : shape (core X n) = shape (core Y m) -> active X n = active Y m.
  Proof. intros H. unfold active, activec, ft_storage, np_size. unfold core in H. rewrite H. auto. Qed.
  Lemma below_refl (t : dtree) n : below t n n.
  Proof. exists 0%nat. constructor. Qed.

  (** the value at n only depends on the cores below n *)
  Lemma tval_same_below (X Z : tbt R) r n : dim_tree (ttree X) r -> ttree Z = ttree X -> node (ttree X) n ->
    (forall m, node (ttree X) m -> below (ttree X) n m -> core Z m = core X m) ->
    forall is e, tval Z n is e = tval X n is e.
  Proof.
    intros V E Hn. revert n Hn. apply (tree_up_ind (ttree X) r (proj1 V) (fun n =>
      (forall m, node (ttree X) m -> below (ttree X) n m -> core Z m = core X m) -> forall is e, tval Z n is e = tval X n is e)).
    intros n Hn IH Hc is e. pose proof (Hc n Hn (below_refl _ _)) as Hcn.
    assert (Ea : active Z n = active X n) by (apply active_shape_eq; rewrite Hcn; auto).
    assert (VZ : dim_tree (ttree Z) r) by (rewrite E; auto).
    destruct (is_leaf (ttree X) n) eqn:Hl.
    - destruct (active X n) eqn:Ha.
      + rewrite (tval_leaf X r V n) by auto. rewrite (tval_leaf Z r VZ n) by (rewrite ?E; auto). rewrite Hcn, E. auto.
      + rewrite (tval_inactive X r V n) by auto. rewrite (tval_inactive Z r VZ n) by (rewrite ?E; auto). rewrite E. auto.
    - rewrite (tval_internal X r V n) by auto. rewrite (tval_internal Z r VZ n) by (rewrite ?E; auto).
      unfold heads. rewrite Hcn, E. apply bsum_ext. intros ks Hks. f_equal. apply lprod_ext. intros [c k] Hi.
      apply in_combine_l in Hi. apply in_children in Hi; auto. cbn [fst snd]. apply IH; auto.
      intros m Hm Hb. apply Hc; auto. destruct Hb as [d Hd]. exists (S d).
      clear - Hd Hi. induction Hd as [|p c' k Hd IH He]; [apply depth_child with (p := n); [constructor|auto]|].
      apply depth_child with (p := p); auto.
  Qed.

  Section Child.
    Variables (X : tbt R) (r : nat).
    Hypothesis O : tb_ok X r.
    Let t := ttree X.
    Let V : dim_tree t r := proj1 O.
    Let T : rooted_tree t r := proj1 V.

    (** the factor of the child c in the value of n *)
    Definition ctx (n : nat) (cs1 cs2 is e : list nat) (k : nat) : R :=
      bsum (map (csize X) cs1) (fun ks1 => bsum (map (csize X) cs2) (fun ks2 =>
        get (core X n) (ks1 ++ k :: ks2 ++ e) *
        (lprod (combine cs1 ks1) (fun p => tval X (fst p) is [snd p]) * lprod (combine cs2 ks2) (fun p => tval X (fst p) is [snd p])))).
    Lemma tval_split n c cs1 cs2 is e : node t n -> is_leaf t n = false -> children t n = cs1 ++ c :: cs2 ->
      tval X n is e = rsum (csize X c) (fun k => tval X c is [k] * ctx n cs1 cs2 is e k).
    Proof.
      intros Hn Hl Hch. rewrite (tval_internal X r V n is e Hn Hl), (heads_internal X r O n Hn Hl). fold t. rewrite Hch.
      rewrite map_app. cbn [map]. rewrite bsum_app.
      unfold ctx. etransitivity; [|symmetry; apply rsum_ext; intros k Hk; rewrite <- bsum_scal_l; reflexivity].
      rewrite <- bsum_rsum_exchange. apply bsum_ext. intros ks1 Hk1. cbn [bsum]. apply rsum_ext. intros k Hk.
      rewrite <- bsum_scal_l. apply bsum_ext. intros ks2 Hk2.
      assert (L1 : length cs1 = length ks1) by (apply Forall2_length' in Hk1; rewrite map_length in Hk1; lia).
      rewrite combine_app by auto. rewrite lprod_app. cbn [combine lprod fst snd]. rewrite <- app_assoc. cbn [app]. ring.
    Qed.
    Lemma tval_split_inactive n c cs1 cs2 is e : node t n -> is_leaf t n = false -> children t n = cs1 ++ c :: cs2 ->
      active X c = false -> (nth (index_of c (d2i t)) is 0 < csize X c)%nat ->
      tval X n is e = ctx n cs1 cs2 is e (nth (index_of c (d2i t)) is 0%nat).
    Proof.
      intros Hn Hl Hch Ha Hi. rewrite (tval_split n c cs1 cs2) by auto.
      assert (Hcn : edge t n c) by (apply in_children; auto; rewrite Hch; apply in_or_app; simpl; auto).
      assert (Hlc : is_leaf t c = true).
      { destruct (is_leaf t c) eqn:E; auto. pose proof (ok_internal X r O c (proj1 (proj2 Hcn)) E). congruence. }
      rewrite (rsum_single _ (nth (index_of c (d2i t)) is 0%nat)); auto.
      - rewrite (tval_inactive X r V c) by auto. fold t. rewrite list_eqb_refl. ring.
      - intros k Hk Hne. rewrite (tval_inactive X r V c) by auto. fold t.
        destruct (list_eqb [k] _) eqn:E; [|ring]. apply list_eqb_spec in E. congruence.
    Qed.
    Lemma ctx_local n cs1 cs2 is is' e k : node t n ->
      (forall c, In c (cs1 ++ cs2) -> In c (children t n)) ->
      (forall c mu, In c (cs1 ++ cs2) -> In mu (dims t c) -> nth mu is 0%nat = nth mu is' 0%nat) ->
      ctx n cs1 cs2 is e k = ctx n cs1 cs2 is' e k.
    Proof.
      intros Hn Hc Hd. unfold ctx. apply bsum_ext. intros ks1 _. apply bsum_ext. intros ks2 _. f_equal. f_equal; apply lprod_ext;
        intros [c x] Hi; apply in_combine_l in Hi; cbn [fst snd];
        (assert (Hi' : In c (cs1 ++ cs2)) by (apply in_or_app; auto)); apply (tval_local X r V);
        try (apply (in_children' t n), Hc; auto); intros mu Hm; apply (Hd c); auto.
    Qed.
    Lemma children_split n c : edge t n c -> exists cs1 cs2, children t n = cs1 ++ c :: cs2 /\ length cs1 = index_of c (children t n)
       /\ ~ In c cs1 /\ ~ In c cs2.
    Proof.
      intros He. assert (Hi : In c (children t n)) by (apply in_children; auto; apply He).
      destruct (index_of_nth _ _ Hi) as [H1 H2]. set (j := index_of c (children t n)) in *.
      exists (firstn j (children t n)), (skipn (S j) (children t n)).
      assert (E : children t n = firstn j (children t n) ++ c :: skipn (S j) (children t n)).
      { rewrite (list_split_nth j 0%nat (children t n)) at 1 by auto. rewrite H2. auto. }
      split; auto. split; [rewrite firstn_length; lia|].
      pose proof (NoDup_children t n) as ND. rewrite E in ND. apply NoDup_remove_2 in ND.
      split; intros H; apply ND, in_or_app; auto.
    Qed.
  End Child.
End Split.

Section Axis.
  Context {R : Type} {CR : CRing R}.
  Add Ring Rra : rth.
  Local Open Scope cr_scope.

  Definition target (X : tbt R) (mu : nat) : nat :=
    let l := nth mu (d2i (ttree X)) 0%nat in if active X l then l else parent (ttree X) l.
  Definition target_axis (X : tbt R) (mu : nat) : nat :=
    let l := nth mu (d2i (ttree X)) 0%nat in if active X l then 0%nat else (child_number (ttree X) l - 1)%nat.
  (** Z is X in which the axis of the dimension mu has been transformed by the matrix L (q rows) *)
  Definition axis_rel (X Z : tbt R) (mu q : nat) (L : nat -> nat -> R) : Prop :=
    ttree Z = ttree X /\ length (cores Z) = nbn (ttree X) /\ (0 < q)%nat /\
    (forall n, node (ttree X) n -> n <> target X mu -> core Z n = core X n) /\
    exists s1 m s2, length s1 = target_axis X mu /\
      shape (core X (target X mu)) = s1 ++ m :: s2 /\ shape (core Z (target X mu)) = s1 ++ q :: s2 /\
      forall a1 i a2, valid s1 a1 -> (i < q)%nat -> valid s2 a2 ->
        get (core Z (target X mu)) (a1 ++ i :: a2) = rsum m (fun j => L i j * get (core X (target X mu)) (a1 ++ j :: a2)).

  Variables (X Z : tbt R) (r mu q : nat) (L : nat -> nat -> R).
  Hypothesis O : tb_ok X r.
  Hypothesis Hmu : (mu < tb_order X)%nat.
  Hypothesis Hroot : is_leaf (ttree X) r = false.
  Hypothesis H : axis_rel X Z mu q L.
  Let t := ttree X.
  Let V : dim_tree t r := proj1 O.
  Let T : rooted_tree t r := proj1 V.
  Let l := nth mu (d2i t) 0%nat.
  Let tg := target X mu.

  Lemma ax_leaf : is_leaf t l = true.
  Proof. apply d2i_leaf; auto. Qed.
  Lemma ax_node : node t l.
  Proof. apply (leaf_node t r V), ax_leaf. Qed.
  Lemma ax_index : index_of l (d2i t) = mu.
  Proof. apply index_of_NoDup; auto. apply (NoDup_d2i t r V). Qed.
  Lemma ax_not_root : l <> r.
  Proof. intros E. pose proof ax_leaf as E'. rewrite E in E'. unfold t in E'. congruence. Qed.
  Lemma ax_edge : edge t (parent t l) l.
  Proof. apply (parent_is_edge t r T); [apply ax_node|apply ax_not_root]. Qed.
  Lemma ax_parent_internal : is_leaf t (parent t l) = false.
  Proof.
    destruct (is_leaf t (parent t l)) eqn:E; auto. apply (leaf_iff t r V) in E. exfalso. apply (proj2 E l), ax_edge.
  Qed.
  Lemma ax_tg_node : node t tg.
  Proof. unfold tg, target. fold t l. destruct (active X l); [apply ax_node|apply ax_edge]. Qed.
  Lemma ax_tg_active : active X tg = true.
  Proof.
    unfold tg, target. fold t l. destruct (active X l) eqn:E; auto. apply (ok_internal X r O); [apply ax_edge|apply ax_parent_internal].
  Qed.
  Lemma ax_tree : ttree Z = t.
  Proof. apply H. Qed.
  Lemma ax_VZ : dim_tree (ttree Z) r.
  Proof. rewrite ax_tree. exact V. Qed.
  Lemma ax_core n : node t n -> n <> tg -> core Z n = core X n.
  Proof. destruct H as (_ & _ & _ & Hc & _). apply Hc. Qed.
  Lemma ax_active n : node t n -> active Z n = active X n.
  Proof.
    intros Hn. destruct (Nat.eq_dec n tg) as [->|Hne]; [|apply active_shape_eq; rewrite ax_core; auto].
    rewrite ax_tg_active. apply active_prod. pose proof (proj1 (active_prod X tg) ax_tg_active) as HX.
    destruct H as (_ & _ & Hq & _ & s1 & m & s2 & _ & H1 & H2 & _). fold tg in H1, H2. rewrite H1 in HX. rewrite H2.
    rewrite prodn_app in *. simpl in *. intros E. apply HX. apply Nat.eq_mul_0 in E. destruct E as [->|E]; [lia|].
    apply Nat.eq_mul_0 in E. destruct E as [->|E]; [lia|]. rewrite E, Nat.mul_0_r, Nat.mul_0_r. auto.
  Qed.
  Lemma ax_axis_lt : (target_axis X mu < arity_at t tg)%nat.
  Proof.
    unfold target_axis, tg, target, arity_at. fold t l. destruct (active X l).
    - rewrite ax_leaf. lia.
    - rewrite ax_parent_internal. unfold t. rewrite (child_index X r O (parent (ttree X) l) l); [|apply ax_edge].
      apply index_of_nth. apply in_children; apply ax_edge.
  Qed.
  Lemma ax_ndim n : node t n -> ndim (core Z n) = ndim (core X n).
  Proof.
    intros Hn. destruct (Nat.eq_dec n tg) as [->|Hne]; [|rewrite ax_core; auto].
    destruct H as (_ & _ & _ & _ & s1 & m & s2 & _ & H1 & H2 & _). fold tg in H1, H2. unfold ndim. rewrite H1, H2, !app_length. auto.
  Qed.
  Lemma ax_exts n : node t n -> exts Z n = exts X n.
  Proof.
    intros Hn. unfold exts. rewrite ax_tree. destruct (Nat.eq_dec n tg) as [->|Hne]; [|rewrite ax_core; auto].
    pose proof ax_axis_lt as Hlt.
    destruct H as (_ & _ & _ & _ & s1 & m & s2 & H0 & H1 & H2 & _). fold tg in H1, H2. rewrite H1, H2, !skipn_app, H0.
    fold t. destruct (arity_at t tg - target_axis X mu)%nat eqn:E; [lia|]. auto.
  Qed.
  (** the sizes of the axes, except the one of mu *)
  Lemma ax_nth n k : node t n -> ~ (n = tg /\ k = target_axis X mu) -> nth k (shape (core Z n)) 0%nat = nth k (shape (core X n)) 0%nat.
  Proof.
    intros Hn Hk. destruct (Nat.eq_dec n tg) as [->|Hne]; [|rewrite ax_core; auto].
    destruct H as (_ & _ & _ & _ & s1 & m & s2 & H0 & H1 & H2 & _). fold tg in H1, H2. rewrite H1, H2.
    destruct (lt_eq_lt_dec k (length s1)) as [[Hlt|Heq]|Hgt].
    - rewrite !app_nth1 by auto. auto.
    - exfalso. apply Hk. split; auto. lia.
    - rewrite !app_nth2 by lia. destruct (k - length s1)%nat eqn:E; [lia|]. auto.
  Qed.
  Lemma ax_last n : node t n -> active X n = true -> last (shape (core Z n)) 0%nat = last (shape (core X n)) 0%nat \/ n = r.
  Proof.
    intros Hn Ha. destruct (Nat.eq_dec n r) as [|Hr]; auto. left.
    pose proof (ok_exts_rank X r O n Hn Ha Hr) as E. pose proof (ax_exts n Hn) as E'. 
    unfold exts in E'. rewrite ax_tree in E'. fold t in E'. unfold exts in E. fold t in E. rewrite E in E'.
    rewrite <- (firstn_skipn (arity_at t n) (shape (core Z n))), E'. apply last_last.
  Qed.
  Lemma ax_ok : tb_ok Z r.
  Proof.
    split; [apply ax_VZ|]. split; [rewrite ax_tree; apply H|]. split; [rewrite ax_active by apply T; apply (ok_root X r O)|].
    rewrite ax_tree. intros n Hn. rewrite ax_active by auto. split; [apply (ok_internal X r O); auto|]. split.
    - intros Ha. rewrite ax_ndim, ax_exts by auto. split; [apply (ok_arity X r O); auto|].
      destruct (Nat.eqb_spec n r) as [->|Hne]; [split; auto; apply (ok_exts_root X r O)|].
      rewrite (ok_exts X r O n Hn Ha Hne). auto.
    - intros c He Ha. rewrite ax_active in Ha by apply He.
      destruct (ax_last c (proj1 (proj2 He)) Ha) as [->|E]; [|rewrite E in He; exfalso; eapply (rt_no_edge t r T); eauto].
      rewrite ax_nth; [apply (ok_child X r O); auto|auto|].
      intros [E1 E2]. unfold tg, target in E1. unfold target_axis in E2. fold t l in E1, E2. destruct (active X l) eqn:El.
      + rewrite E1 in He. pose proof ax_leaf as HL. apply (leaf_iff t r V) in HL. apply (proj2 HL c He).
      + unfold t in E2. rewrite (child_index X r O (parent (ttree X) l) l) in E2 by apply ax_edge. fold t in E2.
        assert (E3 : c = l).
        { assert (Hc1 : In c (children t n)) by (apply in_children; auto).
          assert (Hc2 : In l (children t n)) by (rewrite E1; apply in_children; apply ax_edge).
          apply index_of_nth in Hc1. apply index_of_nth in Hc2. rewrite E1 in Hc2, Hc1. rewrite E1 in E2. rewrite E2 in Hc1.
          destruct Hc1 as [_ Hc1], Hc2 as [_ Hc2]. rewrite Hc1 in Hc2. auto. }
        rewrite E3 in Ha. congruence.
  Qed.
  Lemma ax_size n : is_leaf t n = true -> tb_size Z n = if n =? l then q else tb_size X n.
  Proof.
    intros Hn. assert (Hnn : node t n) by (apply (leaf_node t r V); auto). unfold tb_size. rewrite ax_active, ax_tree by auto. fold t.
    assert (G : nth (target_axis X mu) (shape (core Z tg)) 0%nat = q).
    { destruct H as (_ & _ & _ & _ & s1 & m & s2 & H0 & H1 & H2 & _). fold tg in H1, H2. rewrite H2, <- H0, app_nth2, Nat.sub_diag by lia. auto. }
    destruct (Nat.eqb_spec n l) as [->|Hne].
    - unfold target_axis, tg, target in G. fold t l in G. destruct (active X l); auto.
    - destruct (active X n) eqn:Ha.
      + apply ax_nth; auto. intros [E1 E2]. unfold tg, target in E1. fold t l in E1. destruct (active X l); [congruence|].
        rewrite E1 in Hn. rewrite ax_parent_internal in Hn. discriminate.
      + assert (Hnr : n <> r) by (intros E; rewrite E in Hn; unfold t in Hn; congruence).
        pose proof (parent_is_edge t r T n Hnn Hnr) as He. apply ax_nth; [apply He|].
        intros [E1 E2]. unfold tg, target in E1. unfold target_axis in E2. fold t l in E1, E2. destruct (active X l) eqn:El.
        * pose proof ax_leaf as HL. rewrite <- E1 in HL. apply (leaf_iff t r V) in HL. apply (proj2 HL n He).
        * unfold t in E2. rewrite (child_index X r O (parent (ttree X) l) l) in E2 by apply ax_edge.
          rewrite (child_index X r O (parent (ttree X) n) n) in E2 by apply He. fold t in E2.
          apply Hne. assert (Hc1 : In n (children t (parent t n))) by (apply in_children; apply He).
          assert (Hc2 : In l (children t (parent t l))) by (apply in_children; apply ax_edge).
          apply index_of_nth in Hc1. apply index_of_nth in Hc2. destruct Hc1 as [_ Hc1], Hc2 as [_ Hc2].
          rewrite <- Hc1, <- Hc2, E2, E1. auto.
  Qed.
  Lemma ax_shape : tb_shape Z = upd mu q (tb_shape X).
  Proof.
    apply nth_ext' with (d := 0%nat); [rewrite upd_length, !tb_shape_length, ax_tree; auto|].
    intros k Hk. rewrite tb_shape_length, ax_tree in Hk. rewrite nth_upd, tb_shape_length.
    unfold tb_shape. rewrite ax_tree. fold t. rewrite !map_nth_in with (da := 0%nat) by auto.
    rewrite ax_size by (apply d2i_leaf; auto). 
    assert (Hlt : (mu <? length (d2i t)) = true) by (apply Nat.ltb_lt; exact Hmu). rewrite Hlt, andb_true_r.
    destruct (Nat.eqb_spec k mu) as [->|Hne]; [fold l; rewrite Nat.eqb_refl; auto|].
    destruct (Nat.eqb_spec (nth k (d2i t) 0%nat) l) as [E|]; auto. exfalso. apply Hne.
    rewrite <- (index_of_NoDup (d2i t) k), E by (auto; apply (NoDup_d2i t r V)). apply ax_index.
  Qed.
  Lemma ax_csize c : node t c -> c <> r -> c <> l \/ active X l = true -> csize Z c = csize X c.
  Proof.
    intros Hc Hcr Hcl. unfold csize. rewrite ax_active by auto. destruct (active X c) eqn:Ha.
    - destruct (ax_last c Hc Ha); auto. contradiction.
    - assert (Hlc : is_leaf t c = true).
      { destruct (is_leaf t c) eqn:E; auto. rewrite (ok_internal X r O c Hc E) in Ha. discriminate. }
      rewrite ax_size by auto. destruct (Nat.eqb_spec c l) as [->|]; auto. destruct Hcl; congruence.
  Qed.
  Lemma ax_msize : csize X l = tb_size X l \/ active X l = true.
  Proof. unfold csize. destruct (active X l); auto. Qed.

  Lemma ax_below_dims n : node t n -> below t n tg -> In mu (dims t n) \/ n = tg.
  Proof.
    intros Hn Hb. left. apply (in_dims t r V); auto. split; auto. fold l.
    unfold tg, target in Hb. fold t l in Hb. destruct (active X l); auto.
    destruct Hb as [d Hd]. exists (S d). apply depth_child with (p := parent t l); auto. apply ax_edge.
  Qed.
  Lemma ax_tval_out n is e : node t n -> ~ In mu (dims t n) -> tval Z n is e = tval X n is e.
  Proof.
    intros Hn Hm. apply (tval_same_below X Z r n V ax_tree Hn). intros m Hm' Hb. apply ax_core; auto.
    intros ->. destruct (ax_below_dims n Hn Hb) as [|E]; auto. apply Hm. rewrite E. apply (in_dims t r V); [apply ax_tg_node|].
    split; auto. fold l. unfold tg, target. fold t l. destruct (active X l); [apply below_refl|].
    exists 1%nat. apply depth_child with (p := parent t l); [constructor|apply ax_edge].
  Qed.
  Lemma ax_tval_in n : node t n -> In mu (dims t n) -> n <> l \/ active X l = true ->
    forall is e, valid (tb_shape Z) is -> valid (exts X n) e ->
    tval Z n is e = rsum (tb_size X l) (fun j => L (nth mu is 0%nat) j * tval X n (upd mu j is) e).
  Proof.
    intros Hn. revert n Hn. apply (tree_up_ind t r T (fun n => In mu (dims t n) -> n <> l \/ active X l = true ->
      forall is e, valid (tb_shape Z) is -> valid (exts X n) e ->
      tval Z n is e = rsum (tb_size X l) (fun j => L (nth mu is 0%nat) j * tval X n (upd mu j is) e))).
    intros n Hn IH Hm Hl is e Hv He.
    assert (Lis : (mu < length is)%nat) by (rewrite (valid_length _ _ Hv), tb_shape_length, ax_tree; auto).
    assert (Hi : (nth mu is 0 < q)%nat).
    { rewrite ax_shape in Hv. replace q with (nth mu (upd mu q (tb_shape X)) 0%nat).
      - apply valid_nth; auto. rewrite upd_length, tb_shape_length; auto.
      - apply nth_upd_eq. rewrite tb_shape_length; auto. }
    destruct (is_leaf t n) eqn:Hlf.
    - assert (En : n = l).
      { rewrite (dims_leaf t r V n Hlf) in Hm. destruct Hm as [Hm|[]]. destruct (leaf_index t n Hlf) as [_ E]. rewrite <- E, Hm. auto. }
      destruct Hl as [|Hla]; [congruence|]. rewrite En in *.
      rewrite (tval_leaf Z r ax_VZ l) by (rewrite ?ax_tree, ?ax_active; auto). rewrite ax_tree, ax_index.
      destruct H as (_ & _ & _ & _ & s1 & m & s2 & H0 & H1 & H2 & H3).
      unfold target, target_axis in *. fold t l in H0, H1, H2, H3. rewrite Hla in *. destruct s1; [|discriminate].
      cbn [app] in *.
      assert (Es2 : exts X l = s2) by (unfold exts, arity_at; fold t; rewrite ax_leaf, H1; auto).
      specialize (H3 [] (nth mu is 0%nat) e (Forall2_nil _) Hi). cbn [app] in H3. rewrite H3 by (rewrite <- Es2; auto).
      assert (Em : tb_size X l = m) by (unfold tb_size; rewrite Hla, H1; auto). rewrite Em. apply rsum_ext. intros j Hj.
      rewrite (tval_leaf X r V l) by (auto; apply ax_leaf). fold t. rewrite ax_index, nth_upd_eq by auto. auto.
    - assert (HlZ : is_leaf (ttree Z) n = false) by (rewrite ax_tree; auto).
      assert (HnZ : node (ttree Z) n) by (rewrite ax_tree; auto).
      pose proof Hm as Hm'. rewrite (dims_internal t r V n Hn Hlf) in Hm'. apply in_flat_map in Hm'. destruct Hm' as (c & Hc & Hmc).
      assert (Hec : edge t n c) by (apply in_children; auto).
      assert (Hcn : node t c) by apply Hec.
      assert (Hcr : c <> r) by (intros E; rewrite E in Hec; eapply (rt_no_edge t r T); eauto).
      destruct (children_split X n c Hec) as (cs1 & cs2 & Hch & Hlen & Hn1 & Hn2). fold t in Hch, Hlen.
      assert (HchZ : children (ttree Z) n = cs1 ++ c :: cs2) by (rewrite ax_tree; auto).
      assert (Hoth : forall x, In x (cs1 ++ cs2) -> In x (children t n) /\ x <> c).
      { intros x Hx. split; [rewrite Hch; apply in_app_iff in Hx; apply in_or_app; simpl; tauto|].
        intros ->. apply in_app_iff in Hx. tauto. }
      assert (Hout : forall x, In x (cs1 ++ cs2) -> ~ In mu (dims t x)).
      { intros x Hx Hmx. destruct (Hoth x Hx) as [H1 H2]. apply H2.
        apply (in_dims t r V) in Hmx; [|apply (in_children' t n); auto]. apply (in_dims t r V) in Hmc; auto.
        eapply (siblings_disjoint t r T n x c); eauto; [apply in_children; auto|apply Hmx|apply Hmc]. }
      assert (Hcs : map (csize Z) cs1 = map (csize X) cs1 /\ map (csize Z) cs2 = map (csize X) cs2).
      { split; apply map_ext_in; intros x Hx; apply ax_csize.
        all: try (apply (in_children' t n), Hoth, in_or_app; auto).
        all: try (intros E; rewrite E in Hx; apply (rt_no_edge t r T n); apply in_children; auto; apply Hoth, in_or_app; auto).
        all: left; intros E; rewrite E in Hx; apply (Hout l); [apply in_or_app; auto|];
          rewrite (dims_leaf t r V l ax_leaf), ax_index; simpl; auto. }
      destruct Hcs as [Hcs1 Hcs2].
      assert (Hctx : forall j k, ctx Z n cs1 cs2 is e k = bsum (map (csize X) cs1) (fun ks1 => bsum (map (csize X) cs2) (fun ks2 =>
           get (core Z n) (ks1 ++ k :: ks2 ++ e) *
           (lprod (combine cs1 ks1) (fun p => tval X (fst p) (upd mu j is) [snd p]) * lprod (combine cs2 ks2) (fun p => tval X (fst p) (upd mu j is) [snd p]))))).
      { intros j k. unfold ctx. rewrite Hcs1, Hcs2. apply bsum_ext. intros ks1 _. apply bsum_ext. intros ks2 _. f_equal. f_equal; apply lprod_ext;
          intros [c' x] Hx; apply in_combine_l in Hx; cbn [fst snd];
          (assert (Hx' : In c' (cs1 ++ cs2)) by (apply in_or_app; auto));
          rewrite ax_tval_out by (auto; apply (in_children' t n), Hoth; auto);
          apply (tval_local X r V); try (apply (in_children' t n), Hoth; auto);
          intros nu Hnu; rewrite nth_upd_neq; auto; intros ->; apply (Hout c'); auto. }
      destruct (Nat.eq_dec c l) as [Ecl|Ecl]; [destruct (active X l) eqn:Hla|].
      all: cycle 1.
      + (* the child is the inactive leaf *)
        assert (Ep : parent t l = n) by (rewrite <- Ecl; apply (parent_edge t r T); auto).
        rewrite Ecl in *.
        assert (Hsz : (nth mu is 0 < csize Z l)%nat).
        { unfold csize. rewrite ax_active by apply ax_node. rewrite Hla, ax_size, Nat.eqb_refl by apply ax_leaf. auto. }
        rewrite (tval_split_inactive Z r ax_ok n l cs1 cs2); auto.
        2: rewrite ax_active by apply ax_node; auto.
        2: rewrite ax_tree, ax_index; auto.
        rewrite ax_tree, ax_index.
        assert (Hcx : forall j, (j < tb_size X l)%nat -> tval X n (upd mu j is) e = ctx X n cs1 cs2 (upd mu j is) e j).
        { intros j Hj. rewrite (tval_split_inactive X r O n l cs1 cs2); auto; fold t; rewrite ax_index, nth_upd_eq by auto; auto.
          unfold csize. rewrite Hla. auto. }
        etransitivity; [|symmetry; apply rsum_ext; intros j Hj; rewrite Hcx by auto; reflexivity].
        destruct H as (_ & _ & _ & _ & s1 & m & s2 & H0 & H1 & H2 & H3).
        unfold target, target_axis in *. fold t l in H0, H1, H2, H3. rewrite Hla, Ep in *.
        assert (Eh : shape (core X n) = map (csize X) cs1 ++ csize X l :: map (csize X) cs2 ++ exts X n).
        { rewrite (ok_shape X n Hn (ok_internal X r O n Hn Hlf)). rewrite (heads_internal X r O n Hn Hlf). fold t. rewrite Hch, map_app. cbn [map].
          rewrite <- app_assoc. auto. }
        assert (Es : s1 = map (csize X) cs1 /\ m = csize X l /\ s2 = map (csize X) cs2 ++ exts X n).
        { rewrite Eh in H1. assert (Hl1 : length (map (csize X) cs1) = length s1).
          { rewrite map_length, Hlen, H0. unfold t. rewrite (child_index X r O n l); auto. }
          assert (G : forall (a b : list nat) x y c d, length a = length b -> a ++ x :: c = b ++ y :: d -> b = a /\ y = x /\ d = c).
          { induction a; intros [|b0 b] x y c0 d Hab Ead; simpl in *; try lia; [inversion Ead; auto|].
            inversion Ead; subst. destruct (IHa b x y c0 d) as (-> & -> & ->); auto. }
          apply (G _ _ _ _ _ _ Hl1) in H1. auto. }
        destruct Es as (-> & -> & ->).
        assert (Ecs : csize X l = tb_size X l) by (unfold csize; rewrite Hla; auto). rewrite Ecs in *.
        transitivity (rsum (tb_size X l) (fun j => L (nth mu is 0%nat) j * bsum (map (csize X) cs1) (fun ks1 => bsum (map (csize X) cs2) (fun ks2 =>
           get (core X n) (ks1 ++ j :: ks2 ++ e) *
           (lprod (combine cs1 ks1) (fun p => tval X (fst p) is [snd p]) * lprod (combine cs2 ks2) (fun p => tval X (fst p) is [snd p])))))).
        * rewrite (Hctx (nth mu is 0%nat)). rewrite upd_same.
          etransitivity; [|symmetry; apply rsum_ext; intros j Hj; rewrite <- bsum_scal_l; reflexivity].
          rewrite <- bsum_rsum_exchange. apply bsum_ext. intros ks1 Hk1.
          etransitivity; [|symmetry; apply rsum_ext; intros j Hj; rewrite <- bsum_scal_l; reflexivity].
          rewrite <- bsum_rsum_exchange. apply bsum_ext. intros ks2 Hk2.
          rewrite H3; auto; [|apply valid_app; auto].
          rewrite <- rsum_scal_r. apply rsum_ext. intros j Hj. ring.
        * apply rsum_ext. intros j Hj. f_equal. apply (ctx_local X r O n cs1 cs2 is (upd mu j is)); auto.
          -- intros x Hx. apply Hoth; auto.
          -- intros x nu Hx Hnu. rewrite nth_upd_neq; auto. intros ->. apply (Hout x); auto.
      + (* another child *)
        assert (Hcl : c <> l \/ active X l = true) by auto.
        assert (Hctg : core Z n = core X n).
        { apply ax_core; auto. intros E. unfold tg, target in E. fold t l in E. destruct (active X l).
          - rewrite E, ax_leaf in Hlf. discriminate.
          - apply Ecl. assert (Hel : edge t n l) by (rewrite E; apply ax_edge).
            apply (in_dims t r V) in Hmc; auto. destruct Hmc as [_ Hb]. fold l in Hb.
            eapply (siblings_disjoint t r T n c l l); eauto. apply below_refl. }
        rewrite (tval_split Z r ax_ok n c cs1 cs2) by auto. rewrite ax_csize by auto.
        etransitivity; [|symmetry; apply rsum_ext; intros j Hj; rewrite (tval_split X r O n c cs1 cs2), <- rsum_scal_l by auto; reflexivity].
        rewrite rsum_exchange. apply rsum_ext. intros k Hk.
        rewrite (IH c Hec Hmc Hcl); auto.
        2: { destruct (active X c) eqn:Hac.
             - rewrite (ok_exts_rank X r O c Hcn Hac Hcr). constructor; auto. unfold csize in Hk. rewrite Hac in Hk. auto.
             - exfalso. assert (Hlc : is_leaf t c = true).
               { destruct (is_leaf t c) eqn:E; auto. rewrite (ok_internal X r O c Hcn E) in Hac. discriminate. }
               rewrite (dims_leaf t r V c Hlc) in Hmc. destruct Hmc as [Hmc|[]]. destruct (leaf_index t c Hlc) as [_ E].
               apply Ecl. rewrite <- E, Hmc. auto. }
        rewrite <- rsum_scal_r. apply rsum_ext. intros j Hj. rewrite (Hctx j), Hctg. unfold ctx. ring.
      + (* the child is the active leaf *)
        assert (Hctg : core Z n = core X n).
        { apply ax_core; auto. intros E. unfold tg, target in E. fold t l in E. rewrite Hla in E. rewrite E, ax_leaf in Hlf. discriminate. }
        rewrite (tval_split Z r ax_ok n c cs1 cs2) by auto. rewrite ax_csize by auto.
        etransitivity; [|symmetry; apply rsum_ext; intros j Hj; rewrite (tval_split X r O n c cs1 cs2), <- rsum_scal_l by auto; reflexivity].
        rewrite rsum_exchange. apply rsum_ext. intros k Hk.
        assert (Hac : active X c = true) by (rewrite Ecl; auto).
        rewrite (IH c Hec Hmc (or_intror eq_refl)); auto.
        2: { rewrite (ok_exts_rank X r O c Hcn Hac Hcr). constructor; auto. unfold csize in Hk. rewrite Hac in Hk. auto. }
        rewrite <- rsum_scal_r. apply rsum_ext. intros j Hj. rewrite (Hctx j), Hctg. unfold ctx. ring.
  Qed.
End Axis.
