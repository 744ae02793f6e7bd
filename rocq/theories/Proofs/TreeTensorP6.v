(** Tree-based tensors: scaling, change of the core of a node and of its parent, (in)activation of leaves. *)
From Coq Require Import List Arith Lia Bool ZArith Ring Permutation.
From Verif.Base Require Import ListAux CRing Index.
From Verif.Model Require Import Sorting Numpy FullTensor DimensionTree TreeBased.
From Verif.Spec Require Import TensorSpec TreeSpec TreeTensorSpec.
From Verif.Proofs Require Import NumpyP FullTensorP FullTensorP2 FullTensorP3 FullTensorP4 DimTreeP DimTreeP2 TreeTensorP TreeTensorP2 TreeTensorP3 TreeTensorP4 TreeTensorP5.
Import ListNotations.

Section Cut.
  Context {R : Type} {CR : CRing R}.
  Add Ring Rrcut : rth.
  Local Open Scope cr_scope.

  (** rank indices at which the value of a node is used *)
  Definition rank_index (X : tbt R) (r n : nat) (e : list nat) : Prop :=
    if n =? r then valid (exts X r) e else exists k, e = [k] /\ (k < csize X n)%nat.

  Lemma tval_cut (X Z : tbt R) r (G : nat -> Prop) is : tb_ok X r -> ttree Z = ttree X ->
    (forall n, node (ttree X) n -> G n ->
       (forall e, rank_index X r n e -> tval Z n is e = tval X n is e) \/
       (core Z n = core X n /\ forall c, edge (ttree X) n c -> G c)) ->
    forall n, node (ttree X) n -> G n -> forall e, rank_index X r n e -> tval Z n is e = tval X n is e.
  Proof.
    intros O Et HG n Hn. pose proof (proj1 O) as V. pose proof (proj1 V) as T.
    revert n Hn. apply (tree_up_ind (ttree X) r T (fun n => G n -> forall e, rank_index X r n e -> tval Z n is e = tval X n is e)).
    intros n Hn IH Hg e He. destruct (HG n Hn Hg) as [H|[Hcn Hch]]; auto.
    assert (VZ : dim_tree (ttree Z) r) by (rewrite Et; auto).
    assert (Ea : active Z n = active X n) by (apply active_shape_eq; rewrite Hcn; auto).
    destruct (is_leaf (ttree X) n) eqn:Hl.
    - destruct (active X n) eqn:Ha.
      + rewrite (tval_leaf X r V n) by auto. rewrite (tval_leaf Z r VZ n) by (rewrite ?Et; auto). rewrite Hcn, Et. auto.
      + rewrite (tval_inactive X r V n) by auto. rewrite (tval_inactive Z r VZ n) by (rewrite ?Et; auto). rewrite Et. auto.
    - rewrite (tval_internal X r V n) by auto. rewrite (tval_internal Z r VZ n) by (rewrite ?Et; auto).
      unfold heads at 1. rewrite Hcn, Et. fold (heads X n). apply bsum_ext. intros ks Hks. f_equal. apply lprod_ext. intros [c k] Hi.
      cbn [fst snd]. pose proof (in_combine_l _ _ _ _ Hi) as Hic. apply in_children in Hic; auto. apply IH; auto.
      unfold rank_index. destruct (Nat.eqb_spec c r) as [E|Hcr]; [rewrite E in Hic; exfalso; eapply (rt_no_edge _ r T); eauto|].
      exists k. split; auto. rewrite (heads_internal X r O n Hn Hl) in Hks.
      clear - Hi Hks. revert Hi. generalize dependent ks. induction (children (ttree X) n) as [|a l IH]; intros ks Hks Hi; [destruct Hi|].
      inversion Hks as [|? ? ks' ? H1 H2]; subst. destruct Hi as [Hi|Hi]; [injection Hi as <- <-; auto|]. apply (IH ks'); auto.
  Qed.

  (** same shapes, same structure *)
  Lemma ok_same_shape (X Z : tbt R) r : tb_ok X r -> ttree Z = ttree X -> length (cores Z) = nbn (ttree X) ->
    (forall n, node (ttree X) n -> shape (core Z n) = shape (core X n)) ->
    tb_ok Z r /\ tb_shape Z = tb_shape X /\ exts Z r = exts X r.
  Proof.
    intros O Et HL Hs. pose proof (proj1 O) as V. pose proof (proj1 V) as T.
    assert (Ea : forall n, node (ttree X) n -> active Z n = active X n) by (intros; apply active_shape_eq; auto).
    assert (Ee : forall n, node (ttree X) n -> exts Z n = exts X n) by (intros; unfold exts; rewrite Et, Hs; auto).
    assert (Hr : node (ttree X) r) by apply T.
    split; [|split].
    - split; [rewrite Et; auto|]. split; [rewrite Et; auto|]. split; [rewrite Ea; auto; apply (ok_root X r O)|].
      rewrite Et. intros n Hn. destruct (proj2 (proj2 (proj2 O)) n Hn) as (H1 & H2 & H3). rewrite Ea, Ee by auto. unfold ndim in *. rewrite Hs by auto.
      split; auto. split; auto. intros c He Ha. assert (Hc : node (ttree X) c) by apply He. rewrite Ea in Ha by auto. rewrite (Hs c) by auto. auto.
    - unfold tb_shape. rewrite Et. apply map_ext_in. intros n Hn.
      assert (Hl : is_leaf (ttree X) n = true) by (apply inb_spec; auto).
      pose proof (leaf_node _ r V n Hl) as Hnn. unfold tb_size. rewrite Ea, Et by auto. rewrite Hs by auto.
      destruct (active X n) eqn:Ha; auto. destruct (Nat.eq_dec n r) as [E|Hne].
      + rewrite E, (ok_root X r O) in Ha. discriminate.
      + rewrite Hs; auto. apply (parent_is_edge _ r T n Hnn Hne).
    - auto.
  Qed.

  (** multiplication of the root core *)
  Lemma root_scaled (X Z : tbt R) r c : tb_ok X r -> ttree Z = ttree X -> length (cores Z) = nbn (ttree X) -> is_leaf (ttree X) r = false ->
    (forall n, node (ttree X) n -> n <> r -> core Z n = core X n) -> shape (core Z r) = shape (core X r) ->
    (forall is, valid (shape (core X r)) is -> get (core Z r) is = c * get (core X r) is) ->
    forall is e, valid (tb_shape X) is -> valid (exts X r) e -> tval Z r is e = c * tval X r is e.
  Proof.
    intros O Et HL Hl Hc Hs Hg is e Hi He. pose proof (proj1 O) as V. pose proof (proj1 V) as T.
    assert (Hr : node (ttree X) r) by apply T. assert (VZ : dim_tree (ttree Z) r) by (rewrite Et; auto).
    rewrite (tval_internal X r V r) by auto. rewrite (tval_internal Z r VZ r) by (rewrite ?Et; auto).
    unfold heads at 1. rewrite Hs, Et. fold (heads X r). rewrite <- bsum_scal_l. apply bsum_ext. intros ks Hks.
    rewrite Hg by (rewrite (ok_shape X r Hr (ok_root X r O)); apply valid_app; auto).
    rewrite <- (Radd_0_l rth (c * _)). rewrite (Radd_0_l rth). transitivity (c * get (core X r) (ks ++ e) * lprod (combine (children (ttree X) r) ks) (fun p => tval X (fst p) is [snd p])); [|ring].
    f_equal. apply lprod_ext. intros [x k] Hx. apply in_combine_l in Hx. apply in_children in Hx; auto. cbn [fst snd].
    apply (tval_same_below X Z r x V Et); [apply Hx|]. intros m Hm Hb. apply Hc; auto. intros ->.
    destruct Hb as [d Hd]. pose proof (level_below _ r T x r d (proj1 (proj2 Hx)) Hd) as HLv.
    rewrite (level_root _ r T), (level_edge _ r T _ _ Hx) in HLv. lia.
  Qed.
  Lemma root_scaled_full (X Z : tbt R) r c A : tb_ok X r -> (2 <= tb_order X)%nat -> tb_full X = Some A ->
    ttree Z = ttree X -> length (cores Z) = nbn (ttree X) ->
    (forall n, node (ttree X) n -> n <> r -> core Z n = core X n) -> shape (core Z r) = shape (core X r) ->
    (forall is, valid (shape (core X r)) is -> get (core Z r) is = c * get (core X r) is) ->
    tb_ok Z r /\ returns (tb_full Z) (shape A) (fun is => c * get A is).
  Proof.
    intros O H2 HA Et HL Hc Hs Hg. destruct (full_inv X r A O H2 HA) as [HsA HgA].
    destruct (ok_same_shape X Z r O Et HL) as (OZ & SZ & EZ).
    { intros n Hn. destruct (Nat.eq_dec n r) as [->|Hne]; auto. rewrite Hc; auto. }
    split; auto. apply (full_returns Z r); auto.
    - unfold tb_order. rewrite Et. exact H2.
    - congruence.
    - rewrite SZ, EZ. intros is e Hi He. rewrite HgA by auto. apply (root_scaled X Z r c); auto. apply (root_not_leaf X r); auto.
  Qed.
  Lemma setc_core (X : tbt R) m A n : (1 <= m <= length (cores X))%nat -> (1 <= n)%nat ->
    core (TB (ttree X) (setc m A (cores X))) n = if n =? m then A else core X n.
  Proof. intros. unfold core. cbn [cores]. apply nthc_setc; auto. Qed.
  Lemma root_node (X : tbt R) r : tb_ok X r -> root (ttree X) = r /\ (1 <= r <= length (cores X))%nat.
  Proof.
    intros O. pose proof (proj1 (proj1 O)) as T. split; [apply (root_eq _ r T)|]. rewrite (ok_cores_length X r O). apply T.
  Qed.
  Theorem tb_neg_full (X : tbt R) r A : tb_ok X r -> (2 <= tb_order X)%nat -> tb_full X = Some A ->
    tb_ok (tb_neg X) r /\ returns (tb_full (tb_neg X)) (shape A) (fun is => - get A is).
  Proof.
    intros O H2 HA. destruct (root_node X r O) as [Er Hr]. unfold tb_neg. rewrite Er.
    destruct (root_scaled_full X (TB (ttree X) (setc r (ft_neg (core X r)) (cores X))) r (- r1) A) as (OZ & B & HB & HsB & HgB); auto.
    - cbn [cores]. rewrite setc_length. apply (ok_cores_length X r O).
    - intros n Hn Hne. rewrite setc_core by (auto; apply Hn). destruct (Nat.eqb_spec n r); [contradiction|auto].
    - rewrite setc_core, Nat.eqb_refl by lia. auto.
    - intros is Hv. rewrite setc_core, Nat.eqb_refl by lia. cbn. ring.
    - split; auto. exists B. split; auto. split; auto. intros is Hv. rewrite HgB by auto. ring.
  Qed.
  Theorem tb_scale_full (X : tbt R) r c A : tb_ok X r -> (2 <= tb_order X)%nat -> tb_full X = Some A ->
    exists Z, tb_scale X c = Some Z /\ tb_ok Z r /\ ttree Z = ttree X /\ returns (tb_full Z) (shape A) (fun is => get A is * c).
  Proof.
    intros O H2 HA. destruct (root_node X r O) as [Er Hr]. unfold tb_scale. rewrite Er.
    destruct (np_binop_scalar_r rmul (core X r) c) as (C & HC & HsC & HgC). unfold ft_mul. rewrite HC. cbn [bind].
    destruct (root_scaled_full X (TB (ttree X) (setc r C (cores X))) r c A) as (OZ & B & HB & HsB & HgB); auto.
    - cbn [cores]. rewrite setc_length. apply (ok_cores_length X r O).
    - intros n Hn Hne. rewrite setc_core by (auto; apply Hn). destruct (Nat.eqb_spec n r); [contradiction|auto].
    - rewrite setc_core, Nat.eqb_refl by lia. auto.
    - intros is Hv. rewrite setc_core, Nat.eqb_refl by lia. rewrite HgC by auto. ring.
    - eexists. split; [reflexivity|]. split; auto. split; auto. exists B. split; auto. split; auto. intros is Hv. rewrite HgB by auto. ring.
  Qed.
End Cut.

Section Gauge.
  Context {R : Type} {CR : CRing R}.
  Add Ring Rrgau : rth.
  Local Open Scope cr_scope.

  (** Z is X in which the core of n and of its parent p have been changed, the axis of n in the core of p
      being multiplied by the matrix G (a rows, b columns) *)
  Record gauge (X Z : tbt R) (p n a b : nat) (G : nat -> nat -> R) : Prop := {
    g_tree : ttree Z = ttree X;
    g_len : length (cores Z) = nbn (ttree X);
    g_edge : edge (ttree X) p n;
    g_other : forall m, node (ttree X) m -> m <> n -> m <> p -> core Z m = core X m;
    g_pos : (0 < a)%nat;
    g_parent : exists s1 s2, length s1 = index_of n (children (ttree X) p) /\
      shape (core X p) = s1 ++ b :: s2 /\ shape (core Z p) = s1 ++ a :: s2 /\
      forall a1 i a2, valid s1 a1 -> (i < a)%nat -> valid s2 a2 ->
        get (core Z p) (a1 ++ i :: a2) = rsum b (fun j => G i j * get (core X p) (a1 ++ j :: a2));
    g_node : active X n = true /\
      (shape (core Z n) = heads X n ++ [a] \/ (is_leaf (ttree X) n = true /\ active Z n = false /\ a = tb_size X n));
    g_val : forall is, valid (tb_shape X) is -> forall k, (k < b)%nat ->
      rsum a (fun k' => tval Z n is [k'] * G k' k) = tval X n is [k] }.

  Variables (X Z : tbt R) (r p n a b : nat) (G : nat -> nat -> R).
  Hypothesis O : tb_ok X r.
  Hypothesis H : gauge X Z p n a b G.
  Let t := ttree X.
  Let V : dim_tree t r := proj1 O.
  Let T : rooted_tree t r := proj1 V.

  Lemma ga_tree : ttree Z = t.
  Proof. apply (g_tree _ _ _ _ _ _ _ H). Qed.
  Lemma ga_edge : edge t p n.
  Proof. apply (g_edge _ _ _ _ _ _ _ H). Qed.
  Lemma ga_np : node t p.
  Proof. apply ga_edge. Qed.
  Lemma ga_nn : node t n.
  Proof. apply ga_edge. Qed.
  Lemma ga_nr : n <> r.
  Proof. apply (edge_ne t r T p n ga_edge). Qed.
  Lemma ga_ne : n <> p.
  Proof. intros E. pose proof (level_edge t r T p n ga_edge) as L. rewrite E in L. lia. Qed.
  Lemma ga_p_internal : is_leaf t p = false.
  Proof. destruct (is_leaf t p) eqn:E; auto. apply (leaf_iff t r V) in E. exfalso. apply (proj2 E n), ga_edge. Qed.
  Lemma ga_child m : edge t m n -> m = p.
  Proof. intros Hm. apply (rt_uniq t r T m p n); auto. apply ga_edge. Qed.
  Lemma ga_index : (index_of n (children t p) < length (children t p))%nat.
  Proof. apply index_of_nth. apply in_children; apply ga_edge. Qed.
  Lemma ga_active_p : active X p = true.
  Proof. apply (ok_internal X r O); [apply ga_np|apply ga_p_internal]. Qed.
  Lemma ga_active_Zp : active Z p = true.
  Proof.
    apply active_prod. pose proof (proj1 (active_prod X p) ga_active_p) as HX.
    destruct (g_parent _ _ _ _ _ _ _ H) as (s1 & s2 & _ & H1 & H2 & _). pose proof (g_pos _ _ _ _ _ _ _ H) as Ha. rewrite H1 in HX. rewrite H2.
    rewrite prodn_app in *. simpl in *. intros E. apply HX. apply Nat.eq_mul_0 in E. destruct E as [->|E]; [lia|].
    apply Nat.eq_mul_0 in E. destruct E as [->|E]; [lia|]. rewrite E, Nat.mul_0_r, Nat.mul_0_r. auto.
  Qed.
  Lemma ga_active m : node t m -> m <> n -> active Z m = active X m.
  Proof.
    intros Hm Hne. destruct (Nat.eq_dec m p) as [->|Hp]; [rewrite ga_active_p, ga_active_Zp; auto|].
    apply active_shape_eq. rewrite (g_other _ _ _ _ _ _ _ H); auto.
  Qed.
  Lemma ga_ndim m : node t m -> m <> n -> ndim (core Z m) = ndim (core X m).
  Proof.
    intros Hm Hne. destruct (Nat.eq_dec m p) as [->|Hp]; [|rewrite (g_other _ _ _ _ _ _ _ H); auto].
    destruct (g_parent _ _ _ _ _ _ _ H) as (s1 & s2 & _ & H1 & H2 & _). unfold ndim. rewrite H1, H2, !app_length. auto.
  Qed.
  Lemma ga_exts m : node t m -> m <> n -> exts Z m = exts X m.
  Proof.
    intros Hm Hne. unfold exts. rewrite ga_tree. destruct (Nat.eq_dec m p) as [->|Hp]; [|rewrite (g_other _ _ _ _ _ _ _ H); auto].
    destruct (g_parent _ _ _ _ _ _ _ H) as (s1 & s2 & L & H1 & H2 & _). rewrite H1, H2, !skipn_app, L. fold t.
    unfold arity_at. rewrite ga_p_internal. pose proof ga_index as Hi. destruct (length (children t p) - index_of n (children t p))%nat eqn:E; [lia|]. auto.
  Qed.
  Lemma ga_nth m k : node t m -> m <> n -> ~ (m = p /\ k = index_of n (children t p)) ->
    nth k (shape (core Z m)) 0%nat = nth k (shape (core X m)) 0%nat.
  Proof.
    intros Hm Hne Hk. destruct (Nat.eq_dec m p) as [->|Hp]; [|rewrite (g_other _ _ _ _ _ _ _ H); auto].
    destruct (g_parent _ _ _ _ _ _ _ H) as (s1 & s2 & L & H1 & H2 & _). rewrite H1, H2. fold t in L.
    destruct (lt_eq_lt_dec k (length s1)) as [[Hlt|Heq]|Hgt].
    - rewrite !app_nth1 by auto. auto.
    - exfalso. apply Hk. split; auto. lia.
    - rewrite !app_nth2 by lia. destruct (k - length s1)%nat eqn:E; [lia|]. auto.
  Qed.
  Lemma ga_nth_p : nth (index_of n (children t p)) (shape (core Z p)) 0%nat = a.
  Proof.
    destruct (g_parent _ _ _ _ _ _ _ H) as (s1 & s2 & L & H1 & H2 & _). fold t in L. rewrite H2, <- L, app_nth2, Nat.sub_diag by lia. auto.
  Qed.
  Lemma ga_sib c m : edge t m c -> c <> n -> ~ (m = p /\ index_of c (children t m) = index_of n (children t p)).
  Proof.
    intros He Hne [E1 E2]. apply Hne. assert (H1 : In c (children t m)) by (apply in_children; auto; apply He).
    assert (H2 : In n (children t p)) by (apply in_children; apply ga_edge). apply index_of_nth in H1. apply index_of_nth in H2.
    destruct H1 as [_ H1], H2 as [_ H2]. rewrite E2, E1, H2 in H1. auto.
  Qed.
  Lemma ga_last m : node t m -> m <> n -> active X m = true -> m = r \/ last (shape (core Z m)) 0%nat = last (shape (core X m)) 0%nat.
  Proof.
    intros Hm Hne Ha. destruct (Nat.eq_dec m r) as [|Hr]; auto. right.
    pose proof (ok_exts X r O m Hm Ha Hr) as HE. pose proof (ga_exts m Hm Hne) as E.
    assert (G1 : forall Y : tbt R, length (exts Y m) = 1%nat -> last (shape (core Y m)) 0%nat = nth 0 (exts Y m) 0%nat).
    { intros Y HY. unfold exts in *. rewrite <- (firstn_skipn (arity_at (ttree Y) m) (shape (core Y m))) at 1.
      destruct (skipn (arity_at (ttree Y) m) (shape (core Y m))) as [|x [|y l]]; simpl in HY; try lia. rewrite last_last. auto. }
    rewrite !G1 by congruence. rewrite E. auto.
  Qed.
  Lemma ga_heads_n : shape (core Z n) = heads X n ++ [a] -> heads Z n = heads X n /\ exts Z n = [a] /\ active Z n = true.
  Proof.
    intros E. destruct (g_node _ _ _ _ _ _ _ H) as [Ha _]. pose proof (ok_heads_length X r O n ga_nn Ha) as L.
    assert (E1 : heads Z n = heads X n).
    { unfold heads at 1. rewrite ga_tree, E. unfold t. rewrite <- L, firstn_app, firstn_all, Nat.sub_diag. cbn. apply app_nil_r. }
    assert (E2 : exts Z n = [a]).
    { unfold exts. rewrite ga_tree, E. unfold t. rewrite <- L, skipn_app, skipn_all, Nat.sub_diag. auto. }
    split; auto. split; auto. apply active_prod. rewrite E, prodn_app. pose proof (g_pos _ _ _ _ _ _ _ H) as Hp.
    apply active_prod in Ha. rewrite (ok_shape X n) in Ha; auto; [|apply ga_nn|apply active_prod; auto].
    rewrite prodn_app in Ha. simpl. intros E3. apply Ha. apply Nat.eq_mul_0 in E3. destruct E3 as [->|E3]; [lia|]. lia.
  Qed.
  Lemma ga_ok : tb_ok Z r.
  Proof.
    split; [rewrite ga_tree; apply V|]. split; [rewrite ga_tree; apply H|].
    assert (Hr : node t r) by apply T.
    assert (Hrn : r <> n) by (intros E; symmetry in E; apply (ga_nr E)).
    split; [rewrite ga_active by auto; apply (ok_root X r O)|].
    rewrite ga_tree. intros m Hm. destruct (Nat.eq_dec m n) as [->|Hne].
    - destruct (g_node _ _ _ _ _ _ _ H) as [Ha [E|(El & En & _)]].
      + destruct (ga_heads_n E) as (E1 & E2 & E3). split; auto. split.
        * intros _. rewrite E2. unfold ndim. rewrite E, app_length. pose proof (ok_heads_length X r O n ga_nn Ha) as L. fold t in L. rewrite L.
          destruct (Nat.eqb_spec n r); simpl; lia.
        * intros c He Hac. assert (Hcn : c <> n) by (intros Ec; rewrite Ec in He; pose proof (level_edge t r T _ _ He); lia).
          assert (Hc : node t c) by apply He. rewrite ga_active in Hac by auto.
          destruct (ga_last c Hc Hcn Hac) as [Ec|Ec]; [rewrite Ec in He; exfalso; eapply (rt_no_edge t r T); eauto|]. rewrite Ec.
          rewrite <- (ok_child X r O n c He Hac). fold t. assert (Hin : In c (children t n)) by (apply in_children; auto; apply ga_nn).
          apply index_of_nth in Hin. destruct Hin as [Hin _].
          assert (Hlf : is_leaf t n = false).
          { destruct (is_leaf t n) eqn:El; auto. apply (leaf_iff t r V) in El. exfalso. apply (proj2 El c He). }
          pose proof (ok_heads_length X r O n ga_nn Ha) as L. unfold arity_at in L. fold t in L. rewrite Hlf in L.
          rewrite E, app_nth1 by lia. rewrite (ok_shape X n) by (auto; apply ga_nn). rewrite app_nth1 by lia. auto.
      + fold t in El. split; [congruence|]. split; [congruence|]. intros c He. apply (leaf_iff t r V) in El. exfalso. apply (proj2 El c He).
    - rewrite ga_active by auto. split; [apply (ok_internal X r O); auto|]. split.
      + intros Ha. rewrite ga_ndim, ga_exts by auto. split; [apply (ok_arity X r O); auto|].
        destruct (Nat.eqb_spec m r) as [->|Hmr]; [split; auto; apply (ok_exts_root X r O)|].
        rewrite (ok_exts X r O m Hm Ha Hmr). auto.
      + intros c He Ha. assert (Hc : node t c) by apply He. destruct (Nat.eq_dec c n) as [Ec|Hcn].
        * subst c. pose proof (ga_child m He) as Em. subst m. rewrite ga_nth_p.
          destruct (g_node _ _ _ _ _ _ _ H) as [_ [E|(El & En & _)]]; [rewrite E, last_last; auto|congruence].
        * rewrite ga_active in Ha by auto. rewrite ga_nth by (auto; apply ga_sib; auto).
          destruct (ga_last c Hc Hcn Ha) as [Ec|Ec]; [rewrite Ec in He; exfalso; eapply (rt_no_edge t r T); eauto|]. rewrite Ec.
          apply (ok_child X r O); auto.
  Qed.
  Lemma ga_size m : is_leaf t m = true -> tb_size Z m = tb_size X m.
  Proof.
    intros Hl. pose proof (leaf_node t r V m Hl) as Hm. destruct (Nat.eq_dec m n) as [->|Hne].
    - destruct (g_node _ _ _ _ _ _ _ H) as [Ha [E|(El & En & Ea)]].
      + destruct (ga_heads_n E) as (E1 & E2 & E3). unfold tb_size. rewrite E3, Ha, E.
        pose proof (heads_leaf X r O n Hl Ha) as Hh. rewrite Hh. auto.
      + rewrite <- Ea. unfold tb_size. rewrite En, ga_tree, (parent_edge t r T p n ga_edge).
        unfold t. rewrite (child_index X r O p n ga_edge). apply ga_nth_p.
    - unfold tb_size. rewrite ga_active, ga_tree by auto. destruct (active X m) eqn:Ha.
      + destruct (Nat.eq_dec m p) as [E|Hp]; [rewrite E, ga_p_internal in Hl; discriminate|].
        rewrite (g_other _ _ _ _ _ _ _ H); auto.
      + destruct (Nat.eq_dec m r) as [E|Hr]; [rewrite E, (ok_root X r O) in Ha; discriminate|].
        pose proof (parent_is_edge t r T m Hm Hr) as He. fold t.
        pose proof (child_index X r O (parent t m) m He) as Hci. fold t in Hci. rewrite Hci.
        destruct (Nat.eq_dec (parent t m) n) as [Ep|Hpn].
        { rewrite Ep in *. assert (Hi : is_leaf t n = false).
          { destruct (is_leaf t n) eqn:El; auto. apply (leaf_iff t r V) in El. exfalso. apply (proj2 El m He). }
          destruct (g_node _ _ _ _ _ _ _ H) as [Han [E|(El & _)]]; [|fold t in El; congruence].
          assert (Hin : In m (children t n)) by (apply in_children; auto; apply ga_nn).
          apply index_of_nth in Hin. destruct Hin as [Hin _].
          pose proof (ok_heads_length X r O n ga_nn Han) as L. unfold arity_at in L. fold t in L. rewrite Hi in L.
          rewrite E, app_nth1 by lia. rewrite (ok_shape X n) by (auto; apply ga_nn). rewrite app_nth1 by lia. auto. }
        apply ga_nth; [apply He|auto|apply ga_sib; auto].
  Qed.
  Lemma ga_shape : tb_shape Z = tb_shape X.
  Proof.
    unfold tb_shape. rewrite ga_tree. apply map_ext_in. intros m Hm. apply ga_size. apply inb_spec. auto.
  Qed.
  Lemma ga_csize m : node t m -> m <> n -> m <> r -> csize Z m = csize X m.
  Proof.
    intros Hm Hne Hr. unfold csize. rewrite ga_active by auto. destruct (active X m) eqn:Ha.
    - destruct (ga_last m Hm Hne Ha); auto. contradiction.
    - apply ga_size. destruct (is_leaf t m) eqn:E; auto. rewrite (ok_internal X r O m Hm E) in Ha. discriminate.
  Qed.
  Lemma ga_csize_n : csize Z n = a.
  Proof.
    unfold csize. destruct (g_node _ _ _ _ _ _ _ H) as [Ha [E|(El & En & Ea)]].
    - destruct (ga_heads_n E) as (_ & _ & E3). rewrite E3, E, last_last. auto.
    - rewrite En, ga_size by auto. auto.
  Qed.
  Lemma ga_csize_Xn : csize X n = b.
  Proof.
    rewrite <- (csize_nth X r O p n ga_edge). destruct (g_parent _ _ _ _ _ _ _ H) as (s1 & s2 & L & H1 & _). fold t in L. fold t. rewrite H1, <- L, app_nth2, Nat.sub_diag by lia. auto.
  Qed.
  Lemma ga_below_other m x : node t m -> ~ below t m p -> below t m x -> x <> n \/ m = n.
  Proof.
    intros Hm Hb Hx. destruct (Nat.eq_dec x n) as [->|]; auto. right. destruct Hx as [d Hd]. destruct d.
    - apply depth_inv0 in Hd. auto.
    - apply depth_invS in Hd. destruct Hd as (q & Hq & He). apply ga_child in He. subst q. exfalso. apply Hb. exists d. auto.
  Qed.
  Lemma ga_tval_p is e : valid (tb_shape X) is -> valid (exts X p) e -> tval Z p is e = tval X p is e.
  Proof.
    intros Hi He. destruct (children_split X p n ga_edge) as (cs1 & cs2 & Hch & Hlen & Hn1 & Hn2). fold t in Hch, Hlen.
    assert (HchZ : children (ttree Z) p = cs1 ++ n :: cs2) by (rewrite ga_tree; auto).
    assert (Hoth : forall x, In x (cs1 ++ cs2) -> In x (children t p) /\ x <> n).
    { intros x Hx. split; [rewrite Hch; apply in_app_iff in Hx; apply in_or_app; simpl; tauto|].
      intros ->. apply in_app_iff in Hx. tauto. }
    rewrite (tval_split Z r ga_ok p n cs1 cs2); rewrite ?ga_tree; auto; [|apply ga_np|apply ga_p_internal].
    rewrite (tval_split X r O p n cs1 cs2); auto; [|apply ga_np|apply ga_p_internal].
    rewrite ga_csize_n, ga_csize_Xn.
    assert (Hcs : map (csize Z) cs1 = map (csize X) cs1 /\ map (csize Z) cs2 = map (csize X) cs2).
    { split; apply map_ext_in; intros x Hx;
        (assert (Hx' : In x (cs1 ++ cs2)) by (apply in_or_app; auto)); destruct (Hoth x Hx') as [Hxc Hxn]; apply in_children in Hxc; try apply ga_np;
        (apply ga_csize; [apply Hxc|auto|apply (edge_ne t r T p x Hxc)]). }
    destruct Hcs as [Hcs1 Hcs2].
    destruct (g_parent _ _ _ _ _ _ _ H) as (s1 & s2 & L & H1 & H2 & H3). fold t in L.
    assert (Eh : shape (core X p) = map (csize X) cs1 ++ csize X n :: map (csize X) cs2 ++ exts X p).
    { rewrite (ok_shape X p ga_np ga_active_p). rewrite (heads_internal X r O p ga_np ga_p_internal). fold t. rewrite Hch, map_app. cbn [map].
      rewrite <- app_assoc. auto. }
    assert (Es : s1 = map (csize X) cs1 /\ s2 = map (csize X) cs2 ++ exts X p).
    { rewrite Eh in H1. assert (Hl1 : length (map (csize X) cs1) = length s1) by (rewrite map_length, Hlen, L; auto).
      assert (G1 : forall (a b : list nat) x y c d, length a = length b -> a ++ x :: c = b ++ y :: d -> b = a /\ d = c).
      { induction a0; intros [|b0 b'] x y c0 d Hab Ead; simpl in *; try lia; [inversion Ead; auto|].
        inversion Ead; subst. destruct (IHa0 b' x y c0 d) as (-> & ->); auto. }
      apply (G1 _ _ _ _ _ _ Hl1) in H1. auto. }
    destruct Es as (-> & ->).
    assert (Hctx : forall k', (k' < a)%nat -> ctx Z p cs1 cs2 is e k' = rsum b (fun k => G k' k * ctx X p cs1 cs2 is e k)).
    { intros k' Hk'. unfold ctx. rewrite Hcs1, Hcs2.
      etransitivity; [|symmetry; apply rsum_ext; intros k Hk; rewrite <- bsum_scal_l; reflexivity].
      rewrite <- bsum_rsum_exchange. apply bsum_ext. intros ks1 Hk1.
      etransitivity; [|symmetry; apply rsum_ext; intros k Hk; rewrite <- bsum_scal_l; reflexivity].
      rewrite <- bsum_rsum_exchange. apply bsum_ext. intros ks2 Hk2.
      rewrite H3; auto; [|apply valid_app; auto]. rewrite <- rsum_scal_r. apply rsum_ext. intros k Hk.
      assert (Hpr : forall cs ks, (forall x, In x cs -> In x (cs1 ++ cs2)) -> lprod (combine cs ks) (fun q => tval Z (fst q) is [snd q]) = lprod (combine cs ks) (fun q => tval X (fst q) is [snd q])).
      { intros cs ks Hcs. apply lprod_ext. intros [x k0] Hx. apply in_combine_l in Hx. cbn [fst snd]. apply Hcs in Hx. destruct (Hoth x Hx) as [Hxc Hxn].
        apply in_children in Hxc; [|apply ga_np]. apply (tval_same_below X Z r x V ga_tree); [apply Hxc|]. intros m Hm Hb.
        assert (Hbp : ~ below t x p).
        { intros [d Hd]. pose proof (level_below t r T x p d (proj1 (proj2 Hxc)) Hd) as HL. rewrite (level_edge t r T _ _ Hxc) in HL. lia. }
        apply (g_other _ _ _ _ _ _ _ H); auto.
        - destruct (ga_below_other x m (proj1 (proj2 Hxc)) Hbp Hb); [auto|contradiction].
        - intros ->. auto. }
      rewrite !Hpr by (intros; apply in_or_app; auto). ring. }
    etransitivity; [apply rsum_ext; intros k' Hk'; rewrite Hctx by auto; rewrite <- rsum_scal_l; reflexivity|].
    rewrite rsum_exchange. apply rsum_ext. intros k Hk. rewrite <- (g_val _ _ _ _ _ _ _ H is Hi k Hk). rewrite <- rsum_scal_r. apply rsum_ext. intros k' _. ring.
  Qed.
  Lemma ga_tval is e : valid (tb_shape X) is -> valid (exts X r) e -> tval Z r is e = tval X r is e.
  Proof.
    intros Hi He. apply (tval_cut X Z r (fun m => m <> n) is O ga_tree).
    - intros m Hm Hne. destruct (Nat.eq_dec m p) as [->|Hp].
      + left. intros e' He'. apply ga_tval_p; auto. unfold rank_index in He'. destruct (Nat.eqb_spec p r) as [E|Hpr].
        * rewrite E at 1. auto.
        * destruct He' as (k & -> & Hk). rewrite (ok_exts_rank X r O p ga_np ga_active_p Hpr). unfold csize in Hk. rewrite ga_active_p in Hk. constructor; auto.
      + right. split; [apply (g_other _ _ _ _ _ _ _ H); auto|]. intros c He' Ec. subst c. apply Hp, ga_child, He'.
    - apply T.
    - intros E. symmetry in E. apply (ga_nr E).
    - unfold rank_index. rewrite Nat.eqb_refl. auto.
  Qed.
  Lemma ga_exts_root : exts Z r = exts X r.
  Proof. apply ga_exts; [apply T|]. intros E. symmetry in E. apply (ga_nr E). Qed.
End Gauge.
