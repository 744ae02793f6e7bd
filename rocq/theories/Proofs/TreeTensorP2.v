(** Tree-based tensors: full() computes the value. *)
From Coq Require Import List Arith Lia Bool ZArith Ring Permutation.
From Verif.Base Require Import ListAux CRing Index.
From Verif.Model Require Import Sorting Numpy FullTensor DimensionTree TreeBased.
From Verif.Spec Require Import TensorSpec TreeSpec TreeTensorSpec.
From Verif.Proofs Require Import NumpyP FullTensorP FullTensorP2 FullTensorP3 FullTensorP4 DimTreeP DimTreeP2 TreeTensorP.
Import ListNotations.

Lemma combine_snoc {A B} (l : list A) (m : list B) a b : length l = length m -> combine (l ++ [a]) (m ++ [b]) = combine l m ++ [(a, b)].
Proof. revert m; induction l as [|x l IH]; intros [|y m] H; simpl in *; try lia; auto. rewrite IH by lia. auto. Qed.
Lemma combine_app {A B} (l1 l2 : list A) (m1 m2 : list B) : length l1 = length m1 -> combine (l1 ++ l2) (m1 ++ m2) = combine l1 m1 ++ combine l2 m2.
Proof. revert m1; induction l1 as [|x l IH]; intros [|y m] H; simpl in *; try lia; auto. rewrite IH by lia. auto. Qed.

Section Full.
  Context {R : Type} {CR : CRing R}.
  Add Ring Rrf : rth.
  Local Open Scope cr_scope.
  Variables (X : tbt R) (r : nat).
  Hypothesis O : tb_ok X r.
  Let t := ttree X.
  Let V : dim_tree t r := proj1 O.
  Let T : rooted_tree t r := proj1 V.
  Let shp := tb_shape X.

  Definition fullQ (n : nat) (a : nd R * list nat) : Prop :=
    Permutation (snd a) (dims t n) /\
    (active X n = true -> shape (fst a) = sel 0%nat shp (snd a) ++ exts X n /\
       forall is e, valid shp is -> valid (exts X n) e -> get (fst a) (sel 0%nat is (snd a) ++ e) = tval X n is e).

  Lemma dims_lt n mu : node t n -> In mu (dims t n) -> (mu < length shp)%nat.
  Proof. intros Hn Hi. unfold shp. rewrite tb_shape_length. apply (in_dims t r V) in Hi; auto. tauto. Qed.
  Lemma sel_dims_valid n D is : node t n -> Permutation D (dims t n) -> valid shp is -> valid (sel 0%nat shp D) (sel 0%nat is D).
  Proof.
    intros Hn HD Hv. apply sel_valid; auto. apply Forall_forall. intros x Hx. apply dims_lt with (n := n); auto.
    eapply Permutation_in; eauto.
  Qed.

  Definition fullInv (n : nat) (cs1 cs2 : list nat) (a : nd R * list nat) : Prop :=
    Permutation (snd a) (flat_map (dims t) cs1) /\
    shape (fst a) = sel 0%nat shp (snd a) ++ map (csize X) cs2 ++ exts X n /\
    forall is ks2 e, valid shp is -> valid (map (csize X) cs2) ks2 -> valid (exts X n) e ->
      get (fst a) (sel 0%nat is (snd a) ++ ks2 ++ e) =
      bsum (map (csize X) cs1) (fun ks1 => get (core X n) (ks1 ++ ks2 ++ e) *
         lprod (combine cs1 ks1) (fun p => tval X (fst p) is [snd p])).

  Lemma full_child_step n s cs1 c cs2 a : node t n -> is_leaf t n = false -> children t n = cs1 ++ c :: cs2 ->
    fullQ c (nth (c - 1) s (no_core, [])) -> fullInv n cs1 (c :: cs2) a ->
    exists a', full_child X s a c = Some a' /\ fullInv n (cs1 ++ [c]) cs2 a'.
  Proof.
    intros Hn Hl Hch [Q1 Q2] (I1 & I2 & I3). destruct a as [Tn D]. unfold full_child.
    destruct (nth (c - 1) s (no_core, [])) as [Tc Dc] eqn:Es. cbn [fst snd] in *.
    assert (He : edge t n c) by (apply in_children; auto; rewrite Hch; apply in_or_app; simpl; auto).
    assert (Hcn : node t c) by apply He.
    assert (Hcr : c <> r) by (intros ->; eapply (rt_no_edge t r T); eauto).
    assert (Hsel : forall cs (D' : list nat) is, Permutation D' (flat_map (dims t) cs) -> (forall x, In x cs -> In x (children t n)) ->
       valid shp is -> valid (sel 0%nat shp D') (sel 0%nat is D')).
    { intros cs D' is HD Hcs Hv. apply sel_valid; auto. apply Forall_forall. intros x Hx.
      apply (Permutation_in _ HD) in Hx. apply in_flat_map in Hx. destruct Hx as (y & Hy1 & Hy2).
      apply dims_lt with (n := y); auto. apply Hcs in Hy1. apply in_children' in Hy1. tauto. }
    assert (Hsub : forall x, In x cs1 -> In x (children t n)) by (intros; rewrite Hch; apply in_or_app; auto).
    destruct (active X c) eqn:Ha.
    - destruct (Q2 eq_refl) as [S1 S2]. pose proof (ok_exts_rank X r O c Hcn Ha Hcr) as Ec. fold t in Ec.
      assert (Ecs : csize X c = last (shape (core X c)) 0%nat) by (unfold csize; rewrite Ha; auto).
      rewrite Ec in S1. rewrite <- Ecs in S1.
      destruct (td_single Tc Tn (sel 0%nat shp Dc) [] (sel 0%nat shp D) (map (csize X) cs2 ++ exts X n) (csize X c) S1 I2)
        as (C & C1 & C2 & C3).
      assert (N1 : (ndim Tc - 1)%nat = length (sel 0%nat shp Dc)) by (unfold ndim; rewrite S1, app_length; simpl; lia).
      assert (N2 : length D = length (sel 0%nat shp D)) by (rewrite sel_length; auto).
      exists (C, Dc ++ D). rewrite N1, N2, C1. cbn [bind]. split; auto.
      split; [|split]; cbn [fst snd].
      + rewrite flat_map_app. cbn [flat_map]. rewrite app_nil_r, Permutation_app_comm. apply Permutation_app; auto.
      + rewrite C2, app_nil_r, sel_app_ks, <- app_assoc. auto.
      + intros is ks2 e Hv Hk He'. rewrite sel_app_ks, <- app_assoc, <- (app_nil_r (sel 0%nat is Dc)).
        rewrite C3; [|eapply sel_dims_valid; eauto|constructor|eapply Hsel; eauto|apply valid_app; auto].
        rewrite map_app, bsum_app. cbn [map bsum].
        transitivity (rsum (csize X c) (fun k => tval X c is [k] * bsum (map (csize X) cs1) (fun ks1 => get (core X n) (ks1 ++ (k :: ks2) ++ e) *
           lprod (combine cs1 ks1) (fun p => tval X (fst p) is [snd p])))).
        * apply rsum_ext. intros k Hk'. rewrite S2; [|auto|rewrite Ec, <- Ecs; constructor; auto].
          f_equal. rewrite (app_comm_cons ks2 e k). rewrite I3; auto. constructor; auto.
        * rewrite bsum_rsum_exchange. apply rsum_ext. intros k Hk'. rewrite <- bsum_scal_l. apply bsum_ext.
          intros ks1 Hks1. rewrite combine_snoc by (apply Forall2_length' in Hks1; rewrite map_length in Hks1; lia).
          rewrite lprod_app. cbn [lprod fst snd]. rewrite <- !app_assoc. cbn [app]. ring.
    - assert (Hlc : is_leaf t c = true).
      { destruct (is_leaf t c) eqn:E; auto. rewrite (ok_internal X r O c Hcn E) in Ha. discriminate. }
      rewrite (dims_leaf t r V c Hlc) in Q1.
      set (mu := index_of c (d2i t)) in *.
      assert (EDc : Dc = [mu]) by (apply Permutation_sym in Q1; apply Permutation_length_1_inv in Q1; auto). rewrite EDc in *. clear EDc.
      assert (Ecs : csize X c = nth mu shp 0%nat).
      { unfold csize. rewrite Ha. unfold shp, mu. symmetry. apply (tb_shape_leaf X); auto. }
      exists (Tn, D ++ [mu]). split; auto. split; [|split]; cbn [fst snd].
      + rewrite flat_map_app. cbn [flat_map]. rewrite app_nil_r. rewrite (dims_leaf t r V c Hlc). apply Permutation_app; auto.
      + rewrite I2, sel_app_ks, <- app_assoc. unfold sel at 3. cbn [map app]. rewrite Ecs. auto.
      + intros is ks2 e Hv Hk He'. rewrite sel_app_ks, <- app_assoc. unfold sel at 2. cbn [map app].
        assert (Hmu : (nth mu is 0 < csize X c)%nat).
        { rewrite Ecs. apply valid_nth; auto. apply dims_lt with (n := c); auto. rewrite (dims_leaf t r V c Hlc). simpl; auto. }
        rewrite (app_comm_cons ks2 e). rewrite I3; auto; [|constructor; auto].
        rewrite map_app, bsum_app. cbn [map bsum]. apply bsum_ext. intros ks1 Hks1.
        rewrite (rsum_single (csize X c) (nth mu is 0%nat)); auto.
        * rewrite combine_snoc by (apply Forall2_length' in Hks1; rewrite map_length in Hks1; lia).
          rewrite lprod_app. cbn [lprod fst snd]. rewrite (tval_inactive X r V c) by auto. fold t. fold mu.
          rewrite list_eqb_refl, <- !app_assoc. cbn [app]. ring.
        * intros k Hk' Hne. rewrite combine_snoc by (apply Forall2_length' in Hks1; rewrite map_length in Hks1; lia).
          rewrite lprod_app. cbn [lprod fst snd]. rewrite (tval_inactive X r V c) by auto. fold t. fold mu.
          destruct (list_eqb [k] [nth mu is 0%nat]) eqn:E; [|ring]. apply list_eqb_spec in E. congruence.
  Qed.
  Lemma full_child_loop n s : node t n -> is_leaf t n = false ->
    (forall c, edge t n c -> fullQ c (nth (c - 1) s (no_core, []))) ->
    forall cs2 cs1 a, children t n = cs1 ++ cs2 -> fullInv n cs1 cs2 a ->
    exists a', ofold (full_child X s) cs2 a = Some a' /\ fullInv n (children t n) [] a'.
  Proof.
    intros Hn Hl HQ. induction cs2 as [|c cs2 IH]; intros cs1 a Hch Hi.
    - exists a. rewrite app_nil_r in Hch. rewrite Hch. auto.
    - destruct (full_child_step n s cs1 c cs2 a Hn Hl Hch) as (a' & E & Hi'); auto.
      { apply HQ. apply in_children; auto. rewrite Hch. apply in_or_app; simpl; auto. }
      cbn [ofold]. rewrite E. apply IH with (cs1 := cs1 ++ [c]); auto. rewrite <- app_assoc. auto.
  Qed.
  Lemma fullQ_leaf n : is_leaf t n = true -> fullQ n (core X n, dims t n).
  Proof.
    intros Hl. split; cbn [fst snd]; auto. intros Ha. assert (Hn : node t n) by (apply (leaf_node t r V); auto).
    rewrite (dims_leaf t r V n Hl). split.
    - rewrite (ok_shape X n) at 1 by auto. f_equal. rewrite (heads_leaf X r O n Hl Ha). unfold sel. cbn [map]. f_equal.
      unfold shp. rewrite (tb_shape_leaf X) by auto. unfold tb_size. rewrite Ha. auto.
    - intros is e Hv He. unfold sel. cbn [map app]. rewrite (tval_leaf X r V) by auto. auto.
  Qed.
  Lemma full_node_ok n s : node t n -> length s = nbn t -> nth (n - 1) s (no_core, []) = (core X n, dims t n) ->
    (forall c, edge t n c -> fullQ c (nth (c - 1) s (no_core, []))) ->
    exists a, full_node X s n = Some a /\ fullQ n a.
  Proof.
    intros Hn HL Hs HQ. unfold full_node. fold t. rewrite Hs. cbn [fst]. destruct (is_leaf t n) eqn:Hl.
    - eexists; split; [reflexivity|apply fullQ_leaf; auto].
    - destruct (full_child_loop n s Hn Hl HQ (children t n) [] (core X n, [])) as (a & E & I1 & I2 & I3); auto.
      + split; [|split]; cbn [fst snd]; auto.
        * cbn [sel map app]. pose proof (heads_internal X r O n Hn Hl) as Hh. fold t in Hh. rewrite <- Hh. apply (ok_shape X n); auto. apply (ok_internal X r O); auto.
        * intros is ks2 e Hv Hk He. cbn [map bsum combine lprod sel app]. ring.
      + exists a. split; auto. split; [rewrite (dims_internal t r V n Hn Hl); auto|]. intros Ha.
        cbn [map app] in I2. split; auto.
        intros is e Hv He. rewrite (tval_internal X r V n is e Hn Hl). rewrite (heads_internal X r O n Hn Hl).
        apply (I3 is [] e Hv (Forall2_nil _) He).
  Qed.

  Lemma tb_full_ok : (2 <= tb_order X)%nat ->
    returns (tb_full X) (tb_shape X ++ exts X r) (fun is => tval X r (firstn (tb_order X) is) (skipn (tb_order X) is)).
  Proof.
    intros Hord. unfold tb_full. fold t. destruct (Nat.eqb_spec (tb_order X) 1); [lia|].
    set (s0 := map (fun n => (core X n, dims t n)) (nodes t)).
    assert (L0 : length s0 = nbn t) by (unfold s0, nodes; rewrite map_length, seq_length; auto).
    assert (N0 : forall n, node t n -> nth (n - 1) s0 (no_core, []) = (core X n, dims t n)).
    { intros n0 Hn. unfold s0, nodes, node in *. rewrite map_nth_in with (da := 0%nat) by (rewrite seq_length; lia).
      rewrite seq_nth by lia. replace (1 + (n0 - 1))%nat with n0 by lia. auto. }
    destruct (bottom_up_local t r T (no_core, []) (full_node X) fullQ s0 L0) as (s' & E & HL & HQ).
    { intros m s Hm HLs Hs Hc. rewrite N0 in Hs by auto. apply full_node_ok; auto. }
    rewrite E. cbn [bind]. rewrite (root_eq t r T). assert (Hr : node t r) by apply T.
    destruct (HQ r Hr) as [Q1 Q2]. destruct (nth (r - 1) s' (no_core, [])) as [Tn D] eqn:Es. cbn [fst snd] in *.
    destruct (Q2 (ok_root X r O)) as [S1 S2]. clear Q2.
    assert (LD : length D = tb_order X).
    { rewrite (Permutation_length Q1). apply is_perm_length. apply (dims_root t r V). }
    assert (PD : is_perm (tb_order X) D) by (eapply Permutation_trans; [exact Q1|apply (dims_root t r V)]).
    assert (NT : ndim Tn = (tb_order X + length (exts X r))%nat) by (unfold ndim; rewrite S1, app_length, sel_length, LD; auto).
    set (D' := if (tb_order X <? ndim Tn)%nat then D ++ seq (tb_order X) (ndim Tn - tb_order X) else D).
    assert (ED' : D' = D ++ seq (tb_order X) (length (exts X r))).
    { unfold D'. destruct (Nat.ltb_spec (tb_order X) (ndim Tn)); rewrite NT in *.
      - f_equal. f_equal. lia.
      - assert (length (exts X r) = 0%nat) by lia. rewrite H0. simpl. rewrite app_nil_r. auto. }
    assert (PD' : is_perm (ndim Tn) D').
    { rewrite ED', NT. unfold is_perm. rewrite seq_app. apply Permutation_app; auto. }
    destruct (Nat.ltb_spec 1 (ndim Tn)); [|lia].
    unfold ft_itranspose. rewrite (np_argsort_perm _ _ PD').
    destruct (ft_transpose_spec Tn (inv_perm D') (inv_perm_is_perm _ _ PD')) as (B & HB1 & HB2 & _ & HB4).
    exists B. split; auto.
    assert (LS : length (tb_shape X) = tb_order X) by (apply tb_shape_length).
    assert (SD : forall (l1 l2 : list nat), length l1 = tb_order X -> length l2 = length (exts X r) ->
               sel 0%nat (l1 ++ l2) D' = sel 0%nat l1 D ++ l2).
    { intros l1 l2 H1 H2. rewrite ED', sel_app_ks. f_equal.
      - unfold sel. apply map_ext_in. intros k Hk. apply (is_perm_in _ _ _ PD) in Hk. rewrite app_nth1; auto. lia.
      - rewrite <- H1, <- H2. pose proof (sel_seq_mid 0%nat l1 l2 []) as Hq. rewrite app_nil_r in Hq. auto. }
    assert (Lex : length (tb_shape X ++ exts X r) = ndim Tn) by (rewrite app_length, LS; auto).
    assert (SB : shape B = tb_shape X ++ exts X r).
    { rewrite HB2, S1. fold shp. unfold shp. rewrite <- SD by auto. apply (sel_inv_perm 0%nat (ndim Tn)); auto. }
    split; auto. intros is Hv. rewrite SB in HB4. destruct (HB4 is Hv) as [G1 G2]. rewrite G1.
    rewrite (inv_perm_inv _ _ PD').
    apply valid_app_inv in Hv. destruct Hv as (i1 & i2 & -> & V1 & V2).
    rewrite SD by (rewrite ?(valid_length _ _ V1), ?(valid_length _ _ V2); auto).
    assert (L1 : length i1 = tb_order X) by (rewrite (valid_length _ _ V1); auto).
    rewrite <- L1, firstn_app, firstn_all, Nat.sub_diag, skipn_app, skipn_all, Nat.sub_diag. cbn [firstn skipn app]. rewrite app_nil_r.
    apply S2; auto.
  Qed.
End Full.
