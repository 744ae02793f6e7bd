(** Tree-based tensors: activation, inactivation, orthogonalisation. *)
From Coq Require Import List Arith Lia Bool ZArith Ring Permutation.
From Verif.Base Require Import ListAux CRing Index.
From Verif.Model Require Import Sorting Numpy FullTensor DimensionTree TreeBased.
From Verif.Spec Require Import TensorSpec TreeSpec TreeTensorSpec.
From Verif.Proofs Require Import NumpyP FullTensorP FullTensorP2 FullTensorP3 FullTensorP4 DimTreeP DimTreeP2 TreeTensorP TreeTensorP2 TreeTensorP3 TreeTensorP4 TreeTensorP5 TreeTensorP6.
Import ListNotations.

Section Act.
  Context {R : Type} {CR : CRing R}.
  Add Ring Rract : rth.
  Local Open Scope cr_scope.

  (** same represented tensor *)
  Definition same_val (X Z : tbt R) (r : nat) : Prop :=
    tb_ok Z r /\ ttree Z = ttree X /\ tb_shape Z = tb_shape X /\ exts Z r = exts X r /\
    forall is e, valid (tb_shape X) is -> valid (exts X r) e -> tval Z r is e = tval X r is e.
  Lemma same_val_refl X r : tb_ok X r -> same_val X X r.
  Proof. intros O. unfold same_val. auto. Qed.
  Lemma same_val_trans X Y Z r : same_val X Y r -> same_val Y Z r -> same_val X Z r.
  Proof.
    intros (O1 & T1 & S1 & E1 & V1) (O2 & T2 & S2 & E2 & V2). split; auto. split; [congruence|]. split; [congruence|]. split; [congruence|].
    intros is e Hi He. rewrite V2, V1 by congruence. auto.
  Qed.
  Lemma gauge_same X Z r p n a b G : tb_ok X r -> gauge X Z p n a b G -> same_val X Z r.
  Proof.
    intros O H. split; [apply (ga_ok X Z r p n a b G O H)|]. split; [apply H|]. split; [apply (ga_shape X Z r p n a b G O H)|].
    split; [apply (ga_exts_root X Z r p n a b G O H)|]. apply (ga_tval X Z r p n a b G O H).
  Qed.
  Lemma same_val_full X Z r A : tb_ok X r -> (2 <= tb_order X)%nat -> tb_full X = Some A -> same_val X Z r ->
    returns (tb_full Z) (shape A) (get A).
  Proof.
    intros O H2 HA (OZ & TZ & SZ & EZ & VZ). destruct (full_inv X r A O H2 HA) as [HsA HgA]. apply (full_returns Z r); auto.
    - unfold tb_order. rewrite TZ. exact H2.
    - congruence.
    - rewrite SZ, EZ. intros is e Hi He. rewrite HgA, VZ by auto. auto.
  Qed.

  (** the inverse permutation that puts the first axis at position k *)
  Lemma itranspose_front (C : nd R) s1 s2 m : shape C = m :: s1 ++ s2 ->
    exists D, ft_itranspose C (length s1 :: compl (ndim C) [length s1]) = Some D /\ shape D = s1 ++ m :: s2 /\
      forall a1 i a2, length a1 = length s1 -> length a2 = length s2 -> get D (a1 ++ i :: a2) = get C (i :: a1 ++ a2).
  Proof.
    intros Hs. assert (Hn : ndim C = length (s1 ++ m :: s2)) by (unfold ndim; rewrite Hs; simpl; rewrite !app_length; simpl; lia).
    assert (Hlt : (length s1 < ndim C)%nat) by (rewrite Hn, app_length; simpl; lia).
    assert (Hp : is_perm (ndim C) (length s1 :: compl (ndim C) [length s1])).
    { unfold is_perm. eapply Permutation_trans; [apply (Permutation_app_comm [length s1])|]. apply compl_app_perm; [apply NoDup_single|apply Forall_lt_single; auto]. }
    assert (Hsel : forall a1 i a2, length a1 = length s1 -> length a2 = length s2 ->
       sel 0%nat (a1 ++ i :: a2) (length s1 :: compl (ndim C) [length s1]) = i :: a1 ++ a2).
    { intros a1 i a2 L1 L2. rewrite Hn. change (sel 0%nat (a1 ++ i :: a2) (length s1 :: ?l)) with (nth (length s1) (a1 ++ i :: a2) 0%nat :: sel 0%nat (a1 ++ i :: a2) l).
      rewrite <- L1 at 1. rewrite app_nth2, Nat.sub_diag by lia. cbn [nth]. f_equal.
      replace (length (s1 ++ m :: s2)) with (length (a1 ++ i :: a2)) by (rewrite !app_length; simpl; lia). rewrite <- L1. apply sel_compl1. }
    rewrite ft_itranspose_eq by auto. eexists. split; [reflexivity|]. cbn [shape get]. split.
    - rewrite Hs, <- (Hsel s1 m s2) by auto. apply sel_inv_perm with (n := ndim C); auto.
    - intros a1 i a2 L1 L2. f_equal. apply Hsel; auto.
  Qed.

  (** * inactivation *)
  Lemma axis_of_child X r p n : tb_ok X r -> edge (ttree X) p n -> exists s1 s2, length s1 = index_of n (children (ttree X) p) /\
    shape (core X p) = s1 ++ csize X n :: s2.
  Proof.
    intros O He. pose proof (csize_nth X r O p n He) as Hc.
    assert (Hin : In n (children (ttree X) p)) by (apply in_children; auto; apply He). apply index_of_nth in Hin.
    assert (Hl : is_leaf (ttree X) p = false).
    { destruct (is_leaf (ttree X) p) eqn:E; auto. apply (leaf_iff _ r (proj1 O)) in E. exfalso. apply (proj2 E n He). }
    pose proof (ok_arity X r O p (proj1 He) (ok_internal X r O p (proj1 He) Hl)) as HA. unfold arity_at in HA. rewrite Hl in HA. unfold ndim in HA.
    exists (firstn (index_of n (children (ttree X) p)) (shape (core X p))), (skipn (S (index_of n (children (ttree X) p))) (shape (core X p))).
    split; [rewrite firstn_length; lia|]. rewrite <- Hc. apply list_split_nth. lia.
  Qed.
  Lemma leaf_core_shape X r n : tb_ok X r -> is_leaf (ttree X) n = true -> active X n = true -> n <> r ->
    shape (core X n) = [tb_size X n; csize X n].
  Proof.
    intros O Hl Ha Hr. pose proof (leaf_node _ r (proj1 O) n Hl) as Hn. rewrite (ok_shape X n Hn Ha), (heads_leaf X r O n Hl Ha), (ok_exts_rank X r O n Hn Ha Hr).
    unfold tb_size, csize. rewrite Ha. auto.
  Qed.
  Lemma inactivate_gauge X r n : tb_ok X r -> (2 <= tb_order X)%nat -> is_leaf (ttree X) n = true -> active X n = true ->
    exists P l', let p := parent (ttree X) n in
      (let* P := ft_tensordot (core X n) (core X p) [(ndim (core X n) - 1)%nat] [(child_number (ttree X) n - 1)%nat] in
       let* P := ft_itranspose P ((child_number (ttree X) n - 1)%nat :: compl (ndim P) [(child_number (ttree X) n - 1)%nat]) in Some P) = Some P /\
      l' = setc n no_core (setc p P (cores X)) /\
      gauge X (TB (ttree X) l') p n (tb_size X n) (csize X n) (fun i j => get (core X n) [i; j]).
  Proof.
    intros O H2 Hl Ha. pose proof (proj1 O) as V. pose proof (proj1 V) as T. pose proof (leaf_node _ r V n Hl) as Hn.
    assert (Hr : n <> r) by (intros E; pose proof (root_not_leaf X r O H2); congruence).
    pose proof (parent_is_edge _ r T n Hn Hr) as He. set (p := parent (ttree X) n) in *.
    pose proof (leaf_core_shape X r n O Hl Ha Hr) as Hsn.
    destruct (axis_of_child X r p n O He) as (s1 & s2 & L1 & Hsp).
    rewrite (child_index X r O p n He), <- L1. unfold ndim at 1. rewrite Hsn. cbn [length].
    destruct (td_single (core X n) (core X p) [tb_size X n] [] s1 s2 (csize X n) Hsn Hsp) as (C & HC & HsC & HgC). cbn [length] in HC.
    change (2 - 1)%nat with 1%nat. rewrite HC. cbn [bind].
    rewrite app_nil_r in HsC. cbn [app] in HsC.
    destruct (itranspose_front C s1 s2 (tb_size X n) HsC) as (D & HD & HsD & HgD).
    rewrite HD. cbn [bind]. exists D, (setc n no_core (setc p D (cores X))). split; auto. split; auto.
    pose proof (ok_cores_length X r O) as LC.
    assert (Hpn : p <> n) by (intros E; pose proof (level_edge _ r T p n He) as HL; rewrite E in HL; lia).
    assert (Hpp : node (ttree X) p) by apply He. unfold node in Hn, Hpp.
    assert (Hcore : forall m, (1 <= m)%nat -> core (TB (ttree X) (setc n no_core (setc p D (cores X)))) m = if m =? n then no_core else if m =? p then D else core X m).
    { intros m Hm. unfold core. cbn [cores]. rewrite nthc_setc by (rewrite ?setc_length; lia). destruct (Nat.eqb_spec m n); auto. apply nthc_setc; lia. }
    assert (Hcn : core (TB (ttree X) (setc n no_core (setc p D (cores X)))) n = no_core) by (rewrite Hcore, Nat.eqb_refl by lia; auto).
    assert (Hcp : core (TB (ttree X) (setc n no_core (setc p D (cores X)))) p = D).
    { rewrite Hcore by lia. destruct (Nat.eqb_spec p n); [contradiction|]. rewrite Nat.eqb_refl. auto. }
    assert (Han : active (TB (ttree X) (setc n no_core (setc p D (cores X)))) n = false).
    { unfold active, activec. fold (core (TB (ttree X) (setc n no_core (setc p D (cores X)))) n). change (nthc ?l n) with (core (TB (ttree X) l) n). rewrite Hcn. auto. }
    constructor; auto.
    - cbn [cores]. rewrite !setc_length. auto.
    - intros m Hm Hne Hne2. rewrite Hcore by apply Hm. destruct (Nat.eqb_spec m n); [contradiction|]. destruct (Nat.eqb_spec m p); [contradiction|auto].
    - pose proof (active_pos X n 0 Ha) as HP. unfold ndim in HP. rewrite Hsn in HP. apply HP. simpl. lia.
    - exists s1, s2. rewrite Hcp. split; auto. split; auto. split; auto. intros a1 i a2 Ha1 Hi Ha2.
      rewrite HgD by (apply valid_length in Ha1, Ha2; auto).
      specialize (HgC [i] [] a1 a2). rewrite app_nil_r in HgC. cbn [app] in HgC. rewrite HgC; auto; constructor; auto.
    - intros is Hi k Hk. pose proof (valid_leaf_index X is n Hi Hl) as Hlt.
      assert (VZ : dim_tree (ttree (TB (ttree X) (setc n no_core (setc p D (cores X))))) r) by exact V.
      rewrite (rsum_single _ (nth (index_of n (d2i (ttree X))) is 0%nat)); auto.
      + rewrite (tval_inactive _ r VZ n) by auto. cbn [ttree]. rewrite list_eqb_refl. rewrite (tval_leaf X r V n) by auto. ring.
      + intros j Hj Hne. rewrite (tval_inactive _ r VZ n) by auto. cbn [ttree].
        destruct (list_eqb [j] _) eqn:E; [apply list_eqb_spec in E; congruence|ring].
  Qed.
  Lemma inactivate_fold X0 r ns : forall L X, tb_ok X r -> (2 <= tb_order X)%nat -> ttree X0 = ttree X -> NoDup L ->
    (forall n, In n ns -> is_leaf (ttree X) n = true) ->
    (forall n, In n L -> node (ttree X) n /\ active X n = active X0 n) ->
    exists l, ofold (tb_inactivate_step X0 ns) L (cores X) = Some l /\ same_val X (TB (ttree X) l) r /\
      forall n, node (ttree X) n -> active (TB (ttree X) l) n = active X n && negb (inb n ns && inb n L).
  Proof.
    induction L as [|n L IH]; intros X O H2 Et ND Hns HL.
    - exists (cores X). split; auto. split; [destruct X; apply same_val_refl; auto|]. intros n Hn. cbn. rewrite andb_false_r, andb_true_r. destruct X; auto.
    - inversion ND as [|? ? Hni ND']; subst. destruct (HL n) as [Hn Ha]; [simpl; auto|].
      cbn [ofold]. unfold tb_inactivate_step at 1. rewrite <- Ha, Et.
      destruct (inb n ns && active X n) eqn:E.
      + apply andb_true_iff in E. destruct E as [E1 E2].
        assert (Hl : is_leaf (ttree X) n = true) by (apply Hns, inb_spec; auto).
        destruct (inactivate_gauge X r n O H2 Hl E2) as (P & l' & HP & El & HG). cbv zeta in HP, El, HG.
        unfold core in HP.
        destruct (ft_tensordot (nthc (cores X) n) (nthc (cores X) (parent (ttree X) n)) _ _) as [P1|]; [|discriminate]. cbn [bind] in HP |- *.
        destruct (ft_itranspose P1 _) as [P2|]; [|discriminate]. cbn [bind] in HP |- *. injection HP as ->. rewrite <- El.
        set (X1 := TB (ttree X) l') in *.
        pose proof (gauge_same _ _ _ _ _ _ _ _ O HG) as S1.
        assert (Hact : forall m, node (ttree X) m -> m <> n -> active X1 m = active X m) by (intros; apply (ga_active _ _ r _ _ _ _ _ O HG); auto).
        assert (Han : active X1 n = false).
        { unfold X1, active, activec. cbn [cores]. rewrite El, nthc_setc, Nat.eqb_refl; auto.
          - rewrite setc_length, (ok_cores_length X r O). apply Hn.
          - apply Hn. }
        destruct (IH X1) as (l & Hf & S2 & A2); auto.
        * apply S1.
        * intros m Hm. destruct (HL m) as [Hm1 Hm2]; [simpl; auto|]. split; auto. rewrite Hact; auto. intros ->. auto.
        * exists l. split; auto. split; [eapply same_val_trans; eauto|]. intros m Hm. cbn [ttree X1] in A2. rewrite A2 by auto.
          cbn [inb existsb]. fold (inb m L). destruct (Nat.eq_dec m n) as [->|Hne].
          -- rewrite Han, E1, Nat.eqb_refl. cbn. rewrite andb_false_r. auto.
          -- rewrite Hact by auto. destruct (Nat.eqb_spec m n); [contradiction|]. auto.
      + destruct (IH X) as (l & Hf & S2 & A2); auto.
        { intros m Hm. apply HL. simpl; auto. }
        exists l. split; auto. split; auto. intros m Hm. rewrite A2 by auto. cbn [inb existsb]. fold (inb m L). destruct (Nat.eqb_spec m n) as [->|]; auto.
        cbn [orb]. destruct (inb n ns); cbn in E |- *; [rewrite E; auto|auto].
  Qed.
  Theorem tb_inactivate_spec X r ns : tb_ok X r -> (2 <= tb_order X)%nat -> (forall n, In n ns -> In n (d2i (ttree X))) ->
    exists Z, tb_inactivate X ns = Some Z /\ same_val X Z r /\
      forall n, node (ttree X) n -> active Z n = active X n && negb (inb n ns).
  Proof.
    intros O H2 Hns. unfold tb_inactivate. pose proof (proj1 (proj1 O)) as T.
    replace (forallb (fun n => inb n (d2i (ttree X))) ns) with true by (symmetry; apply forallb_forall; intros; apply inb_spec; auto).
    destruct (inactivate_fold X r ns (bottom_up (ttree X)) X O H2 eq_refl (NoDup_bottom_up _)) as (l & Hf & Hs & Ha).
    - intros n Hn. apply inb_spec. auto.
    - intros n Hn. split; auto. apply (in_bottom_up _ r T). auto.
    - rewrite Hf. cbn [bind]. exists (TB (ttree X) l). split; [apply (tb_make_ok l (ttree X) r); apply Hs|]. split; auto.
      intros n Hn. rewrite Ha by auto. replace (inb n (bottom_up (ttree X))) with true; [rewrite andb_true_r; auto|].
      symmetry. apply inb_spec. apply (in_bottom_up _ r T). auto.
  Qed.

  (** * activation *)
  Lemma activate_fold (X : tbt R) r : tb_ok X r -> forall ns l, length l = nbn (ttree X) -> (forall n, In n ns -> node (ttree X) n) ->
    exists l', ofold (fun l n => if active X n then Some l
                else if is_leaf (ttree X) n then
                  let s := nth (index_of n (d2i (ttree X))) (tb_shape X) 0%nat in Some (setc n (np_eye s) l)
                else None) ns l = Some l' /\ length l' = nbn (ttree X) /\
      forall m, node (ttree X) m -> nthc l' m = if inb m ns && negb (active X m) then np_eye (tb_size X m) else nthc l m.
  Proof.
    intros O. induction ns as [|n ns IH]; intros l HL Hns.
    - exists l. split; auto.
    - assert (Hn : node (ttree X) n) by (apply Hns; simpl; auto). cbn [ofold]. destruct (active X n) eqn:Ha.
      + destruct (IH l HL) as (l' & Hf & HL' & Hn'); [intros; apply Hns; simpl; auto|]. exists l'. split; auto. split; auto. intros m Hm.
        rewrite Hn' by auto. cbn [inb existsb]. fold (inb m ns). destruct (Nat.eqb_spec m n) as [->|]; auto. rewrite Ha. cbn. rewrite andb_false_r. auto.
      + assert (Hl : is_leaf (ttree X) n = true).
        { destruct (is_leaf (ttree X) n) eqn:E; auto. rewrite (ok_internal X r O n Hn E) in Ha. discriminate. }
        rewrite Hl. cbv zeta. rewrite (tb_shape_leaf X n Hl).
        destruct (IH (setc n (np_eye (tb_size X n)) l)) as (l' & Hf & HL' & Hn'); [rewrite setc_length; auto|intros; apply Hns; simpl; auto|].
        exists l'. split; auto. split; auto. intros m Hm. rewrite Hn' by auto. cbn [inb existsb]. fold (inb m ns).
        rewrite nthc_setc by (try rewrite HL; try apply Hn; apply Hm). destruct (Nat.eqb_spec m n) as [->|]; auto.
        rewrite Ha. cbn. destruct (inb n ns); auto.
  Qed.
  Theorem tb_activate_spec X r ns : tb_ok X r -> (2 <= tb_order X)%nat -> (forall n, In n ns -> node (ttree X) n) ->
    exists Z, tb_activate X ns = Some Z /\ same_val X Z r /\
      (forall n, node (ttree X) n -> active Z n = active X n || inb n ns) /\
      (forall n, node (ttree X) n -> active X n = true -> core Z n = core X n).
  Proof.
    intros O H2 Hns. pose proof (proj1 O) as V. pose proof (proj1 V) as T. unfold tb_activate.
    destruct (activate_fold X r O ns (cores X) (ok_cores_length X r O) Hns) as (l & Hf & HL & Hc). cbv zeta in Hf |- *. rewrite Hf. cbn [bind].
    set (Z := TB (ttree X) l). assert (HcZ : forall m, node (ttree X) m -> core Z m = if inb m ns && negb (active X m) then np_eye (tb_size X m) else core X m) by exact Hc.
    pose proof (root_not_leaf X r O H2) as Hr.
    assert (Hchg : forall m, node (ttree X) m -> inb m ns && negb (active X m) = true -> is_leaf (ttree X) m = true /\ (0 < tb_size X m)%nat /\ m <> r /\ active X m = false).
    { intros m Hm E. apply andb_true_iff in E. destruct E as [_ E]. apply negb_true_iff in E.
      assert (Hl : is_leaf (ttree X) m = true).
      { destruct (is_leaf (ttree X) m) eqn:El; auto. rewrite (ok_internal X r O m Hm El) in E. discriminate. }
      split; auto. split; [|split; auto; intros ->; congruence].
      rewrite <- (tb_shape_leaf X m Hl). apply (tb_shape_pos X r); auto. apply leaf_index; auto. }
    assert (Hact : forall m, node (ttree X) m -> active Z m = active X m || inb m ns).
    { intros m Hm. destruct (inb m ns && negb (active X m)) eqn:E.
      - pose proof (Hchg m Hm E) as (_ & Hpos & _). apply andb_true_iff in E. rewrite (proj1 E), orb_true_r.
        apply active_prod. rewrite HcZ by auto. destruct E as [E1 E2]. rewrite E1, E2. cbn. lia.
      - rewrite (active_shape_eq Z X m m) by (rewrite HcZ, E by auto; auto). destruct (active X m), (inb m ns); cbn in E |- *; auto; discriminate. }
    assert (Hint : forall m, node (ttree X) m -> is_leaf (ttree X) m = false -> core Z m = core X m).
    { intros m Hm Hl. rewrite HcZ by auto. destruct (inb m ns && negb (active X m)) eqn:E; auto. destruct (Hchg m Hm E). congruence. }
    assert (Hsame : forall m, node (ttree X) m -> active X m = true -> core Z m = core X m).
    { intros m Hm Ha. rewrite HcZ, Ha, andb_false_r by auto. auto. }
    assert (Hlf : forall m, node (ttree X) m -> active X m = false -> inb m ns = false -> core Z m = core X m).
    { intros m Hm Ha Hi. rewrite HcZ, Hi by auto. auto. }
    assert (Hnr : node (ttree X) r) by apply T.
    assert (Hpar : forall c, node (ttree X) c -> c <> r -> node (ttree X) (parent (ttree X) c) /\ is_leaf (ttree X) (parent (ttree X) c) = false).
    { intros c Hcn Hcr. pose proof (parent_is_edge _ r T c Hcn Hcr) as He. split; [apply He|].
      destruct (is_leaf (ttree X) (parent (ttree X) c)) eqn:E; auto. apply (leaf_iff _ r V) in E. exfalso. apply (proj2 E c He). }
    assert (OZ : tb_ok Z r).
    { split; [exact V|]. split; [exact HL|]. split; [rewrite Hact, (ok_root X r O) by auto; auto|].
      intros n Hn. change (ttree Z) with (ttree X). split; [intros Hl; rewrite Hact, (ok_internal X r O n Hn Hl) by auto; auto|]. split.
      - intros HaZ. destruct (active X n) eqn:Ha.
        + unfold exts. change (ttree Z) with (ttree X). rewrite Hsame by auto.
          pose proof (proj1 (proj2 (proj2 (proj2 (proj2 O)) n Hn)) Ha) as HX. unfold exts in HX. exact HX.
        + rewrite Hact, Ha in HaZ by auto. cbn in HaZ. destruct (Hchg n Hn) as (Hl & _ & Hne & _); [rewrite HaZ, Ha; auto|].
          unfold exts, ndim, arity_at. change (ttree Z) with (ttree X). rewrite HcZ, HaZ, Ha, Hl by auto. cbn. destruct (Nat.eqb_spec n r); [contradiction|lia].
      - intros c He HaZ. assert (Hcn : node (ttree X) c) by apply He. pose proof (edge_ne _ r T n c He) as Hcr.
        assert (Hl : is_leaf (ttree X) n = false).
        { destruct (is_leaf (ttree X) n) eqn:E; auto. apply (leaf_iff _ r V) in E. exfalso. apply (proj2 E c He). }
        rewrite Hint by auto. rewrite (csize_nth X r O n c He). unfold csize. destruct (active X c) eqn:Ha.
        + rewrite Hsame by auto. auto.
        + rewrite Hact, Ha in HaZ by auto. cbn in HaZ. rewrite HcZ, HaZ, Ha by auto. auto. }
    assert (Hsz : forall m, is_leaf (ttree X) m = true -> tb_size Z m = tb_size X m).
    { intros m Hl. pose proof (leaf_node _ r V m Hl) as Hm. assert (Hmr : m <> r) by (intros ->; congruence).
      destruct (Hpar m Hm Hmr) as [Hp1 Hp2]. unfold tb_size at 1. change (ttree Z) with (ttree X). rewrite Hact, (Hint _ Hp1 Hp2) by auto.
      destruct (active X m) eqn:Ha; [rewrite Hsame by auto; unfold tb_size; rewrite Ha; auto|].
      cbn [orb]. destruct (inb m ns) eqn:Ei; [rewrite HcZ, Ei, Ha by auto; auto|]. unfold tb_size. rewrite Ha. auto. }
    exists Z. split; [apply (tb_make_ok l (ttree X) r OZ)|]. split; [|split; auto].
    split; auto. split; auto. split.
    { unfold tb_shape. change (ttree Z) with (ttree X). apply map_ext_in. intros m Hm. apply Hsz. apply inb_spec. auto. }
    split; [unfold exts; change (ttree Z) with (ttree X); rewrite Hint by auto; auto|].
    intros is e Hi He. apply (tval_cut X Z r (fun _ => True) is O eq_refl); auto; [|unfold rank_index; rewrite Nat.eqb_refl; auto].
    intros n Hn _. destruct (inb n ns && negb (active X n)) eqn:E; [left|right; split; auto; rewrite HcZ, E by auto; auto].
    destruct (Hchg n Hn E) as (Hl & Hpos & Hne & Ha). intros e' He'. unfold rank_index in He'.
    destruct (Nat.eqb_spec n r); [contradiction|]. destruct He' as (k & -> & Hk).
    assert (Hin : inb n ns = true) by (apply andb_true_iff in E; apply E).
    rewrite (tval_inactive X r V n) by auto. rewrite (tval_leaf Z r V n); auto; [|rewrite Hact, Hin, orb_true_r by auto; auto].
    rewrite HcZ, E by auto. cbn [np_eye get nth list_eqb]. rewrite andb_true_r, Nat.eqb_sym. auto.
  Qed.

  (** * orthogonalisation *)
  Lemma ft_orth_last (qr : nd R -> nd R * nd R) (A : nd R) s m : qr_contract qr -> shape A = s ++ [m] ->
    exists Q Rm k, ft_orth qr A (ndim A - 1) = Some (Q, Rm) /\ k = Nat.min (prodn s) m /\ shape Q = s ++ [k] /\ shape Rm = [k; m] /\
      (forall ks j, valid s ks -> (j < m)%nat -> get A (ks ++ [j]) = rsum k (fun c => get Q (ks ++ [c]) * get Rm [c; j])) /\ orth_cols Q.
  Proof.
    intros Hq HA. assert (Hn : ndim A = S (length s)) by (unfold ndim; rewrite HA, app_length; simpl; lia).
    assert (Hd : (ndim A - 1)%nat = length s) by lia. rewrite Hd.
    destruct (ft_orth_spec qr A (length s) Hq) as (Q & Rm & k & HQ & Hk & HsQ & HsR & Hval & Horth); [lia|].
    assert (Eu : forall (l : list nat) x y, length l = length s -> upd (length s) x (l ++ [y]) = l ++ [x]).
    { intros l x y L. rewrite <- L, upd_app_r, Nat.sub_diag by lia. auto. }
    assert (Es : sel 0%nat (shape A) (compl (ndim A) [length s]) = s).
    { unfold ndim. rewrite HA. rewrite (sel_compl1 s [] m). apply app_nil_r. }
    rewrite Es in Hk, Horth. rewrite HA in Hk, HsQ, HsR, Hval. rewrite app_nth2, Nat.sub_diag in Hk, HsR by lia. cbn [nth] in Hk, HsR. rewrite Eu in HsQ by auto.
    exists Q, Rm, k. split; auto. split; auto. split; auto. split; auto. split.
    - intros ks j Hks Hj. pose proof (valid_length _ _ Hks) as L. rewrite Hval by (apply valid_app; auto; constructor; auto). apply rsum_ext. intros c Hc.
      rewrite Eu by auto. rewrite <- L, app_nth2, Nat.sub_diag by lia. auto.
    - intros a b Ha Hb. rewrite HsQ, last_last in Ha, Hb. rewrite HsQ, removelast_last. rewrite <- (Horth a b Ha Hb). apply bsum_ext. intros ks Hks.
      unfold ins. assert (L : length ks = length s) by (apply valid_length; auto). rewrite <- L, firstn_all, skipn_all. auto.
  Qed.
  Lemma orth_gauge qr X r n : qr_contract qr -> tb_ok X r -> node (ttree X) n -> active X n = true -> n <> r ->
    exists Q Rm P k, let p := parent (ttree X) n in
      ft_orth qr (core X n) (ndim (core X n) - 1) = Some (Q, Rm) /\ negb (ft_storage Q =? 0) = true /\
      ft_tensor_matrix_product (core X p) [Rm] (Some [(child_number (ttree X) n - 1)%nat]) = Some P /\
      orth_cols Q /\ (k <= csize X n)%nat /\
      gauge X (TB (ttree X) (setc p P (setc n Q (cores X)))) p n k (csize X n) (fun i j => get Rm [i; j]).
  Proof.
    intros Hq O Hn Ha Hr. pose proof (proj1 O) as V. pose proof (proj1 V) as T.
    pose proof (parent_is_edge _ r T n Hn Hr) as He. set (p := parent (ttree X) n) in *.
    destruct (axis_of_child X r p n O He) as (s1 & s2 & L1 & Hsp).
    assert (Ec : csize X n = last (shape (core X n)) 0%nat) by (unfold csize; rewrite Ha; auto).
    assert (Hsn : shape (core X n) = heads X n ++ [csize X n]) by (rewrite Ec, (ok_shape X n Hn Ha) at 1; f_equal; apply (ok_exts_rank X r O n Hn Ha Hr)).
    destruct (ft_orth_last qr (core X n) _ _ Hq Hsn) as (Q & Rm & k & HQ & Hk & HsQ & HsR & Hval & Horth).
    destruct (tmp_single (core X p) Rm s1 s2 _ k Hsp HsR) as (P & HP & HsP & HgP).
    exists Q, Rm, P, k. cbv zeta. split; auto. split.
    { apply negb_true_iff, Nat.eqb_neq. unfold ft_storage, np_size. rewrite HsQ, prodn_app. simpl. apply active_prod in Ha. rewrite Hsn, prodn_app in Ha. simpl in Ha.
      rewrite Hk. destruct (prodn (heads X n)), (csize X n); simpl in *; lia. }
    split; [rewrite (child_index X r O p n He), <- L1; auto|]. split; auto. split; [lia|].
    pose proof (ok_cores_length X r O) as LC.
    assert (Hpn : p <> n) by (intros E; pose proof (level_edge _ r T p n He) as HL; rewrite E in HL; lia).
    assert (Hpp : node (ttree X) p) by apply He.
    set (Z := TB (ttree X) (setc p P (setc n Q (cores X)))).
    assert (Hcore : forall m, node (ttree X) m -> core Z m = if m =? p then P else if m =? n then Q else core X m).
    { intros m Hm. unfold core, Z. cbn [cores]. unfold node in *. rewrite nthc_setc by (rewrite ?setc_length; lia). destruct (Nat.eqb_spec m p); auto. apply nthc_setc; lia. }
    assert (Hcp : core Z p = P) by (rewrite Hcore, Nat.eqb_refl; auto).
    assert (Hcn : core Z n = Q) by (rewrite Hcore, Nat.eqb_refl by auto; destruct (Nat.eqb_spec n p); [congruence|auto]).
    assert (Hpos : (0 < k)%nat).
    { apply active_prod in Ha. rewrite Hsn, prodn_app in Ha. simpl in Ha. rewrite Hk. destruct (prodn (heads X n)), (csize X n); simpl in *; lia. }
    constructor; auto.
    - unfold Z. cbn [cores]. rewrite !setc_length. auto.
    - intros m Hm Hne Hne2. rewrite Hcore by auto. destruct (Nat.eqb_spec m p); [contradiction|]. destruct (Nat.eqb_spec m n); [contradiction|auto].
    - exists s1, s2. rewrite Hcp. auto.
    - split; auto. left. rewrite Hcn. auto.
    - intros is Hi j Hj.
      assert (HaZ : active Z n = true).
      { apply active_prod. rewrite Hcn, HsQ, prodn_app. simpl. apply active_prod in Ha. rewrite Hsn, prodn_app in Ha. simpl in Ha.
        intros E. apply Ha. destruct (prodn (heads X n)); simpl in *; lia. }
      assert (VZ : dim_tree (ttree Z) r) by exact V.
      destruct (is_leaf (ttree X) n) eqn:Hl.
      + rewrite (tval_leaf X r V n) by auto. pose proof (heads_leaf X r O n Hl Ha) as Hh.
        assert (Hlt : (nth (index_of n (d2i (ttree X))) is 0 < tb_size X n)%nat) by (apply (valid_leaf_index X is n Hi Hl)).
        specialize (Hval [nth (index_of n (d2i (ttree X))) is 0%nat] j). cbn [app] in Hval. rewrite Hval; auto.
        * apply rsum_ext. intros c Hc. rewrite (tval_leaf Z r VZ n) by auto. rewrite Hcn. auto.
        * rewrite Hh. constructor; auto. unfold tb_size in Hlt. rewrite Ha in Hlt. auto.
      + rewrite (tval_internal X r V n) by auto.
        etransitivity; [apply rsum_ext; intros c Hc; rewrite (tval_internal Z r VZ n) by auto; rewrite <- bsum_scal_r; reflexivity|].
        assert (Eh : heads Z n = heads X n).
        { unfold heads at 1. rewrite Hcn, HsQ. change (ttree Z) with (ttree X). rewrite <- (ok_heads_length X r O n Hn Ha), firstn_app, firstn_all, Nat.sub_diag. cbn. apply app_nil_r. }
        rewrite Eh, <- bsum_rsum_exchange. apply bsum_ext. intros ks Hks. rewrite Hval by auto. rewrite <- rsum_scal_r. apply rsum_ext. intros c Hc. rewrite Hcn.
        change (ttree Z) with (ttree X).
        replace (lprod (combine (children (ttree X) n) ks) (fun q => tval Z (fst q) is [snd q])) with (lprod (combine (children (ttree X) n) ks) (fun q => tval X (fst q) is [snd q])); [ring|].
        apply lprod_ext. intros [x y] Hx. apply in_combine_l in Hx. apply in_children in Hx; auto. cbn [fst snd]. symmetry.
        apply (tval_same_below X Z r x V eq_refl); [apply Hx|]. intros m Hm [d Hd].
        pose proof (level_below _ r T x m d (proj1 (proj2 Hx)) Hd) as HL1. rewrite (level_edge _ r T _ _ Hx) in HL1.
        pose proof (level_edge _ r T _ _ He) as HL2. rewrite Hcore by auto.
        destruct (Nat.eqb_spec m p) as [->|]; [lia|]. destruct (Nat.eqb_spec m n) as [->|]; [lia|]. auto.
  Qed.
  Lemma orth_fold qr X0 r : qr_contract qr -> forall L X done, tb_ok X r -> ttree X0 = ttree X ->
    bottom_up (ttree X) = done ++ L -> (forall n, node (ttree X) n -> active X n = active X0 n) ->
    (forall n, In n done -> active X n = true -> n <> r -> orth_cols (core X n)) ->
    exists l, ofold (orth_step qr X0) L (cores X) = Some l /\ same_val X (TB (ttree X) l) r /\
      (forall n, node (ttree X) n -> active (TB (ttree X) l) n = active X n) /\
      (forall n, node (ttree X) n -> active X n = true -> n <> r -> orth_cols (core (TB (ttree X) l) n)) /\
      (forall n, node (ttree X) n -> n <> r -> (csize (TB (ttree X) l) n <= csize X n)%nat).
  Proof.
    intros Hq. induction L as [|n L IH]; intros X done O Et Hb Ha Hd.
    - pose proof (proj1 (proj1 O)) as T. exists (cores X). split; auto. split; [destruct X; apply same_val_refl; auto|]. split; [destruct X; auto|].
      split; [|destruct X; auto]. intros n Hn Han Hr. rewrite app_nil_r in Hb. assert (Hin : In n done) by (rewrite <- Hb; apply (in_bottom_up _ r T); auto). destruct X; apply Hd; auto.
    - pose proof (proj1 (proj1 O)) as T.
      assert (Hn : node (ttree X) n) by (apply (in_bottom_up _ r T); rewrite Hb; apply in_or_app; simpl; auto).
      assert (Hb' : bottom_up (ttree X) = (done ++ [n]) ++ L) by (rewrite <- app_assoc; auto).
      pose proof (NoDup_bottom_up (ttree X)) as ND. rewrite Hb in ND.
      cbn [ofold]. unfold orth_step at 1. rewrite Et, <- Ha by auto.
      destruct (active X n && negb (level (ttree X) n =? 0)) eqn:E.
      + apply andb_true_iff in E. destruct E as [E1 E2]. apply negb_true_iff, Nat.eqb_neq in E2.
        assert (Hr : n <> r) by (intros ->; apply E2, (level_root _ r T)).
        destruct (orth_gauge qr X r n Hq O Hn E1 Hr) as (Q & Rm & P & k & HQ & HQa & HP & Horth & Hkle & HG). cbv zeta in HQ, HP, HG.
        unfold core in HQ. rewrite HQ. cbn [bind fst snd].
        pose proof (parent_is_edge _ r T n Hn Hr) as He. set (p := parent (ttree X) n) in *.
        assert (Hpn : p <> n) by (intros E; pose proof (level_edge _ r T p n He) as HL; rewrite E in HL; lia).
        rewrite nthc_setc by (rewrite ?(ok_cores_length X r O); try apply Hn; apply He). destruct (Nat.eqb_spec p n); [contradiction|].
        unfold core in HP. rewrite HP. cbn [bind].
        set (X1 := TB (ttree X) (setc p P (setc n Q (cores X)))) in *.
        pose proof (gauge_same _ _ _ _ _ _ _ _ O HG) as S1.
        assert (Hcn : core X1 n = Q).
        { unfold core, X1. cbn [cores]. pose proof (ok_cores_length X r O) as LC. assert (Hp : node (ttree X) p) by apply He. unfold node in *.
          rewrite nthc_setc by (rewrite ?setc_length; lia). destruct (Nat.eqb_spec n p); [congruence|]. rewrite nthc_setc, Nat.eqb_refl by lia. auto. }
        assert (Hact : forall m, node (ttree X) m -> active X1 m = active X m).
        { intros m Hm. destruct (Nat.eq_dec m n) as [->|Hne]; [|apply (ga_active _ _ r _ _ _ _ _ O HG); auto].
          rewrite E1. destruct (g_node _ _ _ _ _ _ _ HG) as [_ [Hs|(Hlf & Hina & _)]].
          - apply (ga_heads_n _ _ r _ _ _ _ _ O HG Hs).
          - (* the new core is not empty *) exfalso. unfold active, activec in Hina. fold (core X1 n) in Hina.
            change (nthc (cores X1) n) with (core X1 n) in Hina. rewrite Hcn in Hina. rewrite HQa in Hina. discriminate. }
        destruct (IH X1 (done ++ [n])) as (l & Hf & S2 & A2 & C2 & D2); auto.
        * apply S1.
        * intros m Hm. rewrite Hact; auto.
        * intros m Hm Ham Hmr. apply in_app_iff in Hm. destruct Hm as [Hm|[<-|[]]].
          -- assert (Hmn : node (ttree X) m) by (apply (in_bottom_up _ r T); rewrite Hb; apply in_or_app; auto).
             rewrite (g_other _ _ _ _ _ _ _ HG m); auto.
             ++ apply Hd; auto. rewrite <- Hact; auto.
             ++ intros ->. apply NoDup_remove_2 in ND. apply ND. apply in_or_app; auto.
             ++ intros ->. apply in_split in Hm. destruct Hm as (d1 & d2 & Ed).
                assert (Hin : In n d1).
                { eapply (topo_bottom_up (ttree X) r T d1 p (d2 ++ n :: L) n); [rewrite Hb, Ed, <- app_assoc; auto|auto]. }
                apply NoDup_remove_2 in ND. apply ND. rewrite Ed. apply in_or_app. left. apply in_or_app. auto.
          -- rewrite Hcn. auto.
        * exists l. split; auto. split; [eapply same_val_trans; eauto|]. cbn [ttree X1] in A2, C2, D2. split; [|split].
          -- intros m Hm. rewrite A2, Hact; auto.
          -- intros m Hm Ham Hmr. apply C2; auto. rewrite Hact; auto.
          -- intros m Hm Hmr. eapply Nat.le_trans; [apply D2; auto|]. destruct (Nat.eq_dec m n) as [->|Hmn].
             ++ rewrite (ga_csize_n _ _ r _ _ _ _ _ O HG). exact Hkle.
             ++ rewrite (ga_csize _ _ r _ _ _ _ _ O HG) by auto. auto.
      + apply (IH X (done ++ [n])); auto. intros m Hm Ham Hmr. apply in_app_iff in Hm. destruct Hm as [Hm|[<-|[]]]; auto.
        exfalso. rewrite Ham in E. cbn in E. apply negb_false_iff, Nat.eqb_eq in E. apply Hmr. apply (level_zero _ r T); auto.
  Qed.
  (** the ranks do not increase *)
  Theorem tb_orth_ranks qr X r : qr_contract qr -> tb_ok X r ->
    exists Z, tb_orth qr X = Some Z /\ same_val X Z r /\ (forall n, node (ttree X) n -> active Z n = active X n) /\
      (forall n, node (ttree X) n -> active X n = true -> n <> r -> orth_cols (core Z n)) /\
      (forall n, node (ttree X) n -> n <> r -> (csize Z n <= csize X n)%nat).
  Proof.
    intros Hq O. unfold tb_orth. destruct (orth_fold qr X r Hq (bottom_up (ttree X)) X [] O eq_refl eq_refl) as (l & Hf & S1 & A1 & C1 & D1); auto.
    { intros n []. }
    rewrite Hf. cbn [bind]. exists (TB (ttree X) l). split; [apply (tb_make_ok l (ttree X) r); apply S1|]. auto.
  Qed.
  Theorem tb_orth_spec qr X r : qr_contract qr -> tb_ok X r ->
    exists Z, tb_orth qr X = Some Z /\ same_val X Z r /\ (forall n, node (ttree X) n -> active Z n = active X n) /\
      (forall n, node (ttree X) n -> active X n = true -> n <> r -> orth_cols (core Z n)).
  Proof. intros Hq O. destruct (tb_orth_ranks qr X r Hq O) as (Z & H1 & H2 & H3 & H4 & _). exists Z. auto. Qed.
End Act.
