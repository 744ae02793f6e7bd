(** Tree-based tensors: Kronecker and Hadamard products, statements about the full tensors. *)
From Coq Require Import List Arith Lia Bool ZArith Ring Permutation.
From Verif.Base Require Import ListAux CRing Index.
From Verif.Model Require Import Sorting Numpy FullTensor DimensionTree TreeBased.
From Verif.Spec Require Import TensorSpec TreeSpec TreeTensorSpec.
From Verif.Proofs Require Import NumpyP FullTensorP FullTensorP2 FullTensorP3 FullTensorP4 DimTreeP DimTreeP2 DimTreeP3 TreeTensorP TreeTensorP2 TreeTensorP3 TreeTensorP4 TreeTensorP5 TreeTensorP6 TreeTensorP7 TreeTensorP8 TreeTensorP9 TreeTensorP10.
Import ListNotations.

Definition diag_idx (s is : list nat) : list nat := map (fun p => slice_idx (fst p) (snd p)) (combine (map diag_slice s) is).
Lemma diag_idx_cons n s i is : (i < n)%nat -> diag_idx (n :: s) (i :: is) = (i * (n + 1))%nat :: diag_idx s is.
Proof.
  intros Hi. unfold diag_idx. cbn [map combine fst snd]. f_equal. unfold slice_idx, diag_slice.
  rewrite map_nth_in with (da := 0%nat) by (rewrite seq_length; auto). rewrite seq_nth by auto. auto.
Qed.
Lemma diag_idx_divmod s is e : valid s is -> divs (diag_idx s (is ++ e)) s = is /\ mods (diag_idx s (is ++ e)) s = is /\
  valid (muls s s) (diag_idx s (is ++ e)).
Proof.
  induction 1 as [|i n is s Hi Hv IH].
  - unfold divs, mods, diag_idx. cbn. repeat split; constructor.
  - cbn [app]. rewrite (diag_idx_cons n s i (is ++ e) Hi). unfold divs, mods, muls. cbn [combine map fst snd].
    destruct IH as (H1 & H2 & H3). unfold divs in H1. unfold mods in H2. rewrite H1, H2. split; [|split].
    + f_equal. symmetry. apply (Nat.div_unique _ n i i); lia.
    + f_equal. symmetry. apply (Nat.mod_unique _ n i i); lia.
    + constructor; auto. nia.
Qed.

Lemma combine_app_l' {A B} (l1 l2 : list A) (m : list B) : length l1 = length m -> combine (l1 ++ l2) m = combine l1 m.
Proof. revert m. induction l1; intros [|x m] L; cbn in *; try lia; auto. - destruct l2; auto. - f_equal. auto. Qed.

Section KronThm.
  Context {R : Type} {CR : CRing R}.
  Add Ring Rrkt : rth.
  Local Open Scope cr_scope.

  Lemma tb_kron_val X Y r : tb_ok X r -> tb_ok Y r -> ttree Y = ttree X -> length (exts Y r) = length (exts X r) ->
    (forall n, node (ttree X) n -> active Y n = active X n) -> (2 <= tb_order X)%nat ->
    exists Z, tb_kron X Y = Some Z /\ tb_ok Z r /\ ttree Z = ttree X /\ (forall n, node (ttree X) n -> active Z n = active X n) /\
      tb_shape Z = muls (tb_shape X) (tb_shape Y) /\ exts Z r = muls (exts X r) (exts Y r) /\
      forall is e, valid (tb_shape Z) is -> valid (exts Z r) e ->
        tval Z r is e = tval X r (divs is (tb_shape Y)) (divs e (exts Y r)) * tval Y r (mods is (tb_shape Y)) (mods e (exts Y r)).
  Proof.
    intros OX OY HT HE HA H2. unfold tb_kron.
    destruct (omap_nodes (fun n => if active X n then ft_kron (core X n) (core Y n) else Some (core X n)) (ttree X)) as (l & Hl & HL & HC).
    { intros n Hn. destruct (active X n) eqn:Ha; eauto. destruct (kr_core X Y r OX OY HT HE HA H2 n Hn Ha) as (C & HC & _). eauto. }
    rewrite Hl. cbn [bind]. set (Z := TB (ttree X) l).
    destruct (kr_facts X Y r OX OY HT HE HA H2 Z eq_refl HL HC) as (OZ & SZ & EZ & _).
    exists Z. split; [apply (tb_make_ok l (ttree X) r); exact OZ|]. split; auto. split; auto.
    split; [intros n Hn; apply (kr_active X Y r OX OY HT HE HA H2 Z HL HC n Hn)|]. split; auto. split; auto.
    rewrite SZ, EZ. intros is e Hi He. apply (kr_tval_root X Y r OX OY HT HE HA H2 Z eq_refl HL HC is e); auto.
  Qed.
  Theorem tb_kron_full X Y r A B : tb_ok X r -> tb_ok Y r -> ttree Y = ttree X -> (forall n, node (ttree X) n -> active Y n = active X n) ->
    (2 <= tb_order X)%nat -> tb_full X = Some A -> tb_full Y = Some B -> ndim A = ndim B ->
    exists Z, tb_kron X Y = Some Z /\ tb_ok Z r /\ ttree Z = ttree X /\
      returns (tb_full Z) (map (fun p => (fst p * snd p)%nat) (combine (shape A) (shape B)))
        (fun is => get A (map (fun p => (fst p / snd p)%nat) (combine is (shape B)))
                   * get B (map (fun p => (fst p mod snd p)%nat) (combine is (shape B)))).
  Proof.
    intros OX OY HT HA H2 HX HY Hnd. assert (HL2 : (2 <= tb_order Y)%nat) by (unfold tb_order in *; rewrite HT; auto).
    destruct (full_inv X r A OX H2 HX) as [HsA HgA]. destruct (full_inv Y r B OY HL2 HY) as [HsB HgB].
    assert (LS : length (tb_shape X) = length (tb_shape Y)) by (rewrite !tb_shape_length, HT; auto).
    assert (HE : length (exts Y r) = length (exts X r)) by (unfold ndim in Hnd; rewrite HsA, HsB, !app_length in Hnd; lia).
    destruct (tb_kron_val X Y r OX OY HT HE HA H2) as (Z & HZ & OZ & TZ & AZ & SZ & EZ & VZ).
    exists Z. split; auto. split; auto. split; auto. apply (full_returns Z r); auto.
    - unfold tb_order. rewrite TZ. exact H2.
    - rewrite SZ, EZ, HsA, HsB. rewrite <- muls_app by auto. auto.
    - intros is e Hi He. rewrite VZ by auto. rewrite SZ in Hi. rewrite EZ in He.
      destruct (valid_divs _ _ _ LS Hi) as [V1 V2]. destruct (valid_divs _ _ _ (eq_sym HE) He) as [V3 V4].
      rewrite <- HgA, <- HgB by auto. rewrite HsB.
      assert (Li : length is = length (tb_shape Y)) by (rewrite (valid_length _ _ Hi), muls_length; auto).
      rewrite <- divs_app, <- mods_app by auto. auto.
  Qed.

  (** changing the last axis of the root core *)
  Lemma root_reext (X : tbt R) r C ext : tb_ok X r -> (2 <= tb_order X)%nat -> shape C = heads X r ++ ext -> (length ext <= 1)%nat -> ~ In 0%nat ext ->
    let Z := TB (ttree X) (setc r C (cores X)) in
    tb_ok Z r /\ tb_shape Z = tb_shape X /\ exts Z r = ext /\
    forall g : list nat -> list nat, (forall ks e, valid (heads X r) ks -> valid ext e -> get C (ks ++ e) = get (core X r) (ks ++ g e)) ->
      forall is e, valid (tb_shape X) is -> valid ext e -> tval Z r is e = tval X r is (g e).
  Proof.
    intros O H2 Hs Hle Hpos Z. pose proof (proj1 O) as V. pose proof (proj1 V) as T. assert (Hr : node (ttree X) r) by apply T.
    pose proof (root_not_leaf X r O H2) as Hlr. pose proof (ok_cores_length X r O) as HL.
    assert (HLZ : length (cores Z) = nbn (ttree Z)) by (cbn; rewrite setc_length; auto).
    assert (HcZ : forall n, node (ttree X) n -> core Z n = if n =? r then C else core X n).
    { intros n Hn. apply setc_core; [rewrite HL; apply Hr|apply Hn]. }
    assert (Ho : forall n, node (ttree X) n -> n <> r -> core Z n = core X n) by (intros n Hn Hne; rewrite HcZ by auto; destruct (Nat.eqb_spec n r); [contradiction|auto]).
    assert (Hcr : core Z r = C) by (rewrite HcZ, Nat.eqb_refl by auto; auto).
    assert (AZ : forall n, node (ttree X) n -> active Z n = active X n).
    { intros n Hn. destruct (Nat.eq_dec n r) as [->|Hne].
      - rewrite (ok_root X r O). apply active_prod. rewrite Hcr, Hs, prodn_app. pose proof (ok_root X r O) as Ha. apply active_prod in Ha.
        rewrite (ok_shape X r Hr (ok_root X r O)), prodn_app in Ha. intros E. apply Nat.eq_mul_0 in E. destruct E as [E|E]; [apply Ha; rewrite E; auto|].
        apply prodn_zero in E. auto.
      - apply active_shape_eq. rewrite Ho; auto. }
    assert (P5 : forall n, node (ttree Z) n -> is_leaf (ttree Z) n = false ->
      shape (core Z n) = map (csize X) (children (ttree Z) n) ++ (if n =? r then ext else [csize X n]) /\ active Z n = true).
    { cbn [ttree Z]. intros n Hn Hl. rewrite AZ by auto. split; [|apply (ok_internal X r O n Hn Hl)]. rewrite <- (heads_internal X r O n Hn Hl).
      destruct (Nat.eqb_spec n r) as [->|Hne]; [rewrite Hcr; auto|]. rewrite Ho by auto.
      pose proof (ok_internal X r O n Hn Hl) as Ha. rewrite (ok_shape X n Hn Ha), (ok_exts_rank X r O n Hn Ha Hne). unfold csize. rewrite Ha. auto. }
    assert (Hlf : forall n, is_leaf (ttree X) n = true -> node (ttree X) n /\ n <> r).
    { intros n Hl. split; [apply (leaf_node _ r V n Hl)|]. intros ->. congruence. }
    assert (P6 : forall n, is_leaf (ttree Z) n = true -> active Z n = true -> shape (core Z n) = [tb_size X n; csize X n]).
    { cbn [ttree Z]. intros n Hl Ha. destruct (Hlf n Hl) as [Hn Hne]. rewrite AZ in Ha by auto. rewrite Ho by auto.
      rewrite (ok_shape X n Hn Ha), (heads_leaf X r O n Hl Ha), (ok_exts_rank X r O n Hn Ha Hne). unfold tb_size, csize. rewrite Ha. auto. }
    assert (P7 : forall n, is_leaf (ttree Z) n = true -> active Z n = false -> csize X n = tb_size X n).
    { cbn [ttree Z]. intros n Hl Ha. destruct (Hlf n Hl) as [Hn Hne]. rewrite AZ in Ha by auto. unfold csize. rewrite Ha. auto. }
    assert (OZ : tb_ok Z r) by exact (build_ok Z r (csize X) (tb_size X) ext V HLZ Hlr Hle P5 P6).
    split; auto. split; [exact (build_shape Z r (csize X) (tb_size X) ext V HLZ Hlr Hle P5 P6 P7)|].
    split; [rewrite (build_exts Z r (csize X) ext P5 r Hr Hlr), Nat.eqb_refl; auto|].
    intros g Hg is e Hi He. rewrite (tval_internal X r V r) by auto. rewrite (tval_internal Z r V r) by auto.
    rewrite (build_heads Z r (csize X) ext P5 r Hr Hlr). cbn [ttree Z]. rewrite (heads_internal X r O r Hr Hlr). apply bsum_ext. intros ks Hks.
    rewrite Hcr, Hg; [|rewrite (heads_internal X r O r Hr Hlr); auto|auto]. f_equal.
    apply lprod_ext. intros [x k] Hx. apply in_combine_l in Hx. apply in_children in Hx; auto. cbn [fst snd].
    apply (tval_same_below X Z r x V eq_refl); [apply Hx|]. intros m Hm Hb. apply Ho; auto. intros ->.
    destruct Hb as [d Hd]. pose proof (level_below _ r T x r d (proj1 (proj2 Hx)) Hd) as HLv.
    rewrite (level_root _ r T), (level_edge _ r T _ _ Hx) in HLv. lia.
  Qed.

  Lemma root_rank X r : tb_ok X r -> (2 <= tb_order X)%nat -> tb_rank X (root (ttree X)) = nth 0 (exts X r) 1%nat.
  Proof.
    intros O H2. pose proof (proj1 O) as V. pose proof (proj1 V) as T. assert (Hr : node (ttree X) r) by apply T.
    pose proof (root_not_leaf X r O H2) as Hlr. rewrite (root_eq _ r T). unfold tb_rank. rewrite Hlr.
    assert (Hp : parent (ttree X) r = 0%nat) by (apply (parent_root _ r T)). rewrite Hp. cbn [Nat.eqb negb orb].
    assert (Hsh := ok_shape X r Hr (ok_root X r O)). assert (Hh := ok_heads_length X r O r Hr (ok_root X r O)). unfold arity_at in Hh. rewrite Hlr in Hh.
    pose proof (ok_exts_root X r O) as Hle. unfold ndim. rewrite Hsh, app_length, Hh.
    destruct (exts X r) as [|a [|b l]]; cbn in Hle |- *; try lia.
    - destruct (Nat.eqb_spec (length (children (ttree X) r) + 0) (length (children (ttree X) r) + 1)); [lia|auto].
    - rewrite Nat.eqb_refl, last_last. auto.
  Qed.

  Theorem tb_mul_full X Y r A B : tb_ok X r -> tb_ok Y r -> ttree Y = ttree X -> (forall n, node (ttree X) n -> active Y n = active X n) ->
    (2 <= tb_order X)%nat -> tb_full X = Some A -> tb_full Y = Some B -> shape B = shape A ->
    exists Z, tb_mul X Y = Some Z /\ tb_ok Z r /\ ttree Z = ttree X /\
      returns (tb_full Z) (shape A) (fun is => get A is * get B is).
  Proof.
    intros OX OY HT HA H2 HX HY Hs. assert (HL2 : (2 <= tb_order Y)%nat) by (unfold tb_order in *; rewrite HT; auto).
    destruct (full_inv X r A OX H2 HX) as [HsA HgA]. destruct (full_inv Y r B OY HL2 HY) as [HsB HgB].
    destruct (full_shapes_eq X Y r A B OX OY HT H2 HX HY Hs) as [ES EE].
    destruct (tb_kron_val X Y r OX OY HT) as (K & HK & OK & TK & AK & SK & EK & VK); auto; [congruence|].
    unfold tb_mul. rewrite HK. cbn [bind].
    assert (H2K : (2 <= tb_order K)%nat) by (unfold tb_order; rewrite TK; exact H2).
    destruct (tb_full_ok K r OK H2K) as (F & HF & HsF & _).
    destruct (full_inv K r F OK H2K HF) as [_ HgF].
    assert (LS : length (tb_shape X) = tb_order X) by apply tb_shape_length.
    assert (Oeq : tb_order K = tb_order X) by (unfold tb_order; rewrite TK; auto).
    destruct (tb_sub_tensor_full K r (map diag_slice (tb_shape X)) F OK H2K HF) as (Z & HZ & OZ & TZ & G & HG & HsG & HgG).
    { rewrite map_length. lia. }
    { intros k Hk. rewrite HsF, SK, ES. rewrite app_nth1 by (rewrite muls_length by auto; lia).
      rewrite map_nth_in with (da := 0%nat) by lia.
      unfold muls. rewrite map_nth_in with (da := (0%nat, 0%nat)) by (rewrite combine_length; lia). rewrite combine_nth by auto. cbn [fst snd].
      unfold slice_ok, slice_len, diag_slice. rewrite map_length, seq_length. split.
      - apply Forall_forall. intros x Hx. apply in_map_iff in Hx. destruct Hx as (i & <- & Hi). apply in_seq in Hi. nia.
      - apply (tb_shape_pos X r); auto. lia. }
    rewrite HZ. cbn [bind].
    assert (H2Z : (2 <= tb_order Z)%nat) by (unfold tb_order in *; rewrite TZ; exact H2K).
    destruct (full_inv Z r G OZ H2Z HG) as [HsG' HgG'].
    assert (EsG : shape G = tb_shape X ++ exts K r).
    { rewrite HsG, HsF, SK, ES. f_equal.
      - rewrite combine_app_l' by (rewrite muls_length, map_length by auto; auto). clear. induction (tb_shape X) as [|n l IH]; cbn; auto.
        unfold muls in IH. rewrite IH. f_equal. unfold slice_len, diag_slice. rewrite map_length, seq_length. auto.
      - rewrite Oeq, skipn_app, muls_length, LS, Nat.sub_diag by auto. rewrite skipn_all2 by (rewrite muls_length by auto; lia). auto. }
    assert (ESZ : tb_shape Z = tb_shape X /\ exts Z r = exts K r).
    { rewrite HsG' in EsG. assert (L : length (tb_shape Z) = length (tb_shape X)) by (rewrite !tb_shape_length, TZ, TK; auto).
      revert L EsG. generalize (exts Z r) (exts K r) (tb_shape X) (tb_shape Z). clear. intros e1 e2 l1 l2. revert l1.
      induction l2 as [|a l2 IH]; intros [|b l1]; cbn; intros L Hs; try discriminate; auto.
      injection Hs as -> Hs. injection L as L. destruct (IH l1 L Hs) as [-> ->]. auto. }
    destruct ESZ as [ESZ EEZ].
    assert (VZ : forall is e, valid (tb_shape X) is -> valid (exts K r) e -> tval Z r is e =
        tval X r is (divs e (exts X r)) * tval Y r is (mods e (exts X r))).
    { intros is e Hi He. rewrite <- HgG' by congruence. rewrite HgG by (rewrite <- HsG, EsG; apply valid_app; auto).
      assert (Li : length is = tb_order X) by (rewrite (valid_length _ _ Hi); auto).
      rewrite Oeq, <- Li, skipn_app, skipn_all, Nat.sub_diag. cbn [skipn app].
      destruct (diag_idx_divmod _ _ e Hi) as (D1 & D2 & D3).
      change (map (fun p => slice_idx (fst p) (snd p)) (combine (map diag_slice (tb_shape X)) (is ++ e))) with (diag_idx (tb_shape X) (is ++ e)).
      rewrite HgF; [|rewrite SK, ES; auto|auto]. rewrite VK; [|rewrite SK, ES; auto|auto]. rewrite ES, EE, D1, D2. auto. }
    rewrite (root_rank X r OX H2), (root_rank Y r OY HL2), EE.
    pose proof (ok_exts_root X r OX) as Hle. pose proof (ok_root X r OX) as Har. apply active_prod in Har.
    assert (Hnr : node (ttree X) r) by (exact (proj1 (proj1 (proj1 OX)))).
    rewrite (ok_shape X r Hnr (ok_root X r OX)), prodn_app in Har.
    destruct (Nat.ltb_spec 1 (nth 0 (exts X r) 1%nat)) as [HN|HN].
    - destruct (exts X r) as [|N [|b l]] eqn:EX; cbn in Hle, HN; try lia. cbn [nth]. rewrite Nat.eqb_refl.
      assert (RZ : root (ttree Z) = r) by (apply (root_node Z r OZ)). rewrite RZ.
      assert (HnrZ : node (ttree Z) r) by (exact (proj1 (proj1 (proj1 OZ)))).
      assert (ShZ : shape (core Z r) = heads Z r ++ [(N * N)%nat]).
      { rewrite (ok_shape Z r HnrZ (ok_root Z r OZ)), EEZ, EK, EE. auto. }
      assert (NdZ : ndim (core Z r) = (length (heads Z r) + 1)%nat) by (unfold ndim; rewrite ShZ, app_length; auto).
      assert (Esl : upd (ndim (core Z r) - 1) (diag_slice N) (repeat All (ndim (core Z r))) = repeat All (length (heads Z r)) ++ [diag_slice N]).
      { rewrite NdZ. replace (length (heads Z r) + 1 - 1)%nat with (length (heads Z r)) by lia. clear. induction (length (heads Z r)); cbn; auto. f_equal. auto. }
      rewrite Esl. destruct (ft_sub_tensor_spec (core Z r) (repeat All (length (heads Z r)) ++ [diag_slice N])) as (C & HC & HsC & HgC).
      { rewrite app_length, repeat_length, NdZ. auto. }
      { intros j Hj. destruct (le_lt_dec (length (heads Z r)) j) as [Hge|Hlt].
        - assert (Ej : j = length (heads Z r)) by lia. rewrite Ej, ShZ. rewrite !app_nth2, repeat_length, Nat.sub_diag by (rewrite ?repeat_length; lia). cbn [nth].
          unfold slice_ok, diag_slice. apply Forall_forall. intros x Hx. apply in_map_iff in Hx. destruct Hx as (i & <- & Hi). apply in_seq in Hi. nia.
        - rewrite app_nth1 by (rewrite repeat_length; auto). rewrite nth_repeat. cbn. auto. }
      rewrite HC. cbn [bind].
      assert (EsC : shape C = heads Z r ++ [N]).
      { rewrite HsC, ShZ. rewrite combine_app by (rewrite repeat_length; auto). rewrite map_app. f_equal.
        - clear. induction (heads Z r); cbn; auto. f_equal. auto.
        - cbn. unfold diag_slice. rewrite map_length, seq_length. auto. }
      destruct (root_reext Z r C [N] OZ H2Z EsC) as (OW & SW & EW & VW); [cbn; lia|intros [E|[]]; lia|].
      exists (TB (ttree Z) (setc r C (cores Z))). split; [apply (tb_make_ok _ _ r); exact OW|]. split; auto. split; [cbn; congruence|].
      apply (full_returns _ r); auto.
      + rewrite SW, EW, ESZ, HsA. auto.
      + rewrite SW, EW, ESZ. intros is e Hi He. rewrite VW with (g := fun e => diag_idx [N] e) (is := is) (e := e); [|auto|rewrite ESZ; auto|auto].
        * rewrite VZ; [|auto|].
          -- destruct (diag_idx_divmod [N] e [] He) as (D1 & D2 & D3). rewrite app_nil_r in *. rewrite D1, D2.
             rewrite HgA, HgB by (rewrite ?ES, ?EE; auto). auto.
          -- destruct (diag_idx_divmod [N] e [] He) as (D1 & D2 & D3). rewrite app_nil_r in *. rewrite EK, EE. exact D3.
        * intros ks e' Hk He'. rewrite HgC by (rewrite <- HsC, EsC; apply valid_app; auto). f_equal.
          rewrite combine_app by (rewrite repeat_length, (valid_length _ _ Hk); auto). rewrite map_app. f_equal.
          rewrite <- (valid_length _ _ Hk). clear. induction ks; cbn; auto. f_equal. auto.
    - exists Z. split; auto. split; auto. split; [congruence|]. apply (full_returns Z r); auto.
      + rewrite ESZ, EEZ, EK, EE, HsA. f_equal. destruct (exts X r) as [|N [|b l]]; cbn in *; try lia; auto. assert (N = 1%nat) by nia. subst N. auto.
      + rewrite ESZ, EEZ. intros is e Hi He. rewrite VZ by auto. rewrite EK, EE in He.
        destruct (exts X r) as [|N [|b l]]; cbn in Hle, HN, Har; try lia.
        * inversion He; subst. cbn. rewrite HgA, HgB by (rewrite ?ES, ?EE; auto; constructor). auto.
        * assert (N = 1%nat) by nia. subst N. inversion He as [|k ? e' ? Hk He']; subst. inversion He'; subst. cbn in Hk. assert (k = 0%nat) by lia. subst k. cbn.
          assert (Hv0 : valid [1%nat] [0%nat]) by (constructor; [lia|constructor]).
          rewrite HgA, HgB by (rewrite ?ES, ?EE; auto). auto.
  Qed.
End KronThm.
