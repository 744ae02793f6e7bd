(** tensor_matrix_product_eval_diag on tree-based tensors. *)
From Coq Require Import List Arith Lia Bool Sorted Ring Permutation.
From Verif.Base Require Import ListAux CRing Index.
From Verif.Model Require Import Utils Numpy FullTensor DimensionTree TreeBased TreeEval.
From Verif.Spec Require Import TensorSpec TreeSpec TreeTensorSpec.
From Verif.Proofs Require Import NumpyP FullTensorP FullTensorP3 FunctionsP MIMoreP DimTreeP TreeTensorP TreeTensorP2 TreeTensorP3 TreeTensorP4 TreeTensorP7 EinsumP EinsumP2 TreeTensorP17.
Import ListNotations.

Lemma adj_dups_count l x : StronglySorted le l -> count_occ Nat.eq_dec (adj_dups l) x = count_occ Nat.eq_dec l x - 1.
Proof.
  induction 1 as [|a l Hs IH Hf]; auto. destruct l as [|b l].
  - cbn. destruct (Nat.eq_dec a x); auto.
  - cbn [adj_dups]. destruct (Nat.eqb_spec a b) as [->|E].
    + change (count_occ Nat.eq_dec (b :: adj_dups (b :: l)) x = count_occ Nat.eq_dec (b :: b :: l) x - 1). cbn [count_occ] in *. destruct (Nat.eq_dec b x); [rewrite IH; lia|exact IH].
    + change (count_occ Nat.eq_dec (adj_dups (b :: l)) x = count_occ Nat.eq_dec (a :: b :: l) x - 1). rewrite IH. cbn [count_occ]. destruct (Nat.eq_dec a x) as [->|]; [|auto].
      assert (count_occ Nat.eq_dec (b :: l) x = 0) as Hc.
      { apply count_occ_not_In. intros Hi. inversion Hs as [|? ? Hs' Hf']; subst. inversion Hf as [|? ? Hxb Hf2]; subst.
        destruct Hi as [Hi|Hi]; [congruence|]. rewrite Forall_forall in Hf'. apply Hf' in Hi. lia. }
      cbn [count_occ] in Hc. lia.
Qed.
Lemma NoDup_fast_intersect a b : NoDup a -> NoDup b -> NoDup (fast_intersect a b).
Proof.
  intros Ha Hb. apply (NoDup_count_occ Nat.eq_dec). intros x. unfold fast_intersect. rewrite adj_dups_count by apply sort_nat_sorted.
  assert (count_occ Nat.eq_dec (sort_nat (a ++ b)) x = count_occ Nat.eq_dec a x + count_occ Nat.eq_dec b x) as ->.
  { rewrite <- count_occ_app. apply Permutation_count_occ, sort_nat_perm. }
  rewrite (NoDup_count_occ Nat.eq_dec) in Ha, Hb. specialize (Ha x). specialize (Hb x). lia.
Qed.

Lemma nth_rep {A} (a d : A) n k : k < n -> nth k (repeat a n) d = a.
Proof. revert k. induction n as [|n IH]; intros [|k] H; cbn; auto; try lia. apply IH. lia. Qed.

Section Eval.
  Context {R : Type} {CR : CRing R}.
  Add Ring Rrt18 : rth.
  Local Open Scope cr_scope.

  Definition leaf_rel (M A C : nd R) : Prop := exists m s2, shape A = m :: s2 /\ shape C = mrows M :: s2 /\
    forall i a2, (i < mrows M)%nat -> valid s2 a2 -> get C (i :: a2) = rsum m (fun j => get M [i; j] * get A (j :: a2)).
  (** products along the dimensions of active leaves: only the cores of these leaves change *)
  Lemma chain_cores X mus Ms Z : chain X mus Ms Z -> forall r, tb_ok X r -> is_leaf (ttree X) r = false ->
    Forall (fun mu => (mu < tb_order X)%nat) mus -> NoDup mus -> (forall mu, In mu mus -> active X (nth mu (d2i (ttree X)) 0%nat) = true) ->
    (forall n, node (ttree X) n -> (forall mu, In mu mus -> nth mu (d2i (ttree X)) 0%nat <> n) -> core Z n = core X n) /\
    (forall k, (k < length mus)%nat -> let n := nth (nth k mus 0%nat) (d2i (ttree X)) 0%nat in leaf_rel (nth k Ms (scalar r0)) (core X n) (core Z n)).
  Proof.
    induction 1 as [X|X X1 Z mu M mus Ms H1 H2 IH]; intros r O Hr HF ND HA.
    - split; auto. cbn. intros; lia.
    - inversion HF as [|? ? Hmu HF']; subst. inversion ND as [|? ? Hni ND']; subst. pose proof (proj1 H1) as Et. pose proof (proj1 O) as V.
      pose proof (ax_ok X X1 r mu _ _ O Hmu Hr H1) as O1.
      assert (Ha : active X (nth mu (d2i (ttree X)) 0%nat) = true) by (apply HA; simpl; auto).
      assert (Etg : target X mu = nth mu (d2i (ttree X)) 0%nat) by (unfold target; rewrite Ha; auto).
      assert (Etx : target_axis X mu = 0%nat) by (unfold target_axis; rewrite Ha; auto).
      assert (HFr : forall nu, In nu mus -> (nu < tb_order X)%nat) by (rewrite Forall_forall in HF'; auto).
      assert (Hnd : forall nu, In nu mus -> node (ttree X) (nth nu (d2i (ttree X)) 0%nat)) by (intros nu Hnu; apply (leaf_node _ r V), d2i_leaf, HFr; auto).
      assert (Hne : forall nu, In nu mus -> nth nu (d2i (ttree X)) 0%nat <> nth mu (d2i (ttree X)) 0%nat).
      { intros nu Hnu E. apply (proj1 (NoDup_nth (d2i (ttree X)) 0%nat) (NoDup_d2i _ r V)) in E; [subst; contradiction|apply HFr; auto|exact Hmu]. }
      destruct (IH r O1) as [I1 I2]; auto; try (rewrite Et; auto).
      { eapply Forall_impl; [|exact HF']. intros a Ha'. rewrite (order_eq X X1 Et). auto. }
      { intros nu Hnu. rewrite (ax_active X X1 r mu _ _ O Hmu Hr H1) by (apply Hnd; auto). apply HA. simpl. auto. }
      rewrite Et in I1, I2. split.
      + intros n Hn Hnot. rewrite I1; auto; [|intros nu Hnu; apply Hnot; simpl; auto].
        apply (ax_core X X1 mu _ _ H1); auto. rewrite Etg. intros ->. apply (Hnot mu); simpl; auto.
      + intros [|k] Hk; cbn [nth length] in *.
        * destruct H1 as (_ & _ & Hq & _ & s1 & m & s2 & L1 & S1 & S2 & G). rewrite Etg in *. rewrite Etx in L1. destruct s1; [|discriminate]. cbn [app] in *.
          rewrite I1; [|apply (leaf_node _ r V), d2i_leaf; exact Hmu|intros nu Hnu; apply Hne; auto].
          exists m, s2. split; auto. split; auto. intros i a2 Hi Ha2. apply (G [] i a2); auto. constructor.
        * assert (Hin : In (nth k mus 0%nat) mus) by (apply nth_In; lia).
          rewrite <- (ax_core X X1 mu _ _ H1 (nth (nth k mus 0%nat) (d2i (ttree X)) 0%nat)); [apply I2; lia|apply Hnd; auto|]. rewrite Etg. apply Hne. auto.
  Qed.

  Variables (X : tbt R) (r : nat) (Ms : list (nd R)) (q : nat).
  Hypothesis O : tb_ok X r.
  Hypothesis H2 : (2 <= tb_order X)%nat.
  Hypothesis LM : length Ms = tb_order X.
  Hypothesis Hq : (0 < q)%nat.
  Hypothesis HM : forall mu, (mu < tb_order X)%nat -> shape (nth mu Ms (scalar r0)) = [q; nth mu (tb_shape X) 0%nat].
  Let t := ttree X.
  Let V : dim_tree t r := proj1 O.
  Let D := tb_order X.
  Let Hr : is_leaf t r = false := root_not_leaf X r O H2.

  Lemma ed_leaf mu : (mu < D)%nat -> is_leaf t (nth mu (d2i t) 0%nat) = true.
  Proof. intros H. apply d2i_leaf. exact H. Qed.

  (** X with all leaves activated and multiplied by the matrices *)
  Lemma ed_Z : exists Z, tb_ok Z r /\ ttree Z = t /\ exts Z r = exts X r /\ tb_shape Z = repeat q D /\
    (forall n, node t n -> is_leaf t n = false -> core Z n = core X n) /\
    (forall n, is_leaf t n = true -> active X n = true -> active Z n = true /\ leaf_rel (nth (index_of n (d2i t)) Ms (scalar r0)) (core X n) (core Z n)) /\
    (forall n, is_leaf t n = true -> active X n = false -> active Z n = true /\
       forall i x, (i < q)%nat -> (x < tb_size X n)%nat -> get (core Z n) [i; x] = get (nth (index_of n (d2i t)) Ms (scalar r0)) [i; x]) /\
    (forall is e, valid (repeat q D) is -> valid (exts X r) e -> tval Z r is e = bsum (tb_shape X) (fun js => tval X r js e * factors Ms is js)).
  Proof.
    assert (Hd : forall n, In n (d2i t) -> node t n) by (intros n Hn; apply (leaf_node t r V); apply inb_spec; auto).
    destruct (tb_activate_spec X r (d2i t) O H2 Hd) as (W & HW & SV & HAct & HCore). pose proof SV as (OW & TW & SW & EW & VW).
    assert (HEye : forall n, is_leaf t n = true -> active X n = false -> core W n = np_eye (tb_size X n)).
    { intros n Hl Ha. unfold tb_activate in HW. destruct (activate_fold X r O (d2i t) (cores X) (ok_cores_length X r O) Hd) as (l & Hf & HL & Hc). cbv zeta in Hf, HW.
      unfold t in *. rewrite Hf in HW. cbn [bind] in HW. unfold tb_make in HW. destruct (forallb (activec l) (internal_nodes (ttree X))); [|discriminate]. injection HW as <-.
      change (core (TB (ttree X) l) n) with (nthc l n). rewrite Hc by (apply (leaf_node _ r V); auto). unfold is_leaf in Hl. rewrite Hl, Ha. reflexivity. }
    assert (OrdW : tb_order W = D) by (apply order_eq; auto).
    destruct (tb_tmp_chain W r Ms (seq 0 D)) as (Z & HZ & CZ); auto.
    - rewrite OrdW. auto.
    - apply seq_NoDup.
    - rewrite OrdW. apply Forall_forall. intros x Hx. apply in_seq in Hx. lia.
    - rewrite seq_length. auto.
    - intros k Hk. rewrite seq_length in Hk. rewrite seq_nth by auto. cbn [Nat.add]. exists q. split; auto. rewrite SW. apply HM. auto.
    - assert (F0 : Forall (fun mu => (mu < tb_order W)%nat) (seq 0 D)) by (rewrite OrdW; apply Forall_forall; intros x Hx; apply in_seq in Hx; lia).
      destruct (chain_ok W (seq 0 D) Ms Z r CZ OW) as (OZ & EZ & SZ & AZ & VZ); auto; [rewrite TW; auto|apply seq_NoDup|].
      pose proof (chain_tree _ _ _ _ CZ) as TZ. rewrite TW in TZ.
      destruct (chain_cores W (seq 0 D) Ms Z CZ r OW) as [C1 C2]; auto; [rewrite TW; auto|apply seq_NoDup| |].
      { intros mu Hmu. apply in_seq in Hmu. rewrite TW. fold t. assert (Hl : is_leaf t (nth mu (d2i t) 0%nat) = true) by (apply ed_leaf; lia). rewrite HAct by (apply (leaf_node t r V); auto). unfold is_leaf in Hl. fold t. rewrite Hl. apply orb_true_r. }
      rewrite TW in C1, C2. fold t in C1, C2.
      assert (Hmr : map mrows Ms = repeat q D).
      { apply nth_ext' with (d := 0%nat); [rewrite map_length, repeat_length; auto|]. rewrite map_length. intros k Hk. rewrite (map_nth_in mrows Ms k (scalar r0) 0%nat) by auto. unfold mrows. rewrite HM by (unfold D in *; lia). rewrite nth_rep by (unfold D; lia). reflexivity. }
      assert (SZ' : tb_shape Z = repeat q D).
      { rewrite SZ, Hmr. apply put_all; rewrite ?repeat_length; auto. rewrite tb_shape_length. rewrite TW. reflexivity. }
      assert (LR : forall n, is_leaf t n = true -> leaf_rel (nth (index_of n (d2i t)) Ms (scalar r0)) (core W n) (core Z n)).
      { intros n Hl. destruct (leaf_index t n Hl) as [K1 K2]. specialize (C2 (index_of n (d2i t))). rewrite seq_length in C2. specialize (C2 K1). cbv zeta in C2. rewrite seq_nth in C2 by exact K1. cbn [Nat.add] in C2. rewrite K2 in C2. exact C2. }
      assert (AZ' : forall n, is_leaf t n = true -> active Z n = true).
      { intros n Hl. assert (Hn : node t n) by (apply (leaf_node t r V); auto). rewrite AZ by (rewrite TW; auto). rewrite HAct by auto. unfold is_leaf in Hl. fold t. rewrite Hl. apply orb_true_r. }
      exists Z. split; auto. split; auto. split; [congruence|]. split; auto. split; [|split; [|split]].
      + intros n Hn Hl. rewrite C1; auto.
        * apply HCore; auto. apply (ok_internal X r O); auto.
        * intros mu Hmu E. apply in_seq in Hmu. assert (K : is_leaf t (nth mu (d2i t) 0%nat) = true) by (apply ed_leaf; lia). rewrite E in K. congruence.
      + intros n Hl Ha. split; auto. rewrite <- (HCore n); auto. apply (leaf_node t r V); auto.
      + intros n Hl Ha. split; auto. intros i x Hi Hx. destruct (LR n Hl) as (m & s2 & S1 & S2 & G). rewrite HEye in S1 by auto. cbn in S1. injection S1 as <- <-.
        destruct (leaf_index t n Hl) as [K1 K2]. assert (Emr : mrows (nth (index_of n (d2i t)) Ms (scalar r0)) = q) by (unfold mrows; rewrite HM by exact K1; reflexivity). rewrite Emr in G.
        rewrite (G i [x]); auto; [|constructor; [auto|constructor]]. rewrite HEye by auto. rewrite (rsum_single _ x); [|exact Hx|intros j Hj Hne; cbn [np_eye get nth]; destruct (Nat.eqb_spec j x); [congruence|ring]]. cbn [np_eye get nth]. rewrite Nat.eqb_refl. ring.
      + intros is e Hi He. rewrite VZ by (rewrite ?SZ', ?EW; auto). assert (Li : length is = D) by (rewrite (valid_length _ _ Hi), repeat_length; auto).
        assert (E1 : sel 0%nat (tb_shape W) (seq 0 D) = tb_shape X). { rewrite SW. assert (LS : length (tb_shape X) = D) by apply tb_shape_length. rewrite sel_seq_firstn by lia. rewrite <- LS. apply firstn_all. }
        rewrite E1. apply bsum_ext. intros js Hjs. assert (Lj : length js = D) by (rewrite (valid_length _ _ Hjs), tb_shape_length; reflexivity).
        rewrite put_all by auto. rewrite sel_seq_firstn by lia. rewrite firstn_all2 by lia. rewrite VW by auto. reflexivity.
  Qed.

  Theorem tb_tmp_eval_diag_ok : exists C, tb_tmp_eval_diag X Ms = Some C /\ shape C = q :: exts X r /\
    forall i e, (i < q)%nat -> valid (exts X r) e ->
      get C (i :: e) = bsum (tb_shape X) (fun js => tval X r js e * factors Ms (repeat i D) js).
  Proof.
    destruct ed_Z as (Z & OZ & TZ & EZ & SZ & CZi & CZa & CZn & VZ).
    unfold tb_tmp_eval_diag. fold t. set (ind := active_dims X).
    assert (Hind : forall mu, In mu ind <-> (mu < D)%nat /\ active X (nth mu (d2i t) 0%nat) = true).
    { intros mu. unfold ind, active_dims. rewrite filter_In, in_seq. fold t. unfold D. split; intros [? ?]; split; auto; lia. }
    assert (NDi : NoDup ind) by (apply NoDup_filter, seq_NoDup).
    assert (Fi : Forall (fun mu => (mu < tb_order X)%nat) ind) by (apply Forall_forall; intros mu Hmu; apply Hind in Hmu; apply Hmu).
    destruct (tb_tmp_chain X r (map (fun i => nth i Ms (scalar r0)) ind) ind) as (Y & HY & CY); auto.
    { rewrite map_length. auto. }
    { intros k Hk. rewrite map_nth_in with (da := 0%nat) by auto. exists q. split; auto. apply HM. rewrite Forall_forall in Fi. apply Fi, nth_In. auto. }
    rewrite HY. cbn [bind].
    destruct (chain_ok X ind _ Y r CY O Hr Fi NDi) as (OY & EY & SY & AY & _). pose proof (chain_tree _ _ _ _ CY) as TY.
    destruct (chain_cores X ind _ Y CY r O Hr Fi NDi) as [Y1 Y2]. { intros mu Hmu. apply Hind in Hmu. apply Hmu. }
    fold t in Y1, Y2, TY.
    assert (YI : forall n, node t n -> is_leaf t n = false -> core Y n = core X n).
    { intros n Hn Hl. apply Y1; auto. intros mu Hmu E. apply Hind in Hmu. assert (K : is_leaf t (nth mu (d2i t) 0%nat) = true) by (apply ed_leaf; apply Hmu). rewrite E in K. congruence. }
    assert (YL : forall n, is_leaf t n = true -> active X n = true -> leaf_rel (nth (index_of n (d2i t)) Ms (scalar r0)) (core X n) (core Y n)).
    { intros n Hl Ha. destruct (leaf_index t n Hl) as [K1 K2]. assert (Hin : In (index_of n (d2i t)) ind) by (apply Hind; rewrite K2; split; auto).
      destruct (index_of_nth _ _ Hin) as [J1 J2]. specialize (Y2 _ J1). cbv zeta in Y2. rewrite J2, K2 in Y2. rewrite map_nth_in with (da := 0%nat) in Y2 by auto. rewrite J2 in Y2. exact Y2. }
    pose (Q := fun n (a : nd R) => (active X n = true -> shape a = q :: exts X n /\
        forall i e, (i < q)%nat -> valid (exts X n) e -> get a (i :: e) = tval Z n (repeat i D) e)).
    pose proof (proj1 V) as T.
    destruct (bottom_up_local t r T no_core (ed_node X Ms) Q (cores Y)) as (s' & E & HL & HQ).
    { rewrite <- TY. apply (ok_cores_length Y r OY). }
    { intros n s Hn HLs Hs HQc. unfold ed_node. fold t. change (nthc s n) with (nth (n - 1) s no_core). rewrite Hs.
      change (nth (n - 1) (cores Y) no_core) with (core Y n). destruct (is_leaf t n) eqn:Hl.
      - eexists. split; [reflexivity|]. intros Ha. destruct (YL n Hl Ha) as (m & s2 & S1 & S2 & G).
        destruct (leaf_index t n Hl) as [K1 K2]. assert (Emr : mrows (nth (index_of n (d2i t)) Ms (scalar r0)) = q) by (unfold mrows; rewrite HM by exact K1; reflexivity). rewrite Emr in *.
        assert (Ee : exts X n = s2) by (unfold exts, arity_at; fold t; rewrite Hl, S1; reflexivity). rewrite Ee. split; auto. intros i e Hi He.
        rewrite G by auto. destruct (CZa n Hl Ha) as (AZ & m' & s2' & S1' & S2' & G'). rewrite S1 in S1'. injection S1' as <- <-. rewrite Emr in *.
        rewrite (tval_leaf Z r (proj1 OZ)); [|rewrite TZ; auto|auto]. rewrite TZ. rewrite nth_rep by exact K1. rewrite G' by auto. reflexivity.
      - rewrite (YI n Hn Hl). set (cs := children t n).
        assert (Hedge : forall c, In c cs -> edge t n c) by (intros c Hc; apply in_children in Hc; [|exact Hn]; destruct Hc as [Hc1 Hc2]; split; auto).
        assert (NDc : NoDup cs) by apply NoDup_children.
        pose proof (ok_internal X r O n Hn Hl) as Han. pose proof (heads_internal X r O n Hn Hl) as Hh. fold t in Hh. fold cs in Hh.
        assert (HC : shape (core X n) = map (csize X) cs ++ exts X n) by (rewrite <- Hh; apply ok_shape; auto).
        set (v := fun c i x => tval Z c (repeat i D) [x]).
        set (act := fast_intersect cs (active_nodes X)). set (inact := filter (fun c => negb (active X c)) cs).
        assert (Nact : NoDup act) by (apply NoDup_fast_intersect; auto; apply NoDup_filter, seq_NoDup).
        assert (Hact : forall c, In c act <-> In c cs /\ active X c = true).
        { intros c. unfold act. rewrite fast_intersect_spec by (auto; apply NoDup_filter, seq_NoDup). unfold active_nodes. rewrite filter_In. fold t. split; [intros (? & _ & ?); auto|]. intros [Hc Ha]. split; auto. split; auto.
          destruct (Hedge c Hc) as (_ & Hnc & _). unfold node in Hnc. unfold nodes. apply in_seq. lia. }
        assert (Iact : incl act cs) by (intros c Hc; apply Hact in Hc; apply Hc).
        assert (Einact : filter (fun c => negb (inb c act)) cs = inact).
        { apply filter_ext_in. intros c Hc. f_equal. destruct (active X c) eqn:Ea; [apply inb_spec, Hact; auto|]. apply inb_false. intros K. apply Hact in K. destruct K. congruence. }
        assert (Htgt : forall i e, valid (exts X n) e -> tval Z n (repeat i D) e = bsum (map (csize X) cs) (fun ms => get (core X n) (ms ++ e) * lprod (combine cs ms) (fun p => v (fst p) i (snd p)))).
        { intros i e He. rewrite (tval_internal Z r (proj1 OZ)) by (rewrite TZ; auto). unfold heads. rewrite TZ, CZi by auto. fold cs. fold (heads X n). unfold heads in Hh. fold t in Hh. rewrite Hh. reflexivity. }
        assert (HT : forall c, In c act -> shape (nthc s c) = [q; csize X c] /\ forall i x, (i < q)%nat -> (x < csize X c)%nat -> get (nthc s c) [i; x] = v c i x).
        { intros c Hc. apply Hact in Hc. destruct Hc as [Hc Ha]. destruct (HQc c (Hedge c Hc) Ha) as [S1 G1].
          assert (Ec : exts X c = [csize X c]). { unfold csize. rewrite Ha. apply (ok_exts_rank X r O); auto; [apply (Hedge c Hc)|]. apply (edge_ne t r T n c). auto. }
          rewrite Ec in *. split; auto. intros i x Hi Hx. apply G1; auto. constructor; [auto|constructor]. }
        set (mat := fun c => nth (index_of c (d2i t)) Ms (scalar r0)).
        assert (HT2 : forall c, In c inact -> shape (mat c) = [q; csize X c] /\ forall i x, (i < q)%nat -> (x < csize X c)%nat -> get (mat c) [i; x] = v c i x).
        { intros c Hc. unfold inact in Hc. apply filter_In in Hc. destruct Hc as [Hc Ha]. apply negb_true_iff in Ha.
          assert (Hlc : is_leaf t c = true). { destruct (is_leaf t c) eqn:Q1; auto. rewrite (ok_internal X r O c) in Ha; [discriminate|apply (Hedge c Hc)|auto]. }
          destruct (leaf_index t c Hlc) as [K1 K2]. unfold csize. rewrite Ha. split.
          - unfold mat. rewrite HM by exact K1. rewrite (tb_shape_leaf X c Hlc). auto.
          - intros i x Hi Hx. destruct (CZn c Hlc Ha) as [AZ G]. unfold v. rewrite (tval_leaf Z r (proj1 OZ)); [|rewrite TZ; auto|auto]. rewrite TZ.
            rewrite nth_rep by exact K1. rewrite G by auto. reflexivity. }
        assert (HACC : forall L F, L <> [] -> (forall c, In c L -> shape (F c) = [q; csize X c] /\ forall i x, (i < q)%nat -> (x < csize X c)%nat -> get (F c) [i; x] = v c i x) ->
          exists tmp, ed_acc (map F L) = Some tmp /\ shape tmp = q :: map (csize X) L /\
            forall i ks, (i < q)%nat -> valid (map (csize X) L) ks -> get tmp (i :: ks) = lprod (combine L ks) (fun p => v (fst p) i (snd p))).
        { intros L F NE HF. destruct (acc_ok F (csize X) q L NE) as (tmp & E1 & S1 & G1); [intros c Hc; apply HF; auto|].
          exists tmp. split; auto. split; auto. intros i ks Hi Hks. rewrite G1 by (rewrite (valid_length _ _ Hks), map_length; auto).
          apply lprod_ext. intros [c x] Hp. cbn [fst snd]. pose proof (in_combine_l _ _ _ _ Hp) as Hc. apply HF; auto.
          clear - Hp Hks. revert ks Hks Hp. induction L as [|d L IH]; intros [|y ks] Hks Hp; cbn in Hp; try contradiction. inversion Hks; subst. destruct Hp as [Hp|Hp]; [injection Hp as <- <-; auto|]. apply (IH ks); auto. }
        assert (Epos : forall L, incl L cs -> map (fun c => (child_number t c - 1)%nat) L = map (fun c => index_of c cs) L).
        { intros L HI. apply map_ext_in. intros c Hc. apply (child_index X r O n c). apply Hedge. auto. }
        assert (TD : forall L F, L <> [] -> NoDup L -> incl L cs -> (forall c, In c L -> shape (F c) = [q; csize X c] /\ forall i x, (i < q)%nat -> (x < csize X c)%nat -> get (F c) [i; x] = v c i x) ->
          exists tmp T0, ed_acc (map F L) = Some tmp /\ ft_tensordot tmp (core X n) (seq 1 (ndim tmp - 1)) (map (fun c => (child_number t c - 1)%nat) L) = Some T0 /\
            shape T0 = q :: map (csize X) (filter (fun c => negb (inb c L)) cs) ++ exts X n /\
            forall i ls e, (i < q)%nat -> valid (map (csize X) (filter (fun c => negb (inb c L)) cs)) ls -> valid (exts X n) e ->
              get T0 (i :: ls ++ e) = bsum (map (csize X) L) (fun ks => lprod (combine L ks) (fun p => v (fst p) i (snd p)) * get (core X n) (asm (ndim (core X n)) (map (fun c => index_of c cs) L) ks (ls ++ e)))).
        { intros L F NE NDL HI HF. destruct (HACC L F NE HF) as (tmp & E1 & S1 & G1). destruct (td_pos cs (csize X) (core X n) (exts X n) q v NDc HC L tmp NDL HI S1 G1) as (T0 & E2 & S2 & G2).
          exists tmp, T0. split; auto. split; [rewrite Epos by auto; exact E2|]. auto. }
        assert (FIN : forall L T0, NoDup L -> incl L cs -> filter (fun c => negb (inb c L)) cs = [] ->
           shape T0 = q :: map (csize X) (filter (fun c => negb (inb c L)) cs) ++ exts X n ->
           (forall i ls e, (i < q)%nat -> valid (map (csize X) (filter (fun c => negb (inb c L)) cs)) ls -> valid (exts X n) e ->
              get T0 (i :: ls ++ e) = bsum (map (csize X) L) (fun ks => lprod (combine L ks) (fun p => v (fst p) i (snd p)) * get (core X n) (asm (ndim (core X n)) (map (fun c => index_of c cs) L) ks (ls ++ e)))) ->
           Q n T0).
        { intros L T0 NDL HI ER S1 G1. rewrite ER in S1, G1. cbn [map app] in S1. intros _. split; auto. intros i e Hi He. pose proof (G1 i [] e Hi (Forall2_nil _) He) as G0. cbn [app] in G0. rewrite G0.
          rewrite Htgt by auto. rewrite (assemble cs (csize X) (core X n) (exts X n) v NDc HC i e L NDL HI) by (apply valid_length; auto). rewrite ER. cbn [map bsum combine lprod app]. apply bsum_ext. intros ks _. ring. }
        destruct act as [|a0 act'] eqn:Eact.
        + assert (Eall : inact = cs). { rewrite <- Einact. apply filter_true. auto. }
          assert (NEc : cs <> []). { intros K. destruct (leaf_iff t r V n) as [_ Hlf]. rewrite Hlf in Hl; [discriminate|]. split; auto. intros c Hc. assert (Hc2 : In c cs) by (apply in_children; auto). rewrite K in Hc2. destruct Hc2. }
          destruct (TD inact mat) as (tmp & T0 & E1 & E2 & S2 & G2); auto; [rewrite Eall; auto|rewrite Eall; auto|rewrite Eall; intros x Hx; auto|].
          cbn [bind]. destruct inact as [|b0 inact'] eqn:Ein; [congruence|]. rewrite E1. cbn [bind]. exists T0. split; [exact E2|].
          apply (FIN (b0 :: inact')); auto; rewrite Eall; auto.
          * intros x Hx. auto.
          * apply filter_none. intros x Hx. apply negb_false_iff, inb_spec. auto.
        + rewrite <- Eact in *. destruct (TD act (nthc s)) as (tmp & T0 & E1 & E2 & S2 & G2); auto; [rewrite Eact; discriminate|].
          rewrite E1. cbn [bind]. rewrite E2. cbn [bind]. rewrite Einact in S2, G2. destruct inact as [|b0 inact'] eqn:Ein.
          * exists T0. split; auto. apply (FIN act); auto; rewrite Einact; auto.
          * rewrite <- Ein in *. destruct (HACC inact mat) as (tmp2 & E3 & S3 & G3); auto; [rewrite Ein; discriminate|]. rewrite E3. cbn [bind].
            assert (N3 : (ndim tmp2 - 1)%nat = length (map (csize X) inact)) by (unfold ndim; rewrite S3; cbn [length]; lia).
            destruct (contract_ed tmp2 T0 q (map (csize X) inact) (exts X n)) as (C & EC & SC & GC); auto.
            exists C. split; [rewrite N3; exact EC|]. intros _. split; auto. intros i e Hi He. rewrite GC by (apply valid_length; auto).
            rewrite Htgt by auto. rewrite (assemble cs (csize X) (core X n) (exts X n) v NDc HC i e act Nact Iact) by (apply valid_length; auto). rewrite Einact.
            apply bsum_ext. intros ls Hls. rewrite G3 by auto. rewrite G2 by auto. rewrite <- bsum_scal_l. apply bsum_ext. intros ks _. ring. }
    rewrite E. cbn [bind]. rewrite (root_eq t r T). exists (nthc s' r). split; auto.
    destruct (HQ r (proj1 T) (ok_root X r O)) as [S1 G1]. change (nthc s' r) with (nth (r - 1) s' no_core). split; auto.
    intros i e Hi He. rewrite G1 by auto. apply VZ; auto.
    unfold valid. clear - Hi. induction D; cbn; constructor; auto.
  Qed.
End Eval.
