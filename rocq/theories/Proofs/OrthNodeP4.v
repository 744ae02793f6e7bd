(** orth_at_node. *)
From Coq Require Import List Arith Lia Bool Reals Lra Permutation.
From Verif.Base Require Import ListAux CRing Index RealAux LinAlg.
From Verif.Model Require Import Sorting Numpy FullTensor Diagonal Canonical DimensionTree TreeBased Truncator HSVD HsvdTree OrthNode.
From Verif.Spec Require Import TensorSpec TreeSpec TreeTensorSpec TruncatorSpec GramSpec LearningSpec FunctionalSpec OrthNodeSpec.
From Verif.Proofs Require Import NumpyP FullTensorP FullTensorP4 DimTreeP DimTreeP2 TreeTensorP TreeTensorP2 TreeTensorP3 TreeTensorP4 TreeTensorP5 TreeTensorP6 TreeTensorP7 TreeTensorP12 TreeTensorP13 TreeTensorP14 TreeTensorP15 TreeTensorP29 PolyP5 HsvdP2 HsvdTreeP1 HsvdTreeP2 HsvdTreeP3 HsvdTreeP4 HsvdTreeP5 HsvdTreeP9 HsvdTreeP10 OrthNodeP1 OrthNodeP2 OrthNodeP3.
Import ListNotations.
Local Open Scope R_scope.

Lemma sel_put_in ds x is : NoDup ds -> Forall (fun d => (d < length is)%nat) ds -> length x = length ds -> sel 0%nat (put ds x is) ds = x.
Proof.
  intros ND HF L. apply nth_ext' with (d := 0%nat); [rewrite sel_length; auto|]. intros k Hk. rewrite sel_length in Hk. rewrite sel_nth by auto.
  assert (Hi : In (nth k ds 0%nat) ds) by (apply nth_In; auto). pose proof (proj1 (Forall_forall _ _) HF _ Hi) as Hl. cbv beta in Hl.
  rewrite put_nth_idx; auto. rewrite index_of_NoDup by auto. auto.
Qed.
Lemma sel_put_out ds x is es : (forall d, In d es -> ~ In d ds) -> sel 0%nat (put ds x is) es = sel 0%nat is es.
Proof. intros H. unfold sel. apply map_ext_in. intros d Hd. apply put_nth_out. auto. Qed.
(** orthonormal functions which are combinations of k functions: at most k *)
Lemma few ns a k (w : nat -> list nat -> R) (h : nat -> nat -> R) (g : nat -> list nat -> R) :
  (forall c d, (c < a)%nat -> (d < a)%nat -> bsum ns (fun y => w c y * w d y) = if (c =? d)%nat then 1 else 0) ->
  (forall c y, (c < a)%nat -> valid ns y -> w c y = rsum k (fun q => h c q * g q y)) -> (a <= k)%nat.
Proof.
  intros HO HW. destruct (le_lt_dec a k) as [|Lt]; auto. exfalso. destruct (dependent k h) as (x & (j & Hj & Nj) & Hx). apply Nj.
  assert (Z : forall y, valid ns y -> rsum (S k) (fun c => x c * w c y) = 0).
  { intros y Hy. rewrite (rsum_ext_R _ _ (fun c => rsum k (fun q => g q y * (x c * h c q)))).
    - rewrite rsum_swap_R. apply rsum_zero_R. intros q Hq. rewrite rsum_scal_l_R, Hx by auto. ring.
    - intros c Hc. rewrite HW by (auto; lia). rewrite <- rsum_scal_l_R. apply rsum_ext_R. intros. ring. }
  transitivity (bsum ns (fun y => rsum (S k) (fun c => x c * w c y) * w j y)).
  - rewrite (bsum_ext_R _ _ (fun y => rsum (S k) (fun c => x c * (w c y * w j y)))) by (intros y _; rewrite <- rsum_scal_r_R; apply rsum_ext_R; intros; ring).
    rewrite bsum_rsum_exchange_R. rewrite (rsum_ext_R _ _ (fun c => if (c =? j)%nat then x c else 0)); [symmetry; apply rsum_delta_R; lia|].
    intros c Hc. rewrite bsum_scal_l_R, HO by lia. destruct (c =? j)%nat; ring.
  - rewrite (bsum_ext_R _ _ (fun _ => 0 * 0)) by (intros y Hy; rewrite Z by auto; ring). rewrite bsum_scal_l_R. ring.
Qed.

Section Main.
  Variables (Z : tbt R) (r : nat).
  Hypothesis O : tb_ok Z r.
  Hypothesis H2 : (2 <= tb_order Z)%nat.
  Hypothesis HO : forall n, node (ttree Z) n -> active Z n = true -> n <> r -> orth_cols (core Z n).
  Local Notation t := (ttree Z).
  Let V : dim_tree t r := proj1 O.
  Let T : rooted_tree t r := proj1 V.
  Variables (n a : nat) (G L Sm : nd R) (A : nd R).
  Hypothesis HA : tb_full Z = Some A.
  Hypothesis Hn : node t n.
  Hypothesis Ha : active Z n = true.
  Hypothesis NE : n <> r.
  Hypothesis Ap : (0 < a)%nat.
  Let p := parent t n.
  Let K := csize Z n.
  Hypothesis HG : good Z r n G.
  Hypothesis SL : shape L = [K; a].
  Hypothesis SS : shape Sm = [a; K].
  Hypothesis EG : forall i j, (i < K)%nat -> (j < K)%nat -> get G [i; j] = rsum a (fun c => get L [i; c] * get L [j; c]).
  Hypothesis EI : forall c d, (c < a)%nat -> (d < a)%nat -> rsum K (fun k => get Sm [c; k] * get L [k; d]) = if (c =? d)%nat then 1 else 0.
  Lemma zn_frob : frob2 A = rsum K (fun k => get G [k; k]).
  Proof.
    destruct HG as (SG & W & FW & VG). destruct (full_inv Z r A O H2 HA) as [SA VA].
    rewrite (rsum_ext_R K _ (fun k => gm Z r n W [k] [k])) by (intros; apply VG; auto). unfold K. rewrite <- (norm_tr Z r O H2 HO n W Hn Ha NE FW).
    unfold frob2, tdist. rewrite SA, bsum_app, bsum_exchange. apply bsum_ext_R. intros e He. apply bsum_ext_R. intros is Hi. rewrite VA by auto. rcbn. ring.
  Qed.
  Lemma orth_node_main : exists Y,
    (let* Lt := np_transpose L [1%nat; 0%nat] in
     let* C := ft_tensor_matrix_product (core Z n) [Lt] (Some [(ndim (core Z n) - 1)%nat]) in
     let l := setc n C (cores Z) in
     let* P := ft_tensor_matrix_product (nthc l p) [Sm] (Some [(child_number t n - 1)%nat]) in
     tb_make (setc p P l) t) = Some Y /\ same_val Z Y r /\ (forall m, node t m -> active Y m = active Z m) /\
    (forall m, node t m -> m <> n -> m <> p -> core Y m = core Z m) /\ last (shape (core Y n)) 0%nat = a /\ (p <> r -> last (shape (core Y p)) 0%nat = last (shape (core Z p)) 0%nat) /\
    frame_at Y r A n /\ frob2 (core Y n) = frob2 A /\ (forall k, rank_at_most (shape A) (dims t n) k (get A) -> (a <= k)%nat).
  Proof.
    destruct HG as (SG & W & FW & VG). fold K in SG, VG.
    assert (He : edge t p n) by (apply (parent_is_edge _ r T n Hn NE)). assert (Hp : node t p) by apply He.
    assert (Hpn : p <> n) by (intros E; pose proof (level_edge _ r T p n He) as HL; rewrite E in HL; lia).
    destruct (axis_of_child Z r p n O He) as (s1 & s2 & L1 & Hsp). fold K in Hsp.
    pose proof (hsn Z r O n Hn Ha NE) as Hsn. fold K in Hsn. pose proof (ok_cores_length Z r O) as LC.
    destruct (np_transpose L [1%nat; 0%nat]) as [Lt|] eqn:EU; [|exfalso; unfold np_transpose in EU; unfold ndim in EU; rewrite SL in EU; cbn in EU; discriminate].
    assert (SLt : shape Lt = [a; K] /\ forall i j, get Lt [i; j] = get L [j; i]).
    { unfold np_transpose in EU. unfold ndim in EU. rewrite SL in EU. cbn in EU. inversion EU; subst Lt. cbn. split; auto. }
    destruct SLt as [SLt VLt].
    destruct (tmp_single (core Z n) Lt (heads Z n) [] K a Hsn SLt) as (C & HC & HsC & HgC).
    destruct (tmp_single (core Z p) Sm s1 s2 K a Hsp SS) as (P & HP & HsP & HgP).
    set (Y := TB t (setc p P (setc n C (cores Z)))).
    assert (Hcore : forall m, node t m -> core Y m = if (m =? p)%nat then P else if (m =? n)%nat then C else core Z m).
    { intros m Hm. unfold core, Y. cbn [cores]. unfold node in *. rewrite nthc_setc by (rewrite ?setc_length; lia). destruct (Nat.eqb_spec m p); auto. apply nthc_setc; lia. }
    assert (Hcp : core Y p = P) by (rewrite Hcore, Nat.eqb_refl; auto).
    assert (Hcn : core Y n = C) by (rewrite Hcore, Nat.eqb_refl by auto; destruct (Nat.eqb_spec n p); [congruence|auto]).
    assert (Lst : last (shape (core Y n)) 0%nat = a) by (rewrite Hcn, HsC; apply last_last).
    assert (Hout : outer Z n a P Y).
    { split; auto. split; [unfold Y; cbn [cores]; rewrite !setc_length; auto|]. split; [|split; [|split; auto; rewrite Hcn; auto]].
      - intros m Hm Hb N1. rewrite Hcore by auto. destruct (Nat.eqb_spec m p); [contradiction|]. destruct (Nat.eqb_spec m n) as [->|]; auto. exfalso. apply Hb, below_refl.
      - intros m Hm N1 N2. rewrite Hcore by auto. destruct (Nat.eqb_spec m p); [contradiction|]. destruct (Nat.eqb_spec m n); [contradiction|auto]. }
    pose proof (back Z r O H2 n a W (fun i j => get Sm [i; j]) s1 s2 P Hn Ha NE Ap FW L1 Hsp HsP HgP) as Back.
    destruct (Back Y Hout) as (OY & ShY & ExY & AcY & VaY).
    destruct (full_inv Z r A O H2 HA) as [SA VA].
    assert (LS : length (tb_shape Z) = tb_order Z) by (apply tb_shape_length).
    set (cd := cod Z A n). set (ns := sel 0%nat (shape A) cd). set (Wk := WW Z n W).
    assert (HW : forall k l, (k < K)%nat -> (l < K)%nat -> bsum ns (fun y => Wk k y * Wk l y) = rsum a (fun c => get L [k; c] * get L [l; c])).
    { intros k l Hk Hl. rewrite <- EG, VG by auto. symmetry. apply (pos_gm Z r O H2 A n W HA Hn). }
    set (w := fw K Wk (fun c k => get Sm [c; k])).
    assert (WE : forall k i1 e, valid (tb_shape Z) i1 -> valid (exts Z r) e -> W [k] i1 e = Wk k (sel 0%nat (i1 ++ e) cd)) by (intros; apply (pos_W Z r O H2 A n W HA Hn FW); auto).
    assert (WV : forall i1 e, valid (tb_shape Z) i1 -> valid (exts Z r) e -> valid ns (sel 0%nat (i1 ++ e) cd)) by (intros; apply (pos_valid Z r O H2 A n HA); auto).
    assert (NV : forall is c, valid (tb_shape Z) is -> (c < a)%nat -> tval Y n is [c] = rsum K (fun k => get L [k; c] * tval Z n is [k])).
    { intros is c Hi Hc. apply (node_val Z Y r n K a (fun k c => get L [k; c]) (heads Z n)); auto.
      - rewrite AcY; auto.
      - apply (ok_heads_length Z r O n Hn Ha).
      - rewrite Hcn. auto.
      - intros ks d Hk Hd. rewrite Hcn, HgC by (auto; constructor). apply rsum_ext_R. intros l _. rewrite VLt. auto.
      - intros m Hm Hb Nm. rewrite Hcore by auto. destruct (Nat.eqb_spec m p) as [E|N1]; [exfalso; apply (not_below_up Z r O H2 p n He); rewrite <- E; exact Hb|]. destruct (Nat.eqb_spec m n); [contradiction|auto].
      - intros mu. apply (leaf_bound Z r O n Ha is mu Hi). }
    assert (Main : forall is e, valid (tb_shape Z) is -> valid (exts Z r) e -> tval Y r is e = tval Z r is e).
    { intros is e Hi He'. rewrite VaY by auto. rewrite (sum_fact Z r O n W is e Hn Ha NE FW He'). fold K.
      rewrite (rsum_ext_R a _ (fun c => rsum K (fun k => tval Z n is [k] * (get L [k; c] * w c (sel 0%nat (is ++ e) cd))))).
      - rewrite rsum_swap_R. apply rsum_ext_R. intros k Hk. rewrite rsum_scal_l_R. f_equal. rewrite WE by auto. apply (fw_back ns K a Wk (fun k c => get L [k; c]) (fun c k => get Sm [c; k])); auto.
      - intros c Hc. rewrite NV by auto. rewrite <- rsum_scal_r_R. apply rsum_ext_R. intros k Hk. rewrite <- Rmult_assoc, (Rmult_comm (tval Z n is [k])). f_equal.
        unfold w, fw. apply rsum_ext_R. intros l _. rewrite WE by auto. auto. }
    exists Y. split.
    { cbn [bind]. replace (ndim (core Z n) - 1)%nat with (length (heads Z n)) by (unfold ndim; rewrite Hsn, app_length; simpl; lia). rewrite HC. cbn [bind]. cbv zeta.
      rewrite nthc_setc by (unfold node in *; lia). destruct (Nat.eqb_spec p n); [contradiction|]. change (nthc (cores Z) p) with (core Z p).
      rewrite (child_index Z r O p n He), <- L1, HP. cbn [bind]. apply (tb_make_ok _ t r). exact OY. }
    split; [split; auto|]. split; auto. split; [intros m Hm N1 N2; rewrite Hcore by auto; destruct (Nat.eqb_spec m p); [contradiction|]; destruct (Nat.eqb_spec m n); [contradiction|auto]|].
    split; auto. split.
    { intros Npr. assert (Ap' : active Z p = true) by (apply (ok_internal Z r O p Hp); apply (int_of_edge Z r O p n He)).
      assert (E1 := ok_exts_rank Z r O p Hp Ap' Npr). assert (E2 := ok_exts_rank Y r OY p Hp (eq_trans (AcY p Hp) Ap') Npr).
      assert (E3 : exts Y p = exts Z p).
      { unfold exts. rewrite Hcp, HsP, Hsp. change (ttree Y) with t. unfold arity_at. rewrite (int_of_edge Z r O p n He).
        assert (Hin : In n (children t p)) by (apply in_children; auto). apply index_of_nth in Hin. rewrite !skipn_app, L1. destruct (length (children t p) - index_of n (children t p))%nat eqn:E; [lia|]. auto. }
      congruence. }
    assert (FO : forall c d, (c < a)%nat -> (d < a)%nat -> bsum ns (fun y => w c y * w d y) = if (c =? d)%nat then 1 else 0).
    { intros c d Hc Hd. apply (fw_orth ns K a Wk (fun k c => get L [k; c]) (fun c k => get Sm [c; k])); auto. }
    split; [|split].
    - unfold frame_at. cbv zeta. rewrite Lst. change (ttree Y) with t. exists w. split; [exact FO|].
      intros Y' F OY' TY' SY' CY' HF.
      assert (Hout' : outer Z n a P Y').
      { destruct Hout as (U1 & U2 & U3 & U4 & U5 & U6). split; auto. split; [rewrite (ok_cores_length Y' r OY'), TY'; auto|]. split; [|split; [|split]].
        - intros m Hm Hb N1. rewrite CY' by auto. apply U3; auto.
        - intros m Hm N1 N2. rewrite SY' by auto. apply U4; auto.
        - rewrite SY' by auto. auto.
        - fold p. rewrite CY'; auto. apply (not_below_up Z r O H2 p n He). }
      destruct (Back Y' Hout') as (_ & ShY' & ExY' & AcY' & VaY').
      assert (H2' : (2 <= tb_order Y')%nat) by (unfold tb_order; rewrite TY'; exact H2).
      destruct (full_inv Y' r F OY' H2' HF) as [SF VF]. split; [congruence|].
      intros is Hv. rewrite SA in Hv. apply valid_app_inv in Hv. destruct Hv as (i1 & e & -> & Hi1 & He').
      assert (Li : length i1 = tb_order Z) by (rewrite <- LS; apply (valid_length _ _ Hi1)).
      rewrite VF by (rewrite ?ShY', ?ExY'; auto). rewrite VaY' by auto. apply rsum_ext_R. intros c Hc.
      change (tb_order Y) with (tb_order Z). replace (firstn (tb_order Z) (i1 ++ e)) with i1 by (rewrite firstn_app, Li, Nat.sub_diag, firstn_O, app_nil_r; symmetry; apply firstn_all2; lia).
      f_equal. unfold w, fw. apply rsum_ext_R. intros k _. rewrite WE by auto. reflexivity.
    - rewrite zn_frob. unfold frob2. rewrite Hcn, HsC, bsum_app, bsum_exchange. cbn [bsum].
      rewrite (rsum_ext_R K _ (fun k => rsum a (fun c => get L [k; c] * get L [k; c]))) by (intros; apply EG; auto). rewrite rsum_swap_R. apply rsum_ext_R. intros c Hc.
      rewrite (bsum_ext_R _ _ (fun ks => rsum K (fun k => rsum K (fun l => (get L [k; c] * get L [l; c]) * (get (core Z n) (ks ++ [k]) * get (core Z n) (ks ++ [l])))))).
      + rewrite bsum_rsum_exchange_R. apply rsum_ext_R. intros k Hk. rewrite bsum_rsum_exchange_R.
        rewrite (rsum_ext_R _ _ (fun l => if (l =? k)%nat then get L [k; c] * get L [l; c] else 0)); [apply rsum_delta_R; auto|].
        intros l Hl. rewrite bsum_scal_l_R. pose proof (HO n Hn Ha NE k l) as Q. rewrite Hsn, last_last, removelast_last in Q. specialize (Q Hk Hl). change (bsum (heads Z n) (fun is => get (core Z n) (is ++ [k]) * get (core Z n) (is ++ [l])) = if (k =? l)%nat then 1 else 0) in Q. rewrite Q. rewrite Nat.eqb_sym. destruct (l =? k)%nat; rcbn; ring.
      + intros ks Hks. rewrite HgC by (auto; constructor). rewrite <- rsum_scal_r_R. apply rsum_ext_R. intros k _. rewrite <- rsum_scal_l_R. apply rsum_ext_R. intros l _. rewrite !VLt. rcbn. ring.
    - intros k (fa & fb & Hf). 
      assert (NDd : NoDup (dims t n)) by (apply (NoDup_dims' Z r O n Hn)).
      assert (HE : Forall (fun d => (d < length (shape A))%nat) (dims t n)).
      { apply Forall_forall. intros d Hd. pose proof (proj1 (Forall_forall _ _) (dims_N Z r O n Hn) d Hd). cbv beta in *. rewrite SA, app_length. lia. }
      assert (NDc : NoDup cd) by (apply NoDup_filter, seq_NoDup).
      assert (HCd : Forall (fun d => (d < length (shape A))%nat) cd).
      { apply Forall_forall. intros d Hd. apply filter_In in Hd. destruct Hd as [Hd _]. apply in_seq in Hd. unfold ndim in Hd. lia. }
      assert (DJ : forall d, In d cd -> ~ In d (dims t n)).
      { intros d Hd. apply filter_In in Hd. destruct Hd as [_ Hd]. apply negb_true_iff in Hd. apply (proj1 (inb_false d (dims t n)) Hd). }
      assert (Hz0 : valid (shape A) (map (fun _ => 0%nat) (shape A))).
      { apply HsvdP7.zeros_valid. rewrite SA. apply Forall_app. split; apply Forall_forall; intros x Hx.
        - destruct (In_nth _ _ 0%nat Hx) as (q & Hq & <-). apply (tb_shape_pos Z r q O H2). lia.
        - destruct (Nat.eq_dec x 0) as [->|]; [|lia]. exfalso. assert (Hr : node t r) by apply T. pose proof (proj1 (active_prod Z r) (ok_root Z r O)) as Q. apply Q. rewrite (ok_shape Z r Hr (ok_root Z r O)), prodn_app.
          apply in_split in Hx. destruct Hx as (u & v & E). rewrite E, prodn_app. cbn [prodn fold_right]. simpl. lia. }
      set (z0 := map (fun _ => 0%nat) (shape A)) in *.
      set (sr := sel 0%nat (shape A) (dims t n)).
      set (TT := fun (x : list nat) k => tval Z n (put (dims t n) x (repeat 0%nat (tb_order Z))) [k]).
      apply (few ns a k w (fun c q => rsum K (fun l => get Sm [c; l] * bsum sr (fun x => TT x l * fa q x))) fb FO).
      intros c y Hc Hy. unfold w, fw.
      assert (EW : forall l, (l < K)%nat -> Wk l y = rsum k (fun q => bsum sr (fun x => TT x l * fa q x) * fb q y)).
      { intros l Hl.
        assert (Ly : length y = length cd) by (rewrite (valid_length _ _ Hy); apply sel_length).
        assert (Vj : valid (shape A) (put cd y z0)) by (apply valid_put_sel; auto).
        assert (Lj : length (put cd y z0) = length (shape A)) by (apply (valid_length _ _ Vj)).
        assert (Ex : forall x, valid sr x -> rsum k (fun q => fa q x * fb q y) = rsum K (fun l' => TT x l' * Wk l' y)).
        { intros x Hx. assert (Lx : length x = length (dims t n)) by (rewrite (valid_length _ _ Hx); apply sel_length).
          assert (Vi : valid (shape A) (put (dims t n) x (put cd y z0))) by (apply valid_put_sel; auto).
          assert (S1 : sel 0%nat (put (dims t n) x (put cd y z0)) (dims t n) = x) by (apply sel_put_in; auto; rewrite Lj; auto).
          assert (S2 : sel 0%nat (put (dims t n) x (put cd y z0)) cd = y) by (rewrite sel_put_out by auto; apply sel_put_in; auto; unfold z0; rewrite map_length; auto).
          pose proof (Hf _ Vi) as E. change (filter (fun d => negb (existsb (Nat.eqb d) (dims t n))) (seq 0 (length (shape A)))) with cd in E. rewrite S1, S2 in E. rewrite <- E.
          revert S1 S2 Vi. generalize (put (dims t n) x (put cd y z0)). intros i S1 S2 Vi. rewrite SA in Vi. apply valid_app_inv in Vi. destruct Vi as (i1 & e & -> & Hi1 & He').
          rewrite VA by auto. rewrite (sum_fact Z r O n W i1 e Hn Ha NE FW He'). fold K. apply rsum_ext_R. intros l' _. f_equal.
          - unfold TT. apply (loc_tval Z r O n [l'] Hn). intros d Hd. pose proof (proj1 (Forall_forall _ _) (dims_N Z r O n Hn) d Hd) as Q. cbv beta in *.
            rewrite put_nth_idx; auto; [|rewrite repeat_length; auto]. destruct (index_of_nth _ _ Hd) as [K1 K2]. rewrite <- S1, sel_nth by auto. rewrite K2. rewrite app_nth1; auto. rewrite (valid_length _ _ Hi1), LS. auto.
          - rewrite WE, S2 by auto. auto. }
        rewrite (rsum_ext_R k _ (fun q => bsum sr (fun x => TT x l * (fa q x * fb q y)))).
        2:{ intros q _. rewrite <- bsum_scal_r_R. apply bsum_ext_R. intros. ring. }
        rewrite <- bsum_rsum_exchange_R. rewrite (bsum_ext_R _ _ (fun x => rsum K (fun l' => Wk l' y * (TT x l * TT x l')))).
        - rewrite bsum_rsum_exchange_R. rewrite (rsum_ext_R _ _ (fun l' => if (l' =? l)%nat then Wk l' y else 0)); [symmetry; apply rsum_delta_R; auto|].
          intros l' Hl'. rewrite bsum_scal_l_R. pose proof (tval_orth Z r O H2 HO n l l' Hn Ha NE Hl Hl') as Q.
          assert (Esr : sel 0%nat (tb_shape Z) (dims t n) = sr).
          { unfold sr, sel. rewrite SA. apply map_ext_in. intros d' Hd'. pose proof (proj1 (Forall_forall _ _) (dims_N Z r O n Hn) d' Hd'). cbv beta in *. rewrite app_nth1 by lia. auto. }
          rewrite Esr in Q. unfold TT. rewrite Q. rewrite Nat.eqb_sym. destruct (l' =? l)%nat; ring.
        - intros x Hx. rewrite rsum_scal_l_R, Ex by auto. rewrite <- rsum_scal_l_R. apply rsum_ext_R. intros; ring. }
      rewrite (rsum_ext_R _ _ (fun l => rsum k (fun q => (get Sm [c; l] * bsum sr (fun x => TT x l * fa q x)) * fb q y))).
      + rewrite rsum_swap_R. apply rsum_ext_R. intros q _. rewrite rsum_scal_r_R. auto.
      + intros l Hl. rewrite EW by auto. rewrite <- rsum_scal_l_R. apply rsum_ext_R. intros; ring.
  Qed.
End Main.
