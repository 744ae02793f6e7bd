(** The singular values of dense tensors and of tree-based tensors. *)
From Coq Require Import List Arith Lia Bool Reals Lra.
From Verif.Base Require Import ListAux CRing Index RealAux LinAlg.
From Verif.Model Require Import Sorting Numpy FullTensor Diagonal Canonical DimensionTree TreeBased Truncator HSVD HsvdTree SingularValues.
From Verif.Spec Require Import TensorSpec TreeSpec TreeTensorSpec TruncatorSpec GramSpec SingularSpec.
From Verif.Proofs Require Import NumpyP FullTensorP FullTensorP3 FullTensorP4 DiagonalP DimTreeP DimTreeP2 TreeTensorP TreeTensorP2 TreeTensorP3 TreeTensorP4 TreeTensorP6 TreeTensorP7 TreeTensorP12 TreeTensorP13 TreeTensorP14 TreeTensorP15 TreeTensorP29 PolyP5 EinsumP HsvdP2 ProjP TruncatorP3 HsvdTreeP1 HsvdTreeP2 HsvdTreeP3 HsvdTreeP5 HsvdTreeP8 HsvdTreeP9 SingularP1.
From Verif.Proofs Require TensorizerP.
Import ListNotations.
Local Open Scope R_scope.

Section Sect.
  Variables (A : nd R) (D : list nat).
  Hypothesis ND : NoDup D.
  Hypothesis HD : Forall (fun d => (d < ndim A)%nat) D.
  Local Notation coD := (filter (fun d => negb (existsb (Nat.eqb d) D)) (seq 0 (ndim A))).
  Lemma in_coD d : In d coD <-> (d < ndim A)%nat /\ ~ In d D.
  Proof. rewrite filter_In, in_seq, negb_true_iff. change (existsb (Nat.eqb d) D) with (inb d D). rewrite inb_false. intuition lia. Qed.
  Lemma put_co (is base x : list nat) : length is = ndim A -> length base = ndim A -> length x = length coD ->
    put coD x (put D (sel 0%nat is D) base) = put coD x is.
  Proof.
    intros Li Lb Lx. apply nth_ext' with (d := 0%nat); rewrite !put_length; [lia|]. intros d Hd. rewrite Lb in Hd.
    destruct (in_dec Nat.eq_dec d coD) as [Q|Q].
    - rewrite !put_nth_idx; auto; try apply NoDup_filter, seq_NoDup; rewrite ?put_length; lia.
    - rewrite (put_nth_out coD x is d Q), (put_nth_out coD x _ d Q). assert (QD : In d D).
      { destruct (in_dec Nat.eq_dec d D); auto. exfalso. apply Q. apply in_coD. auto. }
      rewrite put_nth_idx; auto; [|rewrite sel_length; auto|lia]. destruct (index_of_nth D d QD) as [K1 K2]. rewrite sel_nth by auto. rewrite K2. auto.
  Qed.
  Lemma sect_put is js base : valid (shape A) is -> valid (shape A) js -> length base = ndim A ->
    sect A D is js = bsum (sel 0%nat (shape A) coD) (fun z => get A (put coD z (put D (sel 0%nat is D) base)) * get A (put coD z (put D (sel 0%nat js D) base))).
  Proof.
    intros Hi Hj Lb. unfold sect. cbv zeta. apply bsum_ext_R. intros z Hz. pose proof (valid_length _ _ Hz) as Lz. rewrite sel_length in Lz.
    rewrite !put_co; auto; [apply (valid_length _ _ Hj)|apply (valid_length _ _ Hi)].
  Qed.
End Sect.

Section Svd.
  Variable svd : nd R -> nd R * list R * nd R.
  Hypothesis SVD : svd_contract svd.

  (** * dense tensors *)
  (** the matrix M of the matricization: its singular values *)
  Lemma mat_sv (A M : nd R) D c : NoDup D -> Forall (fun d => (d < ndim A)%nat) D ->
    shape M = [prodn (sel 0%nat (shape A) D); c] ->
    (forall is js, valid (shape A) is -> valid (shape A) js -> sect A D is js = rsum c (fun z => get M [sub2indF (sel 0%nat (shape A) D) (sel 0%nat is D); z] * get M [sub2indF (sel 0%nat (shape A) D) (sel 0%nat js D); z])) ->
    singular_values_of A D (svals svd M).
  Proof.
    intros ND HD SM HS. destruct (SVD M _ _ SM) as (_ & LS & _ & S0 & SD & UU & VV & ME). unfold svals. set (sg := snd (fst (svd M))) in *. set (U := fst (fst (svd M))) in *. set (Vm := snd (svd M)) in *.
    set (m := prodn (sel 0%nat (shape A) D)) in *. set (k := Nat.min m c) in *.
    split. { apply Forall_forall. intros x Hx. destruct (In_nth _ _ 0 Hx) as (i & Hi & <-). apply S0. lia. }
    split. { intros i j Hij Hj. apply SD; lia. }
    rewrite LS. exists (fun b x => get U [sub2indF (sel 0%nat (shape A) D) x; b]). split.
    - intros a b Ha Hb. rewrite (bsum_linear' (sel 0%nat (shape A) D) (fun i => get U [i; a] * get U [i; b])). fold m. apply UU; auto.
    - intros is js Hi Hj. rewrite HS by auto.
      assert (Li : (sub2indF (sel 0%nat (shape A) D) (sel 0%nat is D) < m)%nat) by (apply sub2indF_lt, sel_valid; auto).
      assert (Lj : (sub2indF (sel 0%nat (shape A) D) (sel 0%nat js D) < m)%nat) by (apply sub2indF_lt, sel_valid; auto).
      set (p := sub2indF _ (sel 0%nat is D)) in *. set (q := sub2indF _ (sel 0%nat js D)) in *.
      transitivity (rsum c (fun z => rsum k (fun a => rsum k (fun b => get U [p; a] * nth a sg 0 * (get U [q; b] * nth b sg 0) * (get Vm [a; z] * get Vm [b; z]))))).
      { apply rsum_ext_R. intros z Hz. rewrite !ME by auto. rewrite <- rsum_scal_r_R. apply rsum_ext_R. intros a _. rewrite <- rsum_scal_l_R. apply rsum_ext_R. intros; ring. }
      rewrite rsum_swap_R. apply rsum_ext_R. intros a Ha. rewrite rsum_swap_R.
      transitivity (rsum k (fun b => if (b =? a)%nat then get U [p; a] * nth a sg 0 * (get U [q; b] * nth b sg 0) else 0)).
      + apply rsum_ext_R. intros b Hb. rewrite rsum_scal_l_R, VV by auto. rewrite Nat.eqb_sym. destruct (b =? a)%nat; ring.
      + rewrite rsum_delta_R by auto. ring.
  Qed.
  Lemma matricize_sect (A M : nd R) D : NoDup D -> Forall (fun d => (d < ndim A)%nat) D -> ft_matricize A D None = Some M ->
    exists c, shape M = [prodn (sel 0%nat (shape A) D); c] /\
    forall is js, valid (shape A) is -> valid (shape A) js -> sect A D is js = rsum c (fun z => get M [sub2indF (sel 0%nat (shape A) D) (sel 0%nat is D); z] * get M [sub2indF (sel 0%nat (shape A) D) (sel 0%nat js D); z]).
  Proof.
    intros ND HD HM. rewrite ft_matricize_default in HM. destruct (ft_matricize_spec A D (compl (ndim A) D)) as (M' & HM' & SM & GM); [apply app_compl_perm; auto|].
    rewrite HM in HM'. inversion HM'; subst M'. clear HM'. exists (prodn (sel 0%nat (shape A) (compl (ndim A) D))). split; [exact SM|].
    intros is js Hi Hj. rewrite <- (bsum_linear' (sel 0%nat (shape A) (compl (ndim A) D)) (fun z => get M [sub2indF (sel 0%nat (shape A) D) (sel 0%nat is D); z] * get M [sub2indF (sel 0%nat (shape A) D) (sel 0%nat js D); z])).
    unfold sect. cbv zeta. fold (compl (ndim A) D). apply bsum_ext_R. intros z Hz. pose proof (valid_length _ _ Hz) as Lz. rewrite sel_length in Lz.
    assert (NC : NoDup (compl (ndim A) D)) by (apply NoDup_filter, seq_NoDup).
    assert (HC : Forall (fun d => (d < ndim A)%nat) (compl (ndim A) D)) by (apply Forall_forall; intros d Hd; apply in_compl in Hd; tauto).
    assert (PV : forall is, valid (shape A) is -> valid (shape A) (put (compl (ndim A) D) z is)) by (intros; apply valid_put_sel; auto).
    assert (E : forall is, valid (shape A) is -> sel 0%nat (put (compl (ndim A) D) z is) D = sel 0%nat is D /\ sel 0%nat (put (compl (ndim A) D) z is) (compl (ndim A) D) = z).
    { intros ks Hk. split.
      - unfold sel. apply map_ext_in. intros d Hd. apply put_nth_out. intros Q. apply in_compl in Q. tauto.
      - apply nth_ext' with (d := 0%nat); rewrite sel_length; [lia|]. intros i Hi'. rewrite sel_nth by lia. rewrite put_nth_in; auto. pose proof (proj1 (Forall_nth' _ _ 0%nat) HC i Hi') as L. cbv beta in L. rewrite (valid_length _ _ Hk). exact L. }
    change (filter (fun d => negb (existsb (Nat.eqb d) D)) (seq 0 (ndim A))) with (compl (ndim A) D).
    rewrite <- (GM _ (PV is Hi)), <- (GM _ (PV js Hj)). rewrite (proj1 (E is Hi)), (proj2 (E is Hi)), (proj1 (E js Hj)), (proj2 (E js Hj)). reflexivity.
  Qed.
  Lemma matricize_sv (A M : nd R) D : NoDup D -> Forall (fun d => (d < ndim A)%nat) D -> ft_matricize A D None = Some M -> singular_values_of A D (svals svd M).
  Proof. intros ND HD HM. destruct (matricize_sect A M D ND HD HM) as (c & SM & HS). apply (mat_sv A M D c); auto. Qed.

  Lemma ft_sv_main (A : nd R) : exists v, ft_singular_values svd A = Some v /\
    match v with
    | inl sv => ndim A = 2%nat /\ singular_values_of A [0%nat] sv /\ singular_values_of A [1%nat] sv
    | inr l => ndim A <> 2%nat /\ length l = ndim A /\ forall d, (d < ndim A)%nat -> singular_values_of A [d] (nth d l [])
    end.
  Proof.
    assert (SH : forall d, (d < ndim A)%nat -> NoDup [d] /\ Forall (fun d => (d < ndim A)%nat) [d]) by (intros d Hd; split; [apply NoDup_single|repeat constructor; auto]).
    unfold ft_singular_values. destruct (ndim A =? 2)%nat eqn:E2.
    - apply Nat.eqb_eq in E2. eexists. split; [reflexivity|]. split; auto.
      assert (SA : exists m n, shape A = [m; n]) by (unfold ndim in E2; destruct (shape A) as [|m [|n [|]]]; try discriminate; eauto). destruct SA as (m & n & SA).
      split.
      + apply (mat_sv A A [0%nat] n); try apply (SH 0%nat); try lia.
        * rewrite SA. cbn. rewrite Nat.mul_1_r. reflexivity.
        * intros is js Hi Hj. rewrite SA in *. inversion Hi as [|i0 ? ? ? Hi0 Hi1]; subst. inversion Hi1 as [|i1 ? ? ? Hi2 Hi3]; subst. inversion Hi3; subst.
          inversion Hj as [|j0 ? ? ? Hj0 Hj1]; subst. inversion Hj1 as [|j1 ? ? ? Hj2 Hj3]; subst. inversion Hj3; subst.
          unfold sect, ndim. rewrite SA. cbn [length seq filter existsb Nat.eqb orb negb sel map nth bsum put upd sub2indF prodn]. cbn. apply rsum_ext_R. intros z Hz. rewrite Nat.mul_1_r || idtac. rewrite !Nat.mul_0_r || idtac. rewrite !Nat.add_0_r. reflexivity.
      + (* the other axis: the roles of U and V are exchanged *)
        destruct (SVD A m n SA) as (_ & LS & _ & S0 & SD & UU & VV & ME). unfold svals. set (sg := snd (fst (svd A))) in *. set (U := fst (fst (svd A))) in *. set (Vm := snd (svd A)) in *. set (k := Nat.min m n) in *.
        split. { apply Forall_forall. intros x Hx. destruct (In_nth _ _ 0 Hx) as (i & Hi & <-). apply S0. lia. }
        split. { intros i j Hij Hj. apply SD; lia. }
        rewrite LS. exists (fun b x => get Vm [b; nth 0 x 0%nat]). rewrite SA. split.
        * intros a b Ha Hb. cbn [sel map nth bsum]. apply VV; auto.
        * intros is js Hi Hj. inversion Hi as [|i0 ? ? ? Hi0 Hi1]; subst. inversion Hi1 as [|i1 ? ? ? Hi2 Hi3]; subst. inversion Hi3; subst.
          inversion Hj as [|j0 ? ? ? Hj0 Hj1]; subst. inversion Hj1 as [|j1 ? ? ? Hj2 Hj3]; subst. inversion Hj3; subst.
          unfold sect, ndim. rewrite SA. cbn [length seq filter existsb Nat.eqb orb negb sel map nth bsum put upd]. cbn [bsum].
          transitivity (rsum m (fun z => rsum k (fun a => rsum k (fun b => get Vm [a; i1] * nth a sg 0 * (get Vm [b; j1] * nth b sg 0) * (get U [z; a] * get U [z; b]))))).
          { apply rsum_ext_R. intros z Hz. cbn. rewrite !ME by auto. rewrite <- rsum_scal_r_R. apply rsum_ext_R. intros a _. rewrite <- rsum_scal_l_R. apply rsum_ext_R. intros; ring. }
          rewrite rsum_swap_R. apply rsum_ext_R. intros a Ha. rewrite rsum_swap_R.
          transitivity (rsum k (fun b => if (b =? a)%nat then get Vm [a; i1] * nth a sg 0 * (get Vm [b; j1] * nth b sg 0) else 0)).
          -- apply rsum_ext_R. intros b Hb. rewrite rsum_scal_l_R, UU by auto. rewrite Nat.eqb_sym. destruct (b =? a)%nat; ring.
          -- rewrite rsum_delta_R by auto. ring.
    - apply Nat.eqb_neq in E2.
      assert (EM : forall d, (d < ndim A)%nat -> exists M, ft_matricize A [d] None = Some M).
      { intros d Hd. destruct (SH d Hd) as [ND HD]. destruct (ft_matricize_spec A [d] (compl (ndim A) [d])) as (M & HM & _); [apply app_compl_perm; auto|]. exists M. rewrite ft_matricize_default. exact HM. }
      set (Md := fun d => match ft_matricize A [d] None with Some M => M | None => scalar 0 end).
      assert (EL : omap (fun i => let* M := ft_matricize A [i] None in Some (svals svd M)) (seq 0 (ndim A)) = Some (map (fun d => svals svd (Md d)) (seq 0 (ndim A)))).
      { rewrite <- TensorizerP.omap_Some_map. apply TensorizerP.omap_ext_in. intros d Hd. apply in_seq in Hd. unfold Md. destruct (EM d ltac:(lia)) as (M & ->). reflexivity. }
      rewrite EL. cbn [bind]. eexists. split; [reflexivity|]. split; auto. split; [rewrite map_length, seq_length; auto|].
      intros d Hd. rewrite map_nth_in with (da := 0%nat) by (rewrite seq_length; auto). rewrite seq_nth by auto. cbn [plus]. destruct (EM d Hd) as (M & HM). unfold Md. rewrite HM. apply (matricize_sv A M [d]); try apply (SH d Hd). exact HM.
  Qed.

  (** * tree-based tensors *)
  Lemma one_sv : svals svd (ND [1%nat; 1%nat] (fun _ => 1)) = [1].
  Proof.
    destruct (SVD (ND [1%nat; 1%nat] (fun _ => 1)) 1%nat 1%nat eq_refl) as (_ & LS & _ & S0 & _ & UU & VV & ME). unfold svals. set (sg := snd (fst (svd (ND [1%nat; 1%nat] (fun _ => 1))))) in *.
    cbn [Nat.min] in *. destruct sg as [|a [|b l]]; try discriminate. f_equal. specialize (S0 0%nat Nat.lt_0_1). specialize (UU 0%nat 0%nat Nat.lt_0_1 Nat.lt_0_1). specialize (VV 0%nat 0%nat Nat.lt_0_1 Nat.lt_0_1). specialize (ME 0%nat 0%nat Nat.lt_0_1 Nat.lt_0_1).
    cbn [rsum get nth Nat.eqb] in *. revert S0 UU VV ME. rcbn. set (u := get _ _). set (v := get _ _). intros.
    assert (a * a = 1). { transitivity ((u * a * v) * (u * a * v)); [|rewrite <- (Rplus_0_l (u * a * v)), <- ME; ring]. replace (u * a * v * (u * a * v)) with ((0 + u * u) * (0 + v * v) * (a * a)) by ring. rewrite UU, VV. ring. }
    nra.
  Qed.
  Variable qr : nd R -> nd R * nd R.
  Hypothesis QR : qr_contract qr.
  Lemma tb_sv_main (X : tbt R) r A : tb_ok X r -> (2 <= tb_order X)%nat -> tb_full X = Some A ->
    exists L, tb_singular_values svd qr X = Some L /\
    Forall2 (fun n o =>
      (n = r -> o = Some [1]) /\
      (n <> r -> active X n = false -> o = None) /\
      (n <> r -> active X n = true -> exists sv, o = Some sv /\ singular_values_of A (dims (ttree X) n) sv /\ (length sv <= last (shape (core X n)) 0)%nat))
      (nodes (ttree X)) L.
  Proof.
    intros O H2 HA. destruct (tb_orth_ranks qr X r QR O) as (Z & EZ & SV & AZ & CZ & RZ). pose proof (proj1 SV) as OZ. pose proof (proj1 (proj2 SV)) as TZ.
    destruct (same_val_full X Z r A O H2 HA SV) as (B & HB & HsB & HgB).
    assert (H2' : (2 <= tb_order Z)%nat) by (unfold tb_order; rewrite TZ; exact H2).
    destruct (gramians_main qr Z r B true None QR OZ H2' HB) as (g & Z2 & EG & OZ2 & TZ2 & AZ2 & _ & _ & HF); [rewrite TZ; intros _ n Hn Ha NE; apply CZ; auto; rewrite <- AZ; auto|discriminate|].
    assert (Z2 = Z). { unfold tb_gramians in EG. cbv zeta in EG. cbn [bind] in EG. match type of EG with (let* g := ?x in _) = _ => destruct x; [|discriminate] end. cbn [bind] in EG. inversion EG. auto. } subst Z2.
    unfold tb_singular_values. rewrite EZ. cbn [bind]. rewrite EG. cbn [bind fst]. eexists. split; [reflexivity|].
    rewrite TZ in *. assert (FN : Forall (fun n => node (ttree X) n) (nodes (ttree X))) by (apply Forall_forall; intros n Hn; apply in_nodes; auto).
    clear EG. revert HF FN. generalize (nodes (ttree X)) as l. intros l HF. induction HF as [|n o l g' (H1 & Hi & Hg) HF IH]; intros FN; cbn [map]; constructor; inversion FN; subst; auto. clear IH HF.
    match goal with H : node _ _ |- _ => rename H into Hn end.
    split; [intros E; rewrite (H1 E); cbn [option_map]; rewrite one_sv; cbn [map]; rewrite sqrt_1; reflexivity|].
    split; [intros NE Ha; rewrite Hi; auto; rewrite AZ; auto|].
    intros NE Ha. rewrite AZ in Hg by auto. destruct (Hg NE Ha) as (G & -> & SG & VO & TG). clear Hg Hi H1. cbv zeta in SG, TG, VO. cbn [option_map]. eexists. split; [reflexivity|].
    set (K := last (shape (core Z n)) 0%nat) in *. set (D := dims (ttree X) n) in *.
    assert (TO : tb_order Z = tb_order X) by (unfold tb_order; rewrite TZ; auto). rewrite ?TO in VO, TG.
    pose proof (NoDup_dims' X r O n Hn) as NDD. fold D in NDD. pose proof (dims_N X r O n Hn) as FD. fold D in FD.
    destruct (full_inv Z r B OZ ltac:(rewrite TO; exact H2) HB) as [SB _].
    assert (LB : ndim B = (tb_order X + length (exts Z r))%nat) by (unfold ndim; rewrite SB, app_length, <- TO; f_equal; apply tb_shape_length).
    assert (FB : Forall (fun d => (d < ndim B)%nat) D) by (eapply Forall_impl; [|exact FD]; cbv beta; intros; lia).
    assert (FA : Forall (fun d => (d < ndim A)%nat) D) by (eapply Forall_impl; [|exact FB]; cbv beta; intros; unfold ndim in *; rewrite <- HsB; auto).
    set (v := fun x k => tval Z n (put D x (repeat 0%nat (tb_order X))) [k]).
    assert (TV : forall is k, valid (shape B) is -> tval Z n (firstn (tb_order X) is) [k] = v (sel 0%nat is D) k).
    { intros is k Hv. unfold v. apply (loc_tval Z r OZ n [k]); [rewrite TZ; auto|]. rewrite TZ. fold D. intros d Hd. pose proof (proj1 (Forall_forall _ _) FD d Hd) as L. cbv beta in L.
      rewrite nth_firstn_lt by auto. rewrite put_nth_idx; auto; [|apply sel_length|rewrite repeat_length; auto]. destruct (index_of_nth D d Hd) as [K1 K2]. rewrite sel_nth by auto. rewrite K2. auto. }
    assert (EK : K = csize Z n) by (unfold csize; rewrite AZ, Ha by auto; reflexivity).
    assert (SE : forall is js, valid (shape A) is -> valid (shape A) js -> sect A D is js = sect B D is js).
    { intros is js Hv Hw. unfold sect. cbv zeta. unfold ndim. rewrite HsB. apply bsum_ext_R. intros z Hz.
      assert (NC : NoDup (filter (fun d => negb (existsb (Nat.eqb d) D)) (seq 0 (length (shape A))))) by (apply NoDup_filter, seq_NoDup).
      assert (HC : Forall (fun d => (d < length (shape A))%nat) (filter (fun d => negb (existsb (Nat.eqb d) D)) (seq 0 (length (shape A))))) by (apply Forall_forall; intros d Hd; apply filter_In in Hd; destruct Hd as [Hd _]; apply in_seq in Hd; lia).
      rewrite !HgB by (apply valid_put_sel; auto). reflexivity. }
    assert (VO' : forall k l, (k < K)%nat -> (l < K)%nat -> bsum (sel 0%nat (shape B) D) (fun x => v x k * v x l) = if (k =? l)%nat then 1 else 0) by (rewrite HsB in *; exact VO).
    destruct (box_basic svd SVD (sel 0%nat (shape B) D) K v G SG VO') as (LS & P0 & PM & UO).
    change (map sqrt (svals svd G)) with (map sqrt (snd (fst (svd G)))).
    assert (LL : (length (map sqrt (snd (fst (svd G)))) <= last (shape (core X n)) 0)%nat) by (rewrite LS, EK; pose proof (RZ n Hn NE) as RR; unfold csize at 2 in RR; rewrite Ha in RR; exact RR).
    split; [|exact LL]. split; auto. split; auto. exists (uvec svd K v G). split; [rewrite <- HsB; exact UO|].
    destruct (Forall_dec (fun n => (0 < n)%nat) (fun n => lt_dec 0 n) (shape A)) as [PA|PA].
    - set (base := repeat 0%nat (ndim B)).
      assert (VB : valid (shape B) base).
      { apply valid_intro; [unfold base; rewrite repeat_length; auto|]. intros d Hd. unfold base. rewrite nth_repeat_in by (unfold ndim in *; lia). rewrite HsB in *. apply (proj1 (Forall_nth' _ _ 0%nat) PA). lia. }
      assert (VP : forall x, valid (sel 0%nat (shape B) D) x -> valid (shape B) (put D x base)) by (intros; apply valid_put_sel; auto).
      assert (SP : forall x, valid (sel 0%nat (shape B) D) x -> sel 0%nat (put D x base) D = x).
      { intros x Hx. pose proof (valid_length _ _ Hx) as Lx. rewrite sel_length in Lx. apply nth_ext' with (d := 0%nat); rewrite sel_length; [lia|]. intros i Hi. rewrite sel_nth by lia. rewrite put_nth_in; auto. unfold base. rewrite repeat_length. apply (proj1 (Forall_nth' _ _ 0%nat) FB i Hi). }
      set (co := filter (fun d => negb (existsb (Nat.eqb d) D)) (seq 0 (ndim B))).
      set (T := fun x z => get B (put co z (put D x base))).
      assert (TB : forall x y, valid (sel 0%nat (shape B) D) x -> valid (sel 0%nat (shape B) D) y -> bsum (sel 0%nat (shape B) co) (fun z => T x z * T y z) = rsum K (fun k => rsum K (fun l => v x k * get G [k; l] * v y l))).
      { intros x y Hx Hy. transitivity (sect B D (put D x base) (put D y base)); [reflexivity|]. rewrite HsB in *. rewrite TG by auto. apply rsum_ext_R. intros k _. apply rsum_ext_R. intros l' _. rewrite !TV by auto. rewrite !SP by auto. reflexivity. }
      pose proof (box_main svd SVD (sel 0%nat (shape B) D) (sel 0%nat (shape B) co) T K v G SG VO' TB) as US. cbv zeta in US.
      intros is js Hv Hw. rewrite SE by auto. rewrite <- HsB in Hv, Hw. rewrite (sect_put B D NDD is js base); auto; [|unfold base; apply repeat_length].
        fold co. rewrite <- US by (apply sel_valid; auto). reflexivity.
    - (* an empty tensor *)
      intros is js Hv _. exfalso. apply PA. apply (proj2 (Forall_nth' _ _ 0%nat)). intros d Hd. pose proof (valid_nth _ _ d Hv Hd). lia.
  Qed.
End Svd.
