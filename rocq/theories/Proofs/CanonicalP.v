(** Proofs about CanonicalTensor. *)
From Coq Require Import List Arith Lia Bool ZArith Permutation.
From Verif.Base Require Import ListAux CRing Index.
From Verif.Model Require Import Sorting Numpy FullTensor Diagonal Canonical.
From Verif.Spec Require Import TensorSpec.
From Verif.Proofs Require Import SortingP NumpyP FullTensorP FullTensorP2 FullTensorP3 DiagonalP.
Import ListNotations.

Section CP.
  Context {R : Type} {CR : CRing R}.
  Add Ring Rr : rth.
  Local Open Scope cr_scope.

  Definition okx (x : cp R) : Prop := cp_ok (cp_core x) (cp_space x).

  Lemma cp_shape_dims (x : cp R) : cp_shape x = cp_dims (cp_space x). Proof. reflexivity. Qed.
  Lemma cp_dims_length (sp : list (nd R)) : length (cp_dims sp) = length sp. Proof. apply map_length. Qed.
  Lemma ok_pos c (sp : list (nd R)) : cp_ok c sp -> (0 < length sp)%nat.
  Proof. intros [H _]. destruct sp; [congruence|simpl; lia]. Qed.
  Lemma ok_nth c (sp : list (nd R)) k : cp_ok c sp -> (k < length sp)%nat ->
    shape (nth k sp (scalar r0)) = [nth k (cp_dims sp) 0%nat; length c].
  Proof.
    intros [_ H] Hk. rewrite Forall_nth' with (d := scalar r0) in H. destruct (H k Hk) as [n Hn].
    unfold cp_dims. rewrite (map_nth_in _ _ _ (scalar r0)) by auto. rewrite Hn. auto.
  Qed.
  Lemma ok_intro c (sp : list (nd R)) ns : (0 < length sp)%nat -> length ns = length sp ->
    (forall k, (k < length sp)%nat -> shape (nth k sp (scalar r0)) = [nth k ns 0%nat; length c]) ->
    cp_ok c sp /\ cp_dims sp = ns.
  Proof.
    intros Hp L H. split.
    - split; [destruct sp; simpl in *; [lia|congruence]|]. apply (Forall_nth' _ _ (scalar r0)). intros k Hk. eexists; eauto.
    - apply nth_ext' with (d := 0%nat); [rewrite cp_dims_length; auto|].
      intros k Hk. rewrite cp_dims_length in Hk. unfold cp_dims. rewrite (map_nth_in _ _ _ (scalar r0)) by auto.
      rewrite H; auto.
  Qed.

  Lemma lprod_combine_seq {A} (da : A) (l : list A) (is : list nat) (f : A * nat -> R) : length is = length l ->
    lprod (combine l is) f = lprod (seq 0 (length l)) (fun k => f (nth k l da, nth k is 0%nat)).
  Proof.
    intros L. rewrite <- (map_seq_nth (da, 0%nat) (combine l is)), lprod_map, combine_length, L, Nat.min_id.
    apply lprod_ext. intros k Hk. rewrite combine_nth by auto. auto.
  Qed.
  Definition term (sp : list (nd R)) (is : list nat) (k : nat) : R :=
    lprod (seq 0 (length sp)) (fun d => get (nth d sp (scalar r0)) [nth d is 0%nat; k]).
  Lemma cp_val_term c sp is : length is = length sp -> cp_val c sp is = rsum (length c) (fun k => nth k c r0 * term sp is k).
  Proof. intros L. unfold cp_val. apply rsum_ext. intros k Hk. rewrite (lprod_combine_seq (scalar r0)) by auto. reflexivity. Qed.

  Lemma factors_repeat (sp : list (nd R)) : forall is k, length is = length sp ->
    factors sp is (repeat k (length sp)) = lprod (combine sp is) (fun p => get (fst p) [snd p; k]).
  Proof. induction sp as [|M sp IH]; intros [|i is] k L; simpl in *; try lia; auto. rewrite IH by lia. auto. Qed.

  Theorem cp_full_spec (x : cp R) : okx x -> returns (cp_full x) (cp_shape x) (cp_val (cp_core x) (cp_space x)).
  Proof.
    intros H. pose proof (ok_pos _ _ H) as Hp. unfold cp_full. set (c := cp_core x) in *. set (sp := cp_space x) in *.
    assert (Hsh : shape (dt_full (cp_diag x)) = repeat (length c) (length sp)) by (apply dt_full_shape; auto).
    assert (Hnd : ndim (dt_full (cp_diag x)) = length sp) by (unfold ndim; rewrite Hsh, repeat_length; auto).
    rewrite ft_tensor_matrix_product_default, Hnd.
    destruct (ft_tensor_matrix_product_spec (dt_full (cp_diag x)) sp (seq 0 (length sp))) as [T [HT [HsT HgT]]].
    - apply seq_NoDup.
    - apply Forall_forall. intros k Hk. apply in_seq in Hk. rewrite Hnd; lia.
    - rewrite seq_length; auto.
    - rewrite seq_length. intros k Hk. rewrite seq_nth by auto. simpl. rewrite (ok_nth c sp k H Hk), Hsh, nth_repeat_in by auto. eauto.
    - rewrite Hsh in HsT, HgT. exists T. split; auto. rewrite put_all in HsT by (rewrite ?repeat_length, ?map_length; auto).
      fold (cp_dims sp) in HsT. split; auto. intros is Hv.
      assert (Li : length is = length sp).
      { rewrite (valid_length _ _ Hv). unfold cp_shape. rewrite map_length; auto. }
      rewrite HgT.
      2:{ rewrite put_all by (rewrite ?repeat_length, ?map_length; auto). exact Hv. }
      rewrite sel_repeat by (apply Forall_forall; intros k Hk; apply in_seq in Hk; lia). rewrite seq_length.
      rewrite (bsum_ext _ _ (fun js => diag_val c js * factors sp is js)).
      2:{ intros js Hj. rewrite put_all by (rewrite ?(Forall2_length' _ _ _ Hj), ?repeat_length; auto).
          rewrite <- Li at 1. rewrite sel_seq. rewrite dt_full_get; auto. }
      rewrite diag_bsum by auto. unfold cp_val. apply rsum_ext. intros k Hk. rewrite factors_repeat by auto. auto.
  Qed.

  (** * addition, opposite *)
  Lemma cat_factors c1 c2 : forall (s1 s2 : list (nd R)),
    cp_dims s1 = cp_dims s2 -> Forall (fun M => exists n, shape M = [n; length c1]) s1 ->
    Forall (fun M => exists n, shape M = [n; length c2]) s2 ->
    exists sp, omap (fun p => np_concatenate (fst p) (snd p) 1) (combine s1 s2) = Some sp /\
      cp_dims sp = cp_dims s1 /\ Forall (fun M => exists n, shape M = [n; length (c1 ++ c2 : list R)]) sp /\
      forall is k, ((k < length c1)%nat -> lprod (combine sp is) (fun p => get (fst p) [snd p; k]) = lprod (combine s1 is) (fun p => get (fst p) [snd p; k])) /\
                   lprod (combine sp is) (fun p => get (fst p) [snd p; (length c1 + k)%nat]) = lprod (combine s2 is) (fun p => get (fst p) [snd p; k]).
  Proof.
    induction s1 as [|M s1 IH]; intros [|N s2] Hd H1 H2; try discriminate.
    - exists []. simpl. repeat split; auto.
    - inversion H1 as [|? ? [n1 HM] H1']; subst. inversion H2 as [|? ? [n2 HN] H2']; subst.
      inversion Hd as [[Hn Hd']]. rewrite HM, HN in Hn. simpl in Hn. subst n2.
      destruct (IH s2 Hd' H1' H2') as [sp [E [Ed [Ef Ev]]]].
      cbn [combine omap]. unfold np_concatenate at 1. cbn [fst snd]. unfold ndim. rewrite HM, HN. cbn [length upd nth].
      rewrite list_eqb_refl. change (1 <? 2)%nat with true. cbn [andb]. rewrite E. eexists; split; [reflexivity|].
      split; [cbn [cp_dims map shape nth]; rewrite HM; f_equal; apply Ed|].
      split; [constructor; auto; exists n1; simpl; rewrite app_length; auto|].
      intros is k. destruct is as [|i is]; [simpl; auto|]. destruct (Ev is k) as [E1 E2]. cbn [combine lprod fst snd get nth upd].
      split.
      + intros Hk. rewrite (proj2 (Nat.ltb_lt _ _) Hk). rewrite E1; auto.
      + rewrite (proj2 (Nat.ltb_ge _ _)) by lia. rewrite E2. replace (length c1 + k - length c1)%nat with k by lia. auto.
  Qed.
  Theorem cp_add_spec (x y : cp R) : okx x -> okx y -> cp_shape x = cp_shape y ->
    exists z, cp_add x y = Some z /\ okx z /\ cp_shape z = cp_shape x /\
      forall is, cp_val (cp_core z) (cp_space z) is = cp_val (cp_core x) (cp_space x) is + cp_val (cp_core y) (cp_space y) is.
  Proof.
    intros [Hx1 Hx2] [Hy1 Hy2] Hs. unfold cp_add.
    destruct (cat_factors _ _ _ _ Hs Hx2 Hy2) as [sp [E [Ed [Ef Ev]]]]. rewrite E. cbn [bind].
    eexists; split; [reflexivity|]. split; [split|split]; cbn [cp_core cp_space]; auto.
    - intros ->. destruct (cp_space x); [congruence|discriminate Ed].
    - intros is. unfold cp_val. rewrite app_length, rsum_add. f_equal; apply rsum_ext; intros k Hk.
      + rewrite app_nth1 by auto. f_equal. apply Ev; auto.
      + rewrite app_nth2 by lia. f_equal; [f_equal; lia|]. apply Ev.
  Qed.
  Lemma cp_neg_spec (x : cp R) : okx x -> okx (cp_neg x) /\ cp_shape (cp_neg x) = cp_shape x /\
    forall is, cp_val (cp_core (cp_neg x)) (cp_space (cp_neg x)) is = - cp_val (cp_core x) (cp_space x) is.
  Proof.
    intros [H1 H2]. split; [split|split]; auto.
    - cbn [cp_neg cp_core cp_space]. rewrite map_length. auto.
    - intros is. unfold cp_val. cbn [cp_neg cp_core cp_space]. rewrite map_length. rewrite <- rsum_opp. apply rsum_ext.
      intros k Hk. rewrite (map_nth_in _ _ _ r0) by auto. ring.
  Qed.
  Theorem cp_sub_spec (x y : cp R) : okx x -> okx y -> cp_shape x = cp_shape y ->
    exists z, cp_sub x y = Some z /\ okx z /\ cp_shape z = cp_shape x /\
      forall is, cp_val (cp_core z) (cp_space z) is = cp_val (cp_core x) (cp_space x) is - cp_val (cp_core y) (cp_space y) is.
  Proof.
    intros Hx Hy Hs. destruct (cp_neg_spec y Hy) as [Hn [Hns Hnv]].
    destruct (cp_add_spec x (cp_neg y) Hx Hn Hs) as [z [E [Ho [Es Ev]]]]. exists z. split; auto. split; auto. split; auto.
    intros is. rewrite Ev, Hnv. ring.
  Qed.
  Theorem cp_rsub_spec (x y : cp R) : okx x -> okx y -> cp_shape x = cp_shape y ->
    exists z, cp_rsub x y = Some z /\ okx z /\ cp_shape z = cp_shape x /\
      forall is, cp_val (cp_core z) (cp_space z) is = cp_val (cp_core y) (cp_space y) is - cp_val (cp_core x) (cp_space x) is.
  Proof.
    intros Hx Hy Hs. destruct (cp_neg_spec x Hx) as [Hn [Hns Hnv]].
    destruct (cp_add_spec (cp_neg x) y Hn Hy Hs) as [z [E [Ho [Es Ev]]]]. exists z. split; auto. split; auto. split; auto.
    intros is. rewrite Ev, Hnv. ring.
  Qed.

  (** * matrix products *)
  Lemma nth_upd_gen {A} d m (a da : A) l : (d < length l)%nat -> nth m (upd d a l) da = if Nat.eqb m d then a else nth m l da.
  Proof. intros H. destruct (Nat.eqb_spec m d) as [->|Hn]; [apply nth_upd_eq; auto|apply nth_upd_neq; auto]. Qed.
  Lemma term_upd sp is d N k : (d < length sp)%nat -> length is = length sp ->
    exists rest, term (upd d N sp) is k = get N [nth d is 0%nat; k] * rest /\
                 forall j, term sp (upd d j is) k = get (nth d sp (scalar r0)) [j; k] * rest.
  Proof.
    intros Hd L. unfold term. rewrite upd_length.
    assert (P : Permutation (seq 0 (length sp)) (d :: compl (length sp) [d])).
    { apply NoDup_Permutation; [apply seq_NoDup| |].
      - constructor; [|apply NoDup_compl]. rewrite in_compl. intros [_ H]. apply H. simpl; auto.
      - intros k'. rewrite in_seq. simpl. rewrite in_compl. simpl. lia. }
    exists (lprod (compl (length sp) [d]) (fun e => get (nth e sp (scalar r0)) [nth e is 0%nat; k])). split.
    - rewrite (lprod_perm _ _ _ P). cbn [lprod]. rewrite nth_upd_eq by auto. f_equal. apply lprod_ext. intros e He.
      apply in_compl in He as [He1 He2]. rewrite nth_upd_neq; auto. intros ->. apply He2; simpl; auto.
    - intros j. rewrite (lprod_perm _ _ _ P). cbn [lprod]. rewrite nth_upd_eq by lia. f_equal. apply lprod_ext. intros e He.
      apply in_compl in He as [He1 He2]. rewrite nth_upd_neq; auto. intros ->. apply He2; simpl; auto.
  Qed.
  Definition stepf (sp : list (nd R)) (p : nat * nd R) : option (list (nd R)) :=
    match nth_error sp (fst p) with None => None | Some Sd => let* N := np_matmul (snd p) Sd in Some (upd (fst p) N sp) end.
  Lemma cp_step c sp d (M : nd R) m T : cp_ok c sp -> tensor_is T (cp_dims sp) (cp_val c sp) -> (d < length sp)%nat ->
    shape M = [m; nth d (cp_dims sp) 0%nat] ->
    exists sp' T', stepf sp (d, M) = Some sp' /\ ft_tmp_step T (d, M) = Some T' /\ cp_ok c sp' /\
      length sp' = length sp /\ cp_dims sp' = upd d m (cp_dims sp) /\ tensor_is T' (cp_dims sp') (cp_val c sp').
  Proof.
    intros Hok [HsT HgT] Hd HM. unfold stepf. cbn [fst snd].
    rewrite (nth_error_nth' sp (scalar r0) Hd). unfold np_matmul. rewrite HM, (ok_nth _ _ _ Hok Hd), Nat.eqb_refl. cbn [bind].
    set (n := nth d (cp_dims sp) 0%nat) in *.
    set (N := ND [m; length c] _).
    assert (Hnd : ndim T = length sp) by (unfold ndim; rewrite HsT, cp_dims_length; auto).
    destruct (ft_tmp_step_spec T M d m) as [T' [HT' [Hs' Hg']]]; [lia|rewrite HsT; auto|].
    destruct (ok_intro c (upd d N sp) (upd d m (cp_dims sp))) as [O1 O2].
    { rewrite upd_length. eapply ok_pos; eauto. }
    { rewrite !upd_length, cp_dims_length. auto. }
    { intros k Hk. rewrite upd_length in Hk. rewrite !nth_upd_gen by (rewrite ?cp_dims_length; auto).
      destruct (Nat.eqb_spec k d); auto. apply ok_nth; auto. }
    exists (upd d N sp), T'. split; auto. split; auto. split; auto. split; [apply upd_length|]. split; auto.
    rewrite O2. split; [congruence|]. rewrite <- HsT. intros is Hv. rewrite Hg' by auto.
    assert (Li : length is = length sp) by (rewrite (valid_length _ _ Hv), upd_length, HsT, cp_dims_length; auto).
    rewrite cp_val_term by (rewrite upd_length; auto). rewrite HsT. fold n.
    rewrite (rsum_ext (length c) _ (fun k => rsum n (fun j => nth k c r0 * term sp (upd d j is) k * get M [nth d is 0%nat; j]))).
    - rewrite rsum_exchange. apply rsum_ext. intros j Hj. rewrite HgT.
      + rewrite cp_val_term by (rewrite upd_length; auto). rewrite rsum_scal_r. auto.
      + rewrite HsT in Hv. apply valid_intro; [rewrite upd_length, cp_dims_length; auto|]. rewrite cp_dims_length. intros k Hk.
        rewrite nth_upd_gen by lia. destruct (Nat.eqb_spec k d) as [->|Hne]; [auto|].
        pose proof (valid_nth _ _ k Hv) as Hk'. rewrite upd_length, cp_dims_length, nth_upd_neq in Hk' by auto. auto.
    - intros k Hk. destruct (term_upd sp is d N k Hd Li) as [rest [E1 E2]]. rewrite E1. cbn [N get nth].
      rewrite <- rsum_scal_r, <- rsum_scal_l. apply rsum_ext. intros j Hj. rewrite E2. ring.
  Qed.
  Lemma cp_fold c dims : forall sp (Ms : list (nd R)) T, cp_ok c sp -> tensor_is T (cp_dims sp) (cp_val c sp) ->
    NoDup dims -> Forall (fun k => (k < length sp)%nat) dims -> length Ms = length dims ->
    (forall k, (k < length dims)%nat -> exists m, shape (nth k Ms (scalar r0)) = [m; nth (nth k dims 0%nat) (cp_dims sp) 0%nat]) ->
    exists sp' T', ofold stepf (combine dims Ms) sp = Some sp' /\ ofold ft_tmp_step (combine dims Ms) T = Some T' /\
      cp_ok c sp' /\ length sp' = length sp /\ cp_dims sp' = put dims (map (fun M => nth 0 (shape M) 0%nat) Ms) (cp_dims sp) /\
      tensor_is T' (cp_dims sp') (cp_val c sp').
  Proof.
    induction dims as [|d dims IH]; intros sp Ms T Hok HT Hn Hf HL HM.
    - exists sp, T. simpl. repeat split; try apply Hok; try apply HT; auto.
    - destruct Ms as [|M Ms]; [discriminate|]. simpl in HL. inversion Hn; subst. inversion Hf; subst.
      destruct (HM 0%nat ltac:(simpl; lia)) as [m Hm]. simpl in Hm.
      destruct (cp_step c sp d M m T) as [sp1 [T1 [E1 [E2 [O1 [L1 [D1 V1]]]]]]]; auto.
      destruct (IH sp1 Ms T1) as [sp2 [T2 [F1 [F2 [O2 [L2 [D2 V2]]]]]]]; auto.
      + rewrite L1; auto.
      + intros k Hk. destruct (HM (S k) ltac:(simpl; lia)) as [m' Hm']. simpl in Hm'. exists m'.
        rewrite D1, nth_upd_neq; auto. intros E. apply H1. rewrite <- E. apply nth_In; auto.
      + exists sp2, T2. cbn [combine ofold]. rewrite E1, E2. repeat (split; auto); try apply O2; try apply V2; try congruence.
        rewrite D2, D1, put_upd_comm by auto. cbn [map put]. rewrite Hm. auto.
  Qed.
  Lemma cp_tmp_dense (x : cp R) Ms dims T : okx x -> tensor_is T (cp_shape x) (cp_val (cp_core x) (cp_space x)) ->
    NoDup dims -> Forall (fun k => (k < cp_order x)%nat) dims -> length Ms = length dims ->
    (forall k, (k < length dims)%nat -> exists m, shape (nth k Ms (scalar r0)) = [m; nth (nth k dims 0%nat) (cp_shape x) 0%nat]) ->
    exists y T', cp_tensor_matrix_product x Ms (Some dims) = Some y /\ ft_tensor_matrix_product T Ms (Some dims) = Some T' /\
      okx y /\ cp_order y = cp_order x /\ cp_shape y = put dims (map (fun M => nth 0 (shape M) 0%nat) Ms) (cp_shape x) /\
      tensor_is T' (cp_shape y) (cp_val (cp_core y) (cp_space y)).
  Proof.
    intros Hok HT Hn Hf HL HM. unfold cp_tensor_matrix_product, ft_tensor_matrix_product. rewrite HL, Nat.eqb_refl. cbn [negb].
    destruct (cp_fold _ dims _ Ms T Hok HT Hn Hf HL HM) as [sp [T' [E1 [E2 [O [L [D V]]]]]]].
    unfold stepf in E1. rewrite E1. cbn [bind]. eexists; exists T'. split; [reflexivity|]. repeat (split; auto); try apply O; try apply V; auto.
  Qed.
  Theorem cp_tmp_spec (x : cp R) Ms dims : okx x ->
    NoDup dims -> Forall (fun k => (k < cp_order x)%nat) dims -> length Ms = length dims ->
    (forall k, (k < length dims)%nat -> exists m, shape (nth k Ms (scalar r0)) = [m; nth (nth k dims 0%nat) (cp_shape x) 0%nat]) ->
    exists y, cp_tensor_matrix_product x Ms (Some dims) = Some y /\ okx y /\
      cp_shape y = put dims (map (fun M => nth 0 (shape M) 0%nat) Ms) (cp_shape x) /\
      forall is, valid (cp_shape y) is -> cp_val (cp_core y) (cp_space y) is =
        bsum (sel 0%nat (cp_shape x) dims) (fun js => cp_val (cp_core x) (cp_space x) (put dims js is) * factors Ms (sel 0%nat is dims) js).
  Proof.
    intros Hok Hn Hf HL HM.
    destruct (cp_full_spec x Hok) as [T [HT HV]].
    destruct (cp_tmp_dense x Ms dims T Hok HV Hn Hf HL HM) as [y [T' [E1 [E2 [O [L [D V]]]]]]].
    exists y. split; auto. split; auto. split; auto. intros is Hv. rewrite <- (proj2 V is Hv).
    destruct HV as [Hs Hg].
    destruct (ft_tensor_matrix_product_spec T Ms dims) as [B [HB [HsB HgB]]]; auto.
    { unfold ndim. rewrite Hs. unfold cp_shape. rewrite map_length. auto. }
    { rewrite Hs. auto. }
    rewrite E2 in HB. inversion HB; subst B. rewrite HgB by (rewrite Hs, <- D; auto). rewrite Hs. apply bsum_ext. intros js Hj.
    rewrite Hg; auto. apply valid_put with (ms := map (fun M => nth 0 (shape M) 0%nat) Ms); auto.
    - unfold cp_shape. rewrite map_length. auto.
    - rewrite map_length; auto.
    - rewrite <- D. auto.
  Qed.
  Lemma cp_tmp_default (x : cp R) Ms : cp_tensor_matrix_product x Ms None = cp_tensor_matrix_product x Ms (Some (seq 0 (cp_order x))).
  Proof. reflexivity. Qed.
End CP.
