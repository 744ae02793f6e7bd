(** Proofs about FullTensor. *)
From Coq Require Import List Arith Lia Bool ZArith Permutation.
From Verif.Base Require Import ListAux CRing Index.
From Verif.Model Require Import Sorting Numpy FullTensor.
From Verif.Spec Require Import TensorSpec.
From Verif.Proofs Require Import SortingP NumpyP.
Import ListNotations.

(** * [put] *)
Lemma upd_comm {A} k1 k2 (a b : A) l : k1 <> k2 -> upd k1 a (upd k2 b l) = upd k2 b (upd k1 a l).
Proof.
  intros Hn. apply nth_ext' with (d := a); [rewrite !upd_length; auto|].
  intros m Hm. rewrite !nth_upd, !upd_length.
  destruct (Nat.eqb_spec m k1), (Nat.eqb_spec m k2); subst; auto; lia.
Qed.
Lemma put_length d js is : length (put d js is) = length is.
Proof. revert js; induction d as [|k d IH]; intros [|j js]; simpl; auto. rewrite upd_length. auto. Qed.
Lemma put_upd_comm k j d js is : ~ In k d -> put d js (upd k j is) = upd k j (put d js is).
Proof.
  revert js; induction d as [|k' d IH]; intros [|j' js] Hn; simpl; auto.
  rewrite IH by (simpl in Hn; tauto). apply upd_comm. simpl in Hn. intros ->; tauto.
Qed.
Lemma put_nth_out d js is k : ~ In k d -> nth k (put d js is) 0 = nth k is 0.
Proof.
  revert js; induction d as [|k' d IH]; intros [|j' js] Hn; simpl; auto.
  rewrite nth_upd_neq by (simpl in Hn; intros ->; tauto). apply IH. simpl in Hn; tauto.
Qed.
Lemma put_nth_in d js is m : NoDup d -> m < length d -> length js = length d -> nth m d 0 < length is ->
  nth (nth m d 0) (put d js is) 0 = nth m js 0.
Proof.
  revert js m; induction d as [|k d IH]; intros [|j js] m Hd Hm Hl Hk; simpl in *; try lia.
  inversion Hd as [|? ? Hn Hd']; subst. destruct m as [|m].
  - rewrite nth_upd_eq; auto. rewrite put_length; auto.
  - assert (nth m d 0 <> k) by (intros <-; apply Hn, nth_In; lia).
    rewrite nth_upd_neq by auto. apply IH; auto; lia.
Qed.
Lemma put_asm n d js is : length is = n -> NoDup d -> Forall (fun k => k < n) d -> length js = length d ->
  asm n d js (sel 0 is (compl n d)) = put d js is.
Proof.
  intros Hl Hd Hf Hj. rewrite Forall_forall in Hf. apply asm_ext; auto.
  - rewrite put_length; auto.
  - apply Forall_forall; auto.
  - intros m Hm. apply put_nth_in; auto. rewrite Hl. apply Hf, nth_In; auto.
  - intros m Hm. rewrite sel_nth by auto. apply put_nth_out.
    pose proof (nth_In _ 0 Hm) as Hi. apply in_compl in Hi. tauto.
Qed.
Lemma put_sel d is : NoDup d -> Forall (fun k => k < length is) d -> put d (sel 0 is d) is = is.
Proof.
  intros Hd Hf. rewrite <- put_asm with (n := length is); auto; [|rewrite sel_length; auto].
  apply asm_sel; auto.
Qed.
Lemma put_put d js ks is : length js = length d -> length ks = length d -> NoDup d -> Forall (fun k => k < length is) d ->
  put d js (put d ks is) = put d js is.
Proof.
  intros Hj Hk Hd Hf. rewrite Forall_forall in Hf.
  assert (Hf' : Forall (fun k => k < length is) d) by (apply Forall_forall; auto).
  rewrite <- (put_asm (length is) d js is) by auto.
  rewrite <- (put_asm (length is) d js (put d ks is)); auto; [|rewrite put_length; auto].
  f_equal. unfold sel. apply map_ext_in. intros k Hi. apply in_compl in Hi. apply put_nth_out. tauto.
Qed.
Lemma valid_put s d ms js is : NoDup d -> Forall (fun k => k < length s) d -> length ms = length d ->
  valid (put d ms s) is -> valid (sel 0 s d) js -> valid s (put d js is).
Proof.
  intros Hd Hf Hm Hv Hj. pose proof (valid_length _ _ Hv) as L. rewrite put_length in L.
  pose proof (valid_length _ _ Hj) as Lj. rewrite sel_length in Lj.
  apply valid_intro; [rewrite put_length; auto|]. intros k Hk.
  destruct (in_dec Nat.eq_dec k d) as [Hi|Hi].
  - apply index_of_nth in Hi as [Hi He]. rewrite <- He.
    rewrite put_nth_in by (auto; rewrite He; lia). rewrite <- sel_nth by auto.
    apply valid_nth; auto. rewrite sel_length; auto.
  - rewrite put_nth_out by auto. rewrite <- (put_nth_out d ms s k) by auto. apply valid_nth; auto.
    rewrite put_length; auto.
Qed.

Section FT.
  Context {R : Type} {CR : CRing R}.
  Add Ring Rr : rth.
  Local Open Scope cr_scope.
  Implicit Types A B C M T : nd R.

  (** * transposition *)
  Lemma ft_transpose_spec A p : is_perm (ndim A) p ->
    exists B, ft_transpose A p = Some B /\ shape B = sel 0%nat (shape A) p /\
      (forall is, valid (shape A) is -> get B (sel 0%nat is p) = get A is) /\
      (forall is, valid (shape B) is -> get B is = get A (sel 0%nat is (inv_perm p)) /\ valid (shape A) (sel 0%nat is (inv_perm p))).
  Proof.
    intros Hp. unfold ft_transpose. rewrite np_transpose_perm by auto. eexists; split; [reflexivity|].
    split; [reflexivity|]. split.
    - intros is Hv. cbn [get]. rewrite sel_inv_perm with (n := ndim A); auto. apply valid_length; auto.
    - intros is Hv. cbn [get shape] in *. split; auto.
      rewrite <- (sel_inv_perm 0%nat (ndim A) p (shape A)) by auto.
      apply sel_valid; auto. apply Forall_forall. intros k Hk.
      rewrite sel_length, (is_perm_length _ _ Hp). eapply is_perm_in; [apply inv_perm_is_perm|]; eauto.
  Qed.
  Lemma ft_transpose_none A p : ~ is_perm (ndim A) p -> ft_transpose A p = None.
  Proof.
    intros H. destruct (ft_transpose A p) eqn:E; auto. exfalso. apply H. eapply np_transpose_some; eauto.
  Qed.
  Lemma ft_itranspose_eq A p : is_perm (ndim A) p ->
    ft_itranspose A p = Some (ND (sel 0%nat (shape A) (inv_perm p)) (fun is => get A (sel 0%nat is p))).
  Proof.
    intros Hp. unfold ft_itranspose, ft_transpose. rewrite (np_argsort_perm (ndim A)) by auto.
    rewrite np_transpose_perm by (apply inv_perm_is_perm; auto). rewrite (inv_perm_inv (ndim A)); auto.
  Qed.
  Lemma perm_valid_inv s p is n : is_perm n p -> length s = n -> valid (sel 0%nat s (inv_perm p)) is ->
    valid s (sel 0%nat is p).
  Proof.
    intros Hp Hs Hv. rewrite <- (sel_inv_perm' 0%nat n p s) by auto.
    apply sel_valid; auto. apply Forall_forall. intros k Hk. rewrite sel_length, inv_perm_length, (is_perm_length _ _ Hp).
    eapply is_perm_in; eauto.
  Qed.
  Lemma ft_itranspose_transpose A p B : is_perm (ndim A) p -> ft_transpose A p = Some B ->
    exists C, ft_itranspose B p = Some C /\ teq C A.
  Proof.
    intros Hp HB. unfold ft_transpose in HB. rewrite np_transpose_perm in HB by auto. inversion HB; subst B; clear HB.
    rewrite ft_itranspose_eq.
    2:{ unfold ndim. cbn [shape]. rewrite sel_length, (is_perm_length _ _ Hp). auto. }
    eexists; split; [reflexivity|]. cbn [shape get]. split; cbn [shape get].
    - apply sel_inv_perm with (n := ndim A); auto.
    - intros is Hv. rewrite sel_inv_perm with (n := ndim A) in Hv by auto.
      rewrite sel_inv_perm with (n := ndim A); auto. apply valid_length; auto.
  Qed.
  Lemma ft_transpose_itranspose A p B : is_perm (ndim A) p -> ft_itranspose A p = Some B ->
    exists C, ft_transpose B p = Some C /\ teq C A.
  Proof.
    intros Hp HB. rewrite ft_itranspose_eq in HB by auto. inversion HB; subst B; clear HB.
    unfold ft_transpose. rewrite np_transpose_perm.
    2:{ unfold ndim. cbn [shape]. rewrite sel_length, inv_perm_length, (is_perm_length _ _ Hp). auto. }
    eexists; split; [reflexivity|]. cbn [shape get]. split; cbn [shape get].
    - apply sel_inv_perm' with (n := ndim A); auto.
    - intros is Hv. rewrite sel_inv_perm' with (n := ndim A) in Hv by auto.
      rewrite sel_inv_perm' with (n := ndim A); auto. apply valid_length; auto.
  Qed.

  (** * reshape *)
  Lemma ft_reshape_spec A s : prodn s = prodn (shape A) ->
    exists B, ft_reshape A s = Some B /\ shape B = s /\
      forall is js, valid s is -> valid (shape A) js -> sub2indF s is = sub2indF (shape A) js -> get B is = get A js.
  Proof.
    intros H. unfold ft_reshape, np_reshapeF. rewrite H, Nat.eqb_refl. eexists; split; [reflexivity|].
    split; [reflexivity|]. intros is js Hi Hj He. cbn [get]. rewrite He, ind2subF_sub2indF; auto.
  Qed.
  Lemma ft_reshape_none A s : prodn s <> prodn (shape A) -> ft_reshape A s = None.
  Proof. intros H. unfold ft_reshape, np_reshapeF. destruct (Nat.eqb_spec (prodn s) (prodn (shape A))); congruence. Qed.

  (** * matricize *)
  Lemma ft_matricize_spec A d1 d2 : is_perm (ndim A) (d1 ++ d2) ->
    exists M, ft_matricize A d1 (Some d2) = Some M /\
      shape M = [prodn (sel 0%nat (shape A) d1); prodn (sel 0%nat (shape A) d2)] /\
      forall is, valid (shape A) is ->
        get M [sub2indF (sel 0%nat (shape A) d1) (sel 0%nat is d1); sub2indF (sel 0%nat (shape A) d2) (sel 0%nat is d2)]
        = get A is.
  Proof.
    intros Hp. unfold ft_matricize.
    assert (Hf : Forall (fun k => (k < ndim A)%nat) (d1 ++ d2)).
    { apply Forall_forall. intros k Hk. eapply is_perm_in; eauto. }
    rewrite (proj2 (forallb_ltb _ _)) by auto. cbn [negb].
    destruct (ft_transpose_spec A (d1 ++ d2) Hp) as [T [HT [HsT [Hg _]]]]. rewrite HT. cbn [bind].
    assert (Hsplit : forall l : list nat, sel 0%nat l (d1 ++ d2) = sel 0%nat l d1 ++ sel 0%nat l d2) by (intros; apply map_app).
    destruct (ft_reshape_spec T [prodn (sel 0%nat (shape A) d1); prodn (sel 0%nat (shape A) d2)]) as [M [HM [HsM HgM]]].
    { rewrite HsT, Hsplit, prodn_app. simpl. lia. }
    rewrite HM. exists M. split; auto. split; auto.
    intros is Hv. rewrite <- Hg by auto. apply Forall_app in Hf as [Hf1 Hf2].
    assert (V1 : valid (sel 0%nat (shape A) d1) (sel 0%nat is d1)) by (apply sel_valid; auto).
    assert (V2 : valid (sel 0%nat (shape A) d2) (sel 0%nat is d2)) by (apply sel_valid; auto).
    apply HgM.
    - constructor; [apply sub2indF_lt; auto|]. constructor; [apply sub2indF_lt; auto|constructor].
    - rewrite HsT, !Hsplit. apply valid_app; auto.
    - rewrite HsT, !Hsplit, sub2indF_app by auto. simpl. lia.
  Qed.
  Lemma ft_matricize_default A d1 : ft_matricize A d1 None = ft_matricize A d1 (Some (compl (ndim A) d1)).
  Proof. reflexivity. Qed.

  (** * contractions *)
  Lemma np_tensordot_ok A B d1 d2 : NoDup d1 -> NoDup d2 ->
    Forall (fun k => (k < ndim A)%nat) d1 -> Forall (fun k => (k < ndim B)%nat) d2 ->
    sel 0%nat (shape A) d1 = sel 0%nat (shape B) d2 ->
    ft_tensordot A B d1 d2 =
      Some (ND (sel 0%nat (shape A) (compl (ndim A) d1) ++ sel 0%nat (shape B) (compl (ndim B) d2))
               (fun is => bsum (sel 0%nat (shape A) d1)
                  (fun js => get A (asm (ndim A) d1 js (firstn (length (compl (ndim A) d1)) is))
                             * get B (asm (ndim B) d2 js (skipn (length (compl (ndim A) d1)) is))))).
  Proof.
    intros H1 H2 F1 F2 Hs. unfold ft_tensordot.
    assert (L : length d1 = length d2) by (rewrite <- (sel_length 0%nat (shape A) d1), Hs, sel_length; auto).
    assert (Hc : forallb (fun p => nth (fst p) (shape A) 0%nat =? nth (snd p) (shape B) 0%nat) (combine d1 d2) = true).
    { apply forallb_forall. intros [k1 k2] Hi. apply Nat.eqb_eq. simpl.
      apply In_nth with (d := (0%nat, 0%nat)) in Hi as [m [Hm He]].
      rewrite combine_length in Hm. rewrite combine_nth in He by auto. inversion He; subst k1 k2.
      rewrite <- !sel_nth by lia. rewrite Hs. auto. }
    rewrite Hc. unfold np_tensordot.
    rewrite L, Nat.eqb_refl, !(proj2 (forallb_ltb _ _)), !(proj2 (nodupb_spec _)), Hs, list_eqb_refl by auto.
    auto.
  Qed.
  Lemma np_tensordot_some A B d1 d2 C : ft_tensordot A B d1 d2 = Some C ->
    NoDup d1 /\ NoDup d2 /\ Forall (fun k => (k < ndim A)%nat) d1 /\ Forall (fun k => (k < ndim B)%nat) d2 /\
    sel 0%nat (shape A) d1 = sel 0%nat (shape B) d2.
  Proof.
    unfold ft_tensordot, np_tensordot. destruct (forallb _ (combine d1 d2)); [|discriminate].
    match goal with |- (if ?b then _ else _) = _ -> _ => destruct b eqn:E; [|discriminate] end.
    rewrite !andb_true_iff in E. destruct E as [[[[[_ E2] E3] E4] E5] E6].
    intros _. rewrite forallb_ltb in E2, E3. rewrite nodupb_spec in E4, E5. apply list_eqb_spec in E6. auto.
  Qed.

  (** one axis of a matrix *)
  Lemma ft_tmp_step_spec T M d m : (d < ndim T)%nat -> shape M = [m; nth d (shape T) 0%nat] ->
    returns (ft_tmp_step T (d, M)) (upd d m (shape T))
      (fun is => rsum (nth d (shape T) 0%nat) (fun j => get T (upd d j is) * get M [nth d is 0%nat; j])).
  Proof.
    intros Hd HM. unfold ft_tmp_step. cbn [fst snd].
    assert (HMn : ndim M = 2%nat) by (unfold ndim; rewrite HM; auto).
    rewrite np_tensordot_ok; try apply NoDup_single; try (apply Forall_lt_single; auto; rewrite HMn; lia);
      try (rewrite HM; reflexivity).
    cbn [bind].
    pose (q := compl (ndim T) [d] ++ [d]).
    assert (Hq : is_perm (ndim T) q) by (apply compl_app_perm; [apply NoDup_single|apply Forall_lt_single; auto]).
    pose proof (compl_length (ndim T) [d] (NoDup_single d) (Forall_lt_single _ _ Hd)) as Lc. simpl in Lc.
    rewrite HMn. change (compl 2 [1%nat]) with [0%nat]. rewrite HM. cbn [sel map nth].
    rewrite ft_itranspose_eq.
    2:{ unfold ndim at 1. cbn [shape]. rewrite app_length, sel_length. simpl. rewrite Lc. exact Hq. }
    eexists; split; [reflexivity|]. cbn [shape get].
    assert (Hsh : sel 0%nat (upd d m (shape T)) q = sel 0%nat (shape T) (compl (ndim T) [d]) ++ [m]).
    { unfold q, sel. rewrite map_app. f_equal.
      - apply map_ext_in. intros k Hk. apply in_compl in Hk. rewrite nth_upd_neq; auto.
        intros ->. apply (proj2 Hk). simpl; auto.
      - simpl. rewrite nth_upd_eq by auto. auto. }
    split; cbn [shape get].
    - fold q. fold (sel 0%nat (shape T) (compl (ndim T) [d])). rewrite <- Hsh.
      apply sel_inv_perm with (n := ndim T); auto. apply upd_length.
    - intros is Hv. simpl bsum. apply rsum_ext. intros j Hj.
      assert (L : length is = ndim T) by (rewrite (valid_length _ _ Hv), upd_length; auto).
      assert (Hs : sel 0%nat is q = sel 0%nat is (compl (ndim T) [d]) ++ [nth d is 0%nat])
        by (unfold q, sel; rewrite map_app; auto).
      fold q. fold (sel 0%nat is q). rewrite Hs.
      rewrite firstn_app, sel_length, Nat.sub_diag, firstn_O, app_nil_r.
      rewrite (firstn_all2 (sel 0%nat is _)) by (rewrite sel_length; lia).
      rewrite skipn_app, sel_length, Nat.sub_diag, skipn_O.
      rewrite (skipn_all2 (sel 0%nat is _)) by (rewrite sel_length; lia).
      rewrite asm_upd by auto. f_equal.
  Qed.

  Lemma ft_tmp_fold dims : forall T (Ms : list (nd R)),
    NoDup dims -> Forall (fun k => (k < ndim T)%nat) dims -> length Ms = length dims ->
    (forall k, (k < length dims)%nat -> exists m, shape (nth k Ms (scalar r0)) = [m; nth (nth k dims 0%nat) (shape T) 0%nat]) ->
    returns (ofold ft_tmp_step (combine dims Ms) T)
      (put dims (map (fun M => nth 0 (shape M) 0%nat) Ms) (shape T))
      (fun is => bsum (sel 0%nat (shape T) dims) (fun js => get T (put dims js is) * factors Ms (sel 0%nat is dims) js)).
  Proof.
    induction dims as [|d dims IH]; intros T Ms Hn Hf HL HM.
    - simpl. exists T. split; auto. split; auto. intros is Hv.
      destruct Ms; [|discriminate]. simpl. ring.
    - destruct Ms as [|M Ms]; [discriminate|]. simpl in HL.
      inversion Hn as [|? ? Hd Hn']; subst. inversion Hf as [|? ? Hdl Hf']; subst.
      destruct (HM 0%nat) as [m Hm]; [simpl; lia|]. simpl in Hm.
      destruct (ft_tmp_step_spec T M d m Hdl Hm) as [T1 [HT1 [Hs1 Hg1]]].
      cbn [combine ofold]. rewrite HT1.
      assert (Hnd : ndim T1 = ndim T) by (unfold ndim; rewrite Hs1, upd_length; auto).
      assert (Hnn : forall k, In k dims -> nth k (shape T1) 0%nat = nth k (shape T) 0%nat).
      { intros k Hk. rewrite Hs1, nth_upd_neq; auto. intros ->; contradiction. }
      destruct (IH T1 Ms Hn') as [B [HB [HsB HgB]]].
      { rewrite Hnd; auto. }
      { lia. }
      { intros k Hk. destruct (HM (S k)) as [m' Hm']; [simpl; lia|]. exists m'. simpl in Hm'.
        rewrite Hnn; auto. apply nth_In; auto. }
      rewrite HB. exists B. split; auto.
      assert (Hsh : put dims (map (fun M0 : nd R => nth 0 (shape M0) 0%nat) Ms) (shape T1) =
                    put (d :: dims) (map (fun M0 : nd R => nth 0 (shape M0) 0%nat) (M :: Ms)) (shape T)).
      { rewrite Hs1, put_upd_comm by auto. cbn [map put]. rewrite Hm. reflexivity. }
      split; [congruence|].
      intros is Hv. rewrite HgB by (rewrite Hsh; auto). simpl.
      assert (Hsel : sel 0%nat (shape T1) dims = sel 0%nat (shape T) dims).
      { unfold sel. apply map_ext_in. auto. }
      rewrite Hsel. fold (sel 0%nat (shape T) dims).
      rewrite <- bsum_rsum_exchange. apply bsum_ext. intros js Hj.
      assert (Hvp : valid (shape T1) (put dims js is)).
      { apply valid_put with (ms := map (fun M0 : nd R => nth 0 (shape M0) 0%nat) Ms); auto.
        - unfold ndim in Hnd. rewrite Hnd; auto.
        - rewrite map_length. lia.
        - rewrite Hsh. exact Hv.
        - rewrite Hsel. exact Hj. }
      rewrite Hs1 in Hvp. rewrite Hg1 by auto. rewrite <- rsum_scal_r. apply rsum_ext. intros j Hj'.
      rewrite put_nth_out by auto.
      fold (sel 0%nat is dims). ring.
  Qed.

  Theorem ft_tensor_matrix_product_spec A Ms dims :
    NoDup dims -> Forall (fun k => (k < ndim A)%nat) dims -> length Ms = length dims ->
    (forall k, (k < length dims)%nat -> exists m, shape (nth k Ms (scalar r0)) = [m; nth (nth k dims 0%nat) (shape A) 0%nat]) ->
    returns (ft_tensor_matrix_product A Ms (Some dims))
      (put dims (map (fun M => nth 0 (shape M) 0%nat) Ms) (shape A))
      (fun is => bsum (sel 0%nat (shape A) dims) (fun js => get A (put dims js is) * factors Ms (sel 0%nat is dims) js)).
  Proof.
    intros Hn Hf HL HM. unfold ft_tensor_matrix_product. rewrite HL, Nat.eqb_refl. cbn [negb].
    apply ft_tmp_fold; auto.
  Qed.
  Lemma ft_tensor_matrix_product_default A Ms :
    ft_tensor_matrix_product A Ms None = ft_tensor_matrix_product A Ms (Some (seq 0 (ndim A))).
  Proof. reflexivity. Qed.

  Lemma put_all n js is : length is = n -> length js = n -> put (seq 0 n) js is = js.
  Proof.
    intros Hi Hj. rewrite <- put_asm with (n := n); auto using seq_NoDup.
    - apply asm_all; auto.
    - apply Forall_forall. intros x Hx. apply in_seq in Hx. lia.
    - rewrite seq_length; auto.
  Qed.

  (** * dot *)
  Lemma ft_dot_spec A B : shape A = shape B ->
    ft_dot A B = Some (bsum (shape A) (fun is => get A is * get B is)).
  Proof.
    intros H. unfold ft_dot. destruct (np_binop_same rmul A B H) as [C [HC [Hs Hg]]]. rewrite HC.
    f_equal. unfold np_sum. rewrite Hs. apply bsum_ext. exact Hg.
  Qed.

  (** * vectors *)
  Lemma vfac (vs : list (nd R)) : forall is js dims (s : list nat),
    (forall k, (k < length vs)%nat -> shape (nth k vs (scalar r0)) = [nth k s 0%nat]) ->
    length s = length vs -> length dims = length vs -> valid s js ->
    (forall k, In k dims -> nth k is 0%nat = 0%nat) ->
    factors (map row_of_vector vs) (sel 0%nat is dims) js = vfactors vs js.
  Proof.
    induction vs as [|v vs IH]; intros is js dims s Hs Ls Ld Hv H0; auto.
    destruct dims as [|d dims]; [discriminate|]. destruct s as [|n s]; [discriminate|].
    inversion Hv as [|j ? js' ? Hj Hv']; subst. simpl.
    rewrite IH with (s := s); auto.
    2:{ intros k Hk. apply (Hs (S k)). simpl; lia. }
    2:{ intros k Hk. apply H0; simpl; auto. }
    f_equal. pose proof (Hs 0%nat) as H1. simpl in H1. rewrite H1 by lia. unfold ind2subF.
    rewrite Nat.mod_small by auto. auto.
  Qed.

  Theorem ft_tensor_vector_product_spec A vs dims :
    NoDup dims -> Forall (fun k => (k < ndim A)%nat) dims -> length vs = length dims ->
    (forall k, (k < length dims)%nat -> shape (nth k vs (scalar r0)) = [nth (nth k dims 0%nat) (shape A) 0%nat]) ->
    returns (ft_tensor_vector_product A vs (Some dims))
      (sel 0%nat (shape A) (compl (ndim A) dims))
      (fun is => bsum (sel 0%nat (shape A) dims) (fun js => get A (asm (ndim A) dims js is) * vfactors vs js)).
  Proof.
    intros Hn Hf HL HM. unfold ft_tensor_vector_product. rewrite HL, Nat.eqb_refl. cbn [negb].
    assert (Hnth : forall k, (k < length dims)%nat -> nth k (map row_of_vector vs) (scalar r0) = row_of_vector (nth k vs (scalar r0))).
    { intros k Hk. apply map_nth_in. lia. }
    destruct (ft_tensor_matrix_product_spec A (map row_of_vector vs) dims Hn Hf) as [T [HT [HsT HgT]]].
    { rewrite map_length; auto. }
    { intros k Hk. exists 1%nat. rewrite Hnth by auto. simpl. unfold np_size. rewrite HM by auto.
      simpl. rewrite Nat.mul_1_r. auto. }
    rewrite HT. cbn [bind]. unfold ft_squeeze, np_squeeze.
    assert (Hones : map (fun M : nd R => nth 0 (shape M) 0%nat) (map row_of_vector vs) = repeat 1%nat (length dims)).
    { rewrite map_map. simpl. rewrite <- HL. clear. induction vs; simpl; auto. f_equal; auto. }
    assert (HndT : ndim T = ndim A) by (unfold ndim; rewrite HsT, put_length; auto).
    rewrite Forall_forall in Hf.
    assert (H1 : forall k, In k dims -> nth k (shape T) 0%nat = 1%nat).
    { intros k Hk. pose proof (Hf k Hk) as Hkl. apply index_of_nth in Hk as [Hk He]. rewrite <- He.
      rewrite HsT, Hones, put_nth_in; auto.
      - rewrite (nth_indep _ 0%nat 1%nat) by (rewrite repeat_length; auto). apply nth_repeat.
      - rewrite repeat_length; auto.
      - rewrite He; auto. }
    assert (Hok : forallb (fun k => (k <? ndim T) && (nth k (shape T) 0%nat =? 1)) dims = true).
    { apply forallb_forall. intros k Hk. apply andb_true_iff. split.
      - apply Nat.ltb_lt. rewrite HndT. auto.
      - apply Nat.eqb_eq; auto. }
    rewrite Hok, (proj2 (nodupb_spec dims)) by auto. cbn [andb]. eexists; split; [reflexivity|].
    assert (Hsc : sel 0%nat (shape T) (compl (ndim A) dims) = sel 0%nat (shape A) (compl (ndim A) dims)).
    { unfold sel. apply map_ext_in. intros k Hk. apply in_compl in Hk. rewrite HsT, put_nth_out; tauto. }
    split; cbn [shape get]; rewrite HndT; [auto|].
    intros is Hv.
    assert (Hf' : Forall (fun k => (k < length (shape T))%nat) dims).
    { apply Forall_forall. unfold ndim in HndT. rewrite HndT. auto. }
    assert (Hva : valid (shape T) (asm (ndim A) dims (repeat 0%nat (length dims)) is)).
    { unfold ndim in HndT. unfold ndim. rewrite <- HndT. apply valid_asm; auto.
      - apply valid_intro; [rewrite repeat_length, sel_length; auto|]. rewrite sel_length. intros k Hk.
        rewrite sel_nth, H1 by (auto; apply nth_In; auto). rewrite nth_repeat. lia.
      - rewrite HndT. unfold ndim in Hsc. rewrite Hsc. exact Hv. }
    rewrite HsT in Hva. rewrite HgT by auto. apply bsum_ext. intros js Hj.
    assert (Lj : length js = length dims) by (rewrite (valid_length _ _ Hj), sel_length; auto).
    assert (Hfn : Forall (fun k => (k < ndim A)%nat) dims) by (apply Forall_forall; auto).
    assert (Li : length is = length (compl (ndim A) dims)) by (rewrite (valid_length _ _ Hv), sel_length; auto).
    f_equal.
    - f_equal. rewrite <- put_asm with (n := ndim A); auto; [|apply asm_length].
      rewrite sel_asm_compl; auto.
    - apply vfac with (s := sel 0%nat (shape A) dims); auto.
      + intros k Hk. rewrite sel_nth by lia. apply HM. lia.
      + rewrite sel_length; auto.
      + intros k Hk. apply index_of_nth in Hk as [Hk He]. rewrite <- He.
        rewrite asm_nth_in by auto. apply nth_repeat.
  Qed.

  (** * sub_tensor *)
  Lemma np_take_ok T ks d : (d < ndim T)%nat -> Forall (fun k => (k < nth d (shape T) 0)%nat) ks ->
    np_take T ks d = Some (ND (upd d (length ks) (shape T)) (fun is => get T (upd d (nth (nth d is 0%nat) ks 0%nat) is))).
  Proof.
    intros Hd Hk. unfold np_take. rewrite (proj2 (Nat.ltb_lt _ _)), (proj2 (forallb_ltb _ _)) by auto. auto.
  Qed.
End FT.
