(** Conditional expectations of functional tensors. *)
From Coq Require Import List Arith Bool ZArith Lia Sorted Permutation.
From Verif.Base Require Import ListAux CRing Index.
From Verif.Model Require Import Sorting MultiIndices Numpy FullTensor Diagonal Canonical Sparse DimensionTree Functions FunctionalBases.
From Verif.Spec Require Import MultiIndicesSpec TensorSpec FunctionSpec FunctionalSpec.
From Verif.Proofs Require Import NumpyP FullTensorP FullTensorP3 SparseP CanonicalP CanonicalP2 MIMoreP FunctionsP FunctionsP2 FunctionsP3 TensorizerP FunctionalP FunctionalP2 FunctionalP3 FunctionalP4 FunctionalP5 TreeTensorP17.
Import ListNotations.

Lemma nth_le_sorted (l : list nat) : NoDup l -> (forall i j, i < j -> j < length l -> nth i l 0 <= nth j l 0) -> StronglySorted lt l.
Proof.
  induction l as [|a l IH]; intros ND H; constructor.
  - inversion ND; subst. apply IH; auto. intros i j Hi Hj. apply (H (S i) (S j)); cbn; lia.
  - inversion ND; subst. apply Forall_forall. intros x Hx. apply (In_nth _ _ 0) in Hx. destruct Hx as (k & Hk & <-).
    pose proof (H 0 (S k) ltac:(lia) ltac:(cbn; lia)) as Hle. cbn [nth] in Hle. assert (nth k l 0 <> a) by (intros E; apply H2; rewrite <- E; apply nth_In; auto). lia.
Qed.
Lemma sort_dims n dims : NoDup dims -> Forall (fun k => k < n) dims -> sel 0 dims (np_argsort dims) = filter (fun k => inb k dims) (seq 0 n).
Proof.
  intros ND HF. destruct (np_argsort_spec dims) as [Hp Ho]. rewrite Forall_forall in HF.
  assert (HP : Permutation (sel 0 dims (np_argsort dims)) dims) by (apply (sel_perm 0 (length dims)); auto).
  apply sorted_same.
  - apply nth_le_sorted; [eapply Permutation_NoDup; [symmetry; exact HP|auto]|]. intros i j Hi Hj. apply Ho; auto. rewrite (Permutation_length HP) in Hj. auto.
  - apply sorted_filter_seq.
  - intros c. rewrite filter_In, in_seq, inb_spec. split.
    + intros Hc. apply (Permutation_in _ HP) in Hc. pose proof (HF c Hc). split; [lia|auto].
    + intros [_ Hc]. apply (Permutation_in _ (Permutation_sym HP)). auto.
Qed.
Lemma compl_sorted n l : compl n l = filter (fun k => negb (inb k l)) (seq 0 n).
Proof. reflexivity. Qed.
Lemma compl_compl n l : compl n (compl n l) = filter (fun k => inb k l) (seq 0 n).
Proof.
  apply sorted_same; [apply sorted_filter_seq|apply sorted_filter_seq|]. intros c. rewrite in_compl, in_compl, filter_In, in_seq, inb_spec.
  split; intros [H1 H2]; (split; [lia|]).
  - destruct (inb c l) eqn:E; [apply inb_spec; auto|]. exfalso. apply H2. split; auto. apply inb_false. auto.
  - intros [_ H]. auto.
Qed.

Section P.
  Context {R : Type} {CR : CRing R} {A V : Type}.
  Add Ring Rfb7 : rth.
  Local Open Scope cr_scope.
  Notation fb := (fbasis R A V).

  Lemma meanprod_seq : forall d (G : list (list (list A))) (W : list (list R)) hs h0, length G = d -> length W = d -> length hs = d ->
    meanprod G W hs = lprod (seq 0 d) (fun k => dmean (nth k G []) (nth k W []) (nth k hs h0)).
  Proof.
    induction d as [|d IH]; intros [|g G] [|w W] [|h hs] h0 H1 H2 H3; cbn [length] in *; try lia; [reflexivity|].
    cbn [meanprod seq lprod nth]. f_equal. rewrite (IH G W hs h0) by lia. rewrite <- seq_shift, lprod_map. reflexivity.
  Qed.
  Lemma prod_fun_groups (b0 : fb) : forall (bs : list fb) is (ps : list (list A)), length is = length bs -> Forall2 (fun b p => length p = fb_ndim b) bs ps ->
    prod_fun bs is (concat ps) = lprod (seq 0 (length bs)) (fun k => fb_at (nth k bs b0) (nth k ps []) (nth k is 0%nat)).
  Proof.
    induction bs as [|b bs IH]; intros [|i is] ps HL HF; cbn [length] in *; try lia; inversion HF; subst; [reflexivity|].
    cbn [prod_fun concat seq lprod nth]. rewrite firstn_app, H1, Nat.sub_diag, firstn_all2 by lia. cbn [firstn]. rewrite app_nil_r.
    rewrite skipn_app, H1, Nat.sub_diag, skipn_all2 by lia. cbn [skipn app]. f_equal. rewrite IH by (auto; lia). rewrite <- seq_shift, lprod_map. reflexivity.
  Qed.
  Lemma lfactors_seq : forall (M : list (list R)) js, length js = length M -> lfactors M js = lprod (seq 0 (length M)) (fun k => nth (nth k js 0%nat) (nth k M []) r0).
  Proof.
    induction M as [|m M IH]; intros [|j js] HL; cbn [length] in *; try lia; [reflexivity|]. rewrite lfactors_cons. cbn [seq lprod nth]. f_equal.
    rewrite IH by lia. rewrite <- seq_shift, lprod_map. reflexivity.
  Qed.
  Lemma lprod_nth (l : list nat) (f : nat -> R) : lprod l f = lprod (seq 0 (length l)) (fun k => f (nth k l 0%nat)).
  Proof. induction l as [|a l IH]; [reflexivity|]. cbn [length seq lprod nth]. f_equal. rewrite IH. rewrite <- seq_shift, lprod_map. reflexivity. Qed.

  Section C.
    Variables (T : nd R) (bs : list fb) (dims : list nat) (G : list (list (list A))) (W : list (list R)).
    Hypothesis HN : NoDup dims.
    Hypothesis HF : Forall (fun k => (k < length bs)%nat) dims.
    Hypothesis HT : shape T = cards bs.
    Hypothesis HM : each3 mean_ok bs G W.
    Let d := length bs.
    Let b0 : fb := FB 0 0 (fun _ _ => r0) (fun _ => []) (scalar r0) false.
    Let sd := filter (fun k => inb k dims) (seq 0 d).
    Let cd := compl d dims.
    Let MC := map (fun k => fb_mean (nth k bs b0) None) cd.
    Lemma cd_sd : compl d cd = sd. Proof. apply compl_compl. Qed.
    Lemma cd_lt : Forall (fun k => (k < d)%nat) cd. Proof. apply Forall_forall. intros k Hk. apply in_compl in Hk. apply Hk. Qed.
    Lemma cd_nd : NoDup cd. Proof. apply NoDup_filter, seq_NoDup. Qed.
    Lemma sd_lt k : In k sd -> (k < d)%nat. Proof. intros Hk. apply filter_In in Hk. destruct Hk as [Hk _]. apply in_seq in Hk. lia. Qed.
    Lemma cond_sort : compl d (sel 0%nat dims (np_argsort dims)) = cd.
    Proof.
      rewrite (sort_dims d) by auto. unfold cd. rewrite !compl_sorted. apply filter_ext_in. intros k Hk. f_equal.
      destruct (inb k dims) eqn:E; [apply inb_spec|apply inb_false].
      - apply filter_In. auto.
      - intros H. apply filter_In in H. rewrite E in H. destruct H. congruence.
    Qed.
    Lemma omap_nths ks : Forall (fun k => (k < d)%nat) ks -> omap (nth_error bs) ks = Some (map (fun k => nth k bs b0) ks).
    Proof. intros H. rewrite Forall_forall in H. apply omap_some. intros k Hk. apply nth_error_nth'. apply H. auto. Qed.
    Lemma cond_data : exists t, fun_cond_full T bs dims MNone = Some (t, map (fun k => nth k bs b0) sd) /\ shape t = cards (map (fun k => nth k bs b0) sd) /\
      forall is, valid (shape t) is -> get t is = bsum (sel 0%nat (cards bs) cd) (fun js => get T (asm d cd js is) * lfactors MC js).
    Proof.
      assert (LC : length (cards bs) = d) by apply map_length.
      assert (Hnd : ndim T = d) by (unfold ndim; rewrite HT; auto).
      assert (Ecard : cards (map (fun k => nth k bs b0) sd) = sel 0%nat (cards bs) sd).
      { unfold cards, sel. rewrite map_map. apply map_ext_in. intros k Hk. rewrite map_nth_in with (da := b0) by (apply sd_lt; auto). auto. }
      unfold fun_cond_full. fold d. rewrite Hnd, Nat.eqb_refl, cond_sort.
      assert (HD : cd = [] \/ exists c0 cl, cd = c0 :: cl) by (destruct cd as [|c0 cl]; [left; auto|right; eauto]). destruct HD as [EC|(c0 & cl & EC)]; rewrite EC.
      - assert (ES : sd = seq 0 d) by (rewrite <- cd_sd, EC; apply compl_nil).
        exists T. split; [|split].
        + f_equal. f_equal. rewrite ES. symmetry. apply map_seq_nth.
        + rewrite Ecard, ES, HT, <- LC. symmetry. apply sel_seq.
        + intros is Hi. cbn [sel map bsum]. unfold MC. rewrite EC. unfold lfactors. cbn. rewrite asm_nil; [ring|]. rewrite HT in Hi. rewrite (valid_length _ _ Hi). auto.
      - rewrite <- EC. unfold fbs_mean, dims_or. rewrite omap_nths by apply cd_lt. cbn [bind]. replace (map (fun x : fb => fb_mean x None) (map (fun k => nth k bs b0) cd)) with MC by (unfold MC; rewrite map_map; auto).
        destruct (ft_tensor_vector_product_spec T (map vec_of MC) cd cd_nd) as (t & Et & St & Gt).
        { rewrite Hnd. apply cd_lt. } { unfold MC. rewrite !map_length. auto. }
        { intros k Hk. unfold MC. rewrite map_map, map_nth_in with (da := 0%nat) by auto. unfold vec_of. cbn [shape]. pose proof cd_lt as H. rewrite Forall_forall in H.
          specialize (H _ (nth_In _ 0%nat Hk)). destruct (each3_nth _ _ b0 [] [] _ _ (nth k cd 0%nat) HM H) as (_ & _ & E & _). rewrite E, HT. unfold cards. rewrite map_nth_in with (da := b0) by auto. auto. }
        rewrite Et. cbn [bind]. rewrite (sort_dims d) by auto. fold sd. rewrite omap_nths by (apply Forall_forall; apply sd_lt). cbn [bind].
        exists t. split; auto. rewrite Hnd, cd_sd, HT in St. split; [rewrite St; auto|]. intros is Hi. rewrite Gt by (rewrite Hnd, cd_sd, HT, <- St; auto).
        rewrite HT, Hnd. apply bsum_ext. intros js Hj. f_equal. apply vfactors_vec. unfold MC. rewrite map_length. rewrite (valid_length _ _ Hj). apply sel_length.
    Qed.
    Theorem fun_cond_full_ok : exists t, fun_cond_full T bs dims MNone = Some (t, map (fun k => nth k bs b0) sd) /\ shape t = cards (map (fun k => nth k bs b0) sd) /\
      forall P, Forall2 (fun b p => length p = fb_ndim b) bs P ->
        expansion (map (fun k => nth k bs b0) sd) (get t) (concat (map (fun k => nth k P []) sd)) = tmean (fix_points dims P G) (fix_weights dims W) (expansion bs (get T)).
    Proof.
      destruct cond_data as (t & Et & St & Gt). exists t. split; auto. split; auto. intros P HP.
      assert (LC : length (cards bs) = d) by apply map_length.
      destruct (each3_len _ _ _ _ HM) as [LG LW]. fold d in LG, LW.
      assert (Ecard : cards (map (fun k => nth k bs b0) sd) = sel 0%nat (cards bs) sd).
      { unfold cards, sel. rewrite map_map. apply map_ext_in. intros k Hk. rewrite map_nth_in with (da := b0) by (apply sd_lt; auto). auto. }
      unfold expansion at 2. rewrite tmean_bsum. rewrite (bsum_asm (cards bs) cd) by (try rewrite LC; auto using cd_nd, cd_lt).
      rewrite LC, cd_sd. unfold expansion. rewrite <- Ecard.
      rewrite bsum_exchange. apply bsum_ext. intros is Hi. rewrite Gt by (rewrite St; auto). rewrite <- bsum_scal_r. apply bsum_ext. intros js Hj.
      match goal with |- ?a * ?b * ?c = _ => transitivity (a * (b * c)); [ring|] end. f_equal.
      assert (Li : length is = length sd) by (rewrite (valid_length _ _ Hi), Ecard; apply sel_length).
      assert (Lj : length js = length cd) by (rewrite (valid_length _ _ Hj); apply sel_length).
      assert (LMC : length MC = length cd) by (unfold MC; apply map_length).
      set (ks := asm d cd js is).
      assert (Lk : length ks = d) by apply asm_length.
      (* the mean of the product of the basis functions *)
      set (F := fun k => if inb k dims then fb_at (nth k bs b0) (nth k P []) (nth k ks 0%nat) else nth (nth k ks 0%nat) (fb_mean (nth k bs b0) None) r0).
      assert (EF : tmean (fix_points dims P G) (fix_weights dims W) (prod_fun bs ks) = lprod (seq 0 d) F).
      { rewrite (tmean_ext _ _ _ (hprod (map fb_ndim bs) (funs bs ks))) by (intros; apply prod_hprod; auto).
        rewrite tmean_hprod.
        - rewrite (meanprod_seq d _ _ _ (fun _ => r0)).
          + apply lprod_ext. intros k Hk. apply in_seq in Hk. destruct Hk as [_ Hk]. cbn in Hk. unfold fix_points, fix_weights. rewrite LG, LW, !nth_map_seq by auto.
            unfold funs. rewrite map_nth_in with (da := (b0, 0%nat)) by (rewrite combine_length; fold d; lia). rewrite combine_nth by auto. cbn [fst snd].
            unfold F, inb. destruct (existsb (Nat.eqb k) dims) eqn:E.
            * unfold dmean. cbn [length rsum nth]. ring.
            * destruct (each3_nth _ _ b0 [] [] _ _ k HM Hk) as (_ & _ & _ & E4). symmetry. apply E4.
              assert (HVk : valid (cards bs) ks).
              { apply valid_intro; [lia|]. intros m Hm. unfold ks. rewrite asm_nth by lia. destruct (inb m cd) eqn:EI.
                - apply inb_spec in EI. apply index_of_nth in EI. destruct EI as [I1 I2]. pose proof (valid_nth _ _ (index_of m cd) Hj) as HV. rewrite sel_length in HV. specialize (HV I1). rewrite sel_nth, I2 in HV by auto. auto.
                - assert (Hin : In m sd). { rewrite <- cd_sd. apply in_compl. split; [lia|]. apply inb_false. auto. }
                  rewrite cd_sd. apply index_of_nth in Hin. destruct Hin as [I1 I2]. rewrite Ecard in Hi. pose proof (valid_nth _ _ (index_of m sd) Hi) as HV. rewrite sel_length in HV. specialize (HV I1). rewrite sel_nth, I2 in HV by auto. auto. }
              pose proof (valid_nth _ _ k HVk ltac:(lia)) as HV. unfold cards in HV. rewrite map_nth_in with (da := b0) in HV by auto. auto.
          + unfold fix_points. rewrite map_length, seq_length. auto.
          + unfold fix_weights. rewrite map_length, seq_length. auto.
          + unfold funs. rewrite map_length, combine_length. fold d. lia.
        - unfold funs. rewrite !map_length, combine_length. lia.
        - assert (HA : forall a (b : list (list (list A))) (c : list (list R)), length b = length a -> length c = length a -> (forall k, (k < length a)%nat -> Forall (fun p : list A => length p = nth k a 0%nat) (nth k b [])) ->
            each3 (fun n g (w : list R) => Forall (fun p : list A => length p = n) g) a b c).
          { clear. induction a as [|n a IH]; intros [|g b] [|w c] H1 H2 H; cbn [length each3] in *; try lia; auto. split; [apply (H 0%nat); lia|]. apply IH; try lia. intros k Hk. apply (H (S k)). lia. }
          apply HA; unfold fix_points, fix_weights; rewrite ?map_length, ?seq_length; auto.
          intros k Hk. rewrite LG, nth_map_seq by auto. rewrite map_nth_in with (da := b0) by auto. destruct (existsb _ _).
          + constructor; [|constructor]. apply (Forall2_nth' _ _ _ b0 [] HP). auto.
          + destruct (each3_nth _ _ b0 [] [] _ _ k HM Hk) as (_ & E2 & _). auto. }
      rewrite EF.
      assert (LP : length P = d) by (symmetry; apply (Forall2_length' _ _ _ HP)).
      rewrite (prod_fun_groups b0).
      2:{ rewrite map_length. auto. }
      2:{ assert (Hs : forall k, In k sd -> (k < length bs)%nat) by (intros; apply sd_lt; auto). clear -HP Hs. clearbody sd. induction sd as [|k l IH]; cbn [map]; constructor.
          - apply (Forall2_nth' _ _ _ b0 [] HP). apply Hs. cbn. auto.
          - apply IH. intros k' Hk'. apply Hs. cbn. auto. }
      rewrite map_length, (lfactors_seq MC) by lia. rewrite LMC.
      rewrite <- (lprod_perm (cd ++ sd) (seq 0 d)).
      2:{ rewrite <- cd_sd. apply app_compl_perm; [apply cd_nd|apply cd_lt]. }
      rewrite lprod_app. f_equal.
      - rewrite (lprod_nth cd). apply lprod_ext. intros m Hm. apply in_seq in Hm. destruct Hm as [_ Hm]. cbn in Hm. unfold F.
        pose proof (nth_In cd 0%nat Hm) as Hin. apply in_compl in Hin. destruct Hin as [H1 H2]. rewrite (proj2 (inb_false _ _) H2).
        unfold MC. rewrite map_nth_in with (da := 0%nat) by auto. f_equal. unfold ks. symmetry. apply asm_nth_in; auto using cd_nd, cd_lt.
      - rewrite (lprod_nth sd). apply lprod_ext. intros m Hm. apply in_seq in Hm. destruct Hm as [_ Hm]. cbn in Hm. unfold F.
        pose proof (nth_In sd 0%nat Hm) as Hin. apply filter_In in Hin. destruct Hin as [H1 H2]. rewrite H2.
        rewrite !map_nth_in with (da := 0%nat) by auto. f_equal. unfold ks. symmetry. rewrite <- cd_sd. apply asm_nth_out. rewrite cd_sd. auto.
    Qed.
  End C.
End P.
