(** Means of functional tensors, evaluation on grids, tensor-product interpolation and projection. *)
From Coq Require Import List Arith Bool ZArith Lia.
From Verif.Base Require Import ListAux CRing Index.
From Verif.Model Require Import Sorting MultiIndices Numpy FullTensor Diagonal Canonical Sparse DimensionTree Functions FunctionalBases.
From Verif.Spec Require Import MultiIndicesSpec TensorSpec FunctionSpec FunctionalSpec.
From Verif.Proofs Require Import NumpyP FullTensorP FullTensorP3 SparseP CanonicalP CanonicalP2 MIMoreP FunctionsP FunctionsP2 FunctionsP3 TensorizerP FunctionalP FunctionalP2 FunctionalP3 FunctionalP4.
Import ListNotations.

Section P.
  Context {R : Type} {CR : CRing R} {A V : Type}.
  Add Ring Rfb5 : rth.
  Local Open Scope cr_scope.
  Notation fb := (fbasis R A V).

  (** linearity of the mean *)
  Lemma tmean_bsum G W ns (c : list nat -> R) (f : list nat -> list A -> R) :
    tmean G W (fun p => bsum ns (fun js => c js * f js p)) = bsum ns (fun js => c js * tmean G W (f js)).
  Proof.
    unfold tmean. transitivity (bsum (map (@length _) G) (fun is => bsum ns (fun js => c js * (lfactors W is * f js (grid_point G is))))).
    - apply bsum_ext. intros is _. rewrite <- bsum_scal_l. apply bsum_ext. intros js _. ring.
    - rewrite bsum_exchange. apply bsum_ext. intros js _. apply bsum_scal_l.
  Qed.
  Lemma vfactors_vec (M : list (list R)) : forall js, length js = length M -> vfactors (map vec_of M) js = lfactors M js.
  Proof. induction M as [|m M IH]; intros [|j js] HL; cbn [length] in *; try lia; auto. cbn [map vfactors]. rewrite lfactors_cons, IH by lia. reflexivity. Qed.
  Lemma means_none (bs : list fb) : fbs_mean bs None MNone = Some (map (fun b => fb_mean b None) bs).
  Proof. unfold fbs_mean, dims_or. rewrite omap_seq_nth. reflexivity. Qed.
  Lemma each3_len {X Y Z} (P : X -> Y -> Z -> Prop) a : forall b c, each3 P a b c -> length b = length a /\ length c = length a.
  Proof. induction a as [|x a IH]; intros [|y b] [|z c] H; cbn [each3] in H; try tauto; auto. destruct H as [_ H]. apply IH in H. cbn. lia. Qed.
  Lemma each3_nth {X Y Z} (P : X -> Y -> Z -> Prop) a dx dy dz : forall b c k, each3 P a b c -> (k < length a)%nat -> P (nth k a dx) (nth k b dy) (nth k c dz).
  Proof. induction a as [|x a IH]; intros [|y b] [|z c] k H Hk; cbn [each3 length] in *; try tauto; try lia. destruct H as [H1 H]. destruct k; cbn [nth]; auto. apply IH; auto; lia. Qed.
  Lemma mean_shapes (bs : list fb) G W k : each3 mean_ok bs G W -> (k < length bs)%nat ->
    shape (nth k (map vec_of (map (fun b => fb_mean b None) bs)) (scalar r0)) = [nth k (cards bs) 0%nat].
  Proof.
    intros H Hk. destruct bs as [|b0 bs0]; [cbn in Hk; lia|]. set (bs := b0 :: bs0) in *. rewrite map_map, map_nth_in with (da := b0) by auto. unfold cards. rewrite map_nth_in with (da := b0) by auto.
    destruct (each3_nth _ _ b0 [] [] _ _ k H Hk) as (_ & _ & E & _). unfold vec_of. cbn [shape]. rewrite E. reflexivity.
  Qed.
  Theorem fun_mean_full_ok (T : nd R) (bs : list fb) G W : shape T = cards bs -> each3 mean_ok bs G W ->
    returns (fun_mean_full T bs MNone) [] (fun _ => tmean G W (expansion bs (get T))).
  Proof.
    intros HT H. unfold fun_mean_full. rewrite means_none. cbn [bind].
    assert (Hnd : ndim T = length bs) by (unfold ndim; rewrite HT; apply map_length).
    assert (HF : Forall (fun k => (k < ndim T)%nat) (seq 0 (length bs))) by (apply Forall_forall; intros k Hk; apply in_seq in Hk; lia).
    destruct (ft_tensor_vector_product_spec T (map vec_of (map (fun b => fb_mean b None) bs)) (seq 0 (length bs)) (seq_NoDup _ _) HF) as (Y & EY & SY & GY).
    { rewrite !map_length, seq_length. auto. }
    { rewrite seq_length. intros k Hk. rewrite seq_nth, HT by auto. cbn [Nat.add]. eapply mean_shapes; eauto. }
    exists Y. split; auto. rewrite Hnd, compl_all in SY. cbn in SY. split; auto. intros is Hi. rewrite GY by (rewrite Hnd, compl_all; auto).
    rewrite HT, <- Hnd. replace (ndim T) with (length (cards bs)) by (unfold cards; rewrite map_length; auto). rewrite sel_seq.
    unfold expansion. rewrite tmean_bsum. apply bsum_ext. intros js Hj. pose proof (valid_length _ _ Hj) as Lj. rewrite asm_all by auto. f_equal.
    rewrite vfactors_vec by (rewrite map_length, Lj; unfold cards; apply map_length). symmetry. apply tmean_prod; auto.
  Qed.
  Theorem fun_mean_cp_ok (x : cp R) (bs : list fb) G W : okx x -> cp_shape x = cards bs -> each3 mean_ok bs G W ->
    exists Y, fun_mean_cp x bs MNone = Some (inl Y) /\ tensor_is Y [] (fun _ => tmean G W (expansion bs (cp_val (cp_core x) (cp_space x)))).
  Proof.
    intros Hok HT H. unfold fun_mean_cp. rewrite means_none. cbn [bind].
    assert (Hnd : cp_order x = length bs) by (unfold cp_order; rewrite <- (map_length (fun M : nd R => nth 0 (shape M) 0%nat)); change (length (cp_shape x) = length bs); rewrite HT; apply map_length).
    rewrite <- Hnd.
    destruct (cp_tvp_all x (map vec_of (map (fun b => fb_mean b None) bs)) Hok) as (Y & EY & SY & GY).
    { rewrite !map_length. auto. }
    { rewrite HT, Hnd. intros k Hk. eapply mean_shapes; eauto. }
    exists Y. split; auto. split; auto. intros is Hi. rewrite GY by auto. rewrite HT.
    unfold expansion. rewrite tmean_bsum. apply bsum_ext. intros js Hj. pose proof (valid_length _ _ Hj) as Lj. f_equal.
    rewrite vfactors_vec by (rewrite map_length, Lj; unfold cards; apply map_length). symmetry. apply tmean_prod; auto.
  Qed.
  (** the mean of a full tensor-product basis: the entry of multi-index is is at the position of is in the order in
      which the last index varies fastest *)
  Theorem tp_mean_ok (bs : list fb) G W : bs <> [] -> each3 mean_ok bs G W ->
    exists v, tp_mean bs MNone = Some v /\ length v = prodn (cards bs) /\
      forall is, valid (cards bs) is -> nth (sub2indC (cards bs) is) v r0 = tmean G W (prod_fun bs is).
  Proof.
    intros Hn H. unfold tp_mean. rewrite means_none. cbn [bind]. set (M := map (fun b : fb => fb_mean b None) bs).
    assert (LM : map (@length R) M = cards bs).
    { unfold M, cards. rewrite map_map. apply nth_ext with (d := 0%nat) (d' := 0%nat); [rewrite !map_length; auto|]. intros k Hk. rewrite map_length in Hk.
      destruct bs as [|b0 bs0]; [congruence|]. set (bs := b0 :: bs0) in *. rewrite !map_nth_in with (da := b0) by auto. destruct (each3_nth _ _ b0 [] [] _ _ k H Hk) as (_ & _ & E & _). auto. }
    destruct (cp_full_spec (CP [r1] (map col_of M))) as [T [E [S1 G1]]].
    { split; [unfold M; destruct bs; simpl; congruence|]. cbn. apply Forall_map. apply Forall_forall. intros w Hw. exists (length w). reflexivity. }
    rewrite E. cbn [option_map]. eexists. split; [reflexivity|].
    assert (S2 : shape T = cards bs). { rewrite S1, <- LM. unfold cp_dims. cbn. rewrite map_map. auto. }
    unfold ravelC, np_size. rewrite map_length, seq_length, S2. split; auto.
    intros is Hi. rewrite nth_map_seq by (apply sub2indC_lt; auto). rewrite ind2subC_sub2indC by auto.
    rewrite G1. 2:{ rewrite <- S1, S2. auto. } unfold cp_val. cbn [cp_core cp_space length rsum nth].
    rewrite (tmean_prod bs is G W Hi H). fold M.
    assert (EL : forall (W : list (list R)) is, lprod (combine (map col_of W) is) (fun p => get (fst p) [snd p; 0%nat]) = lprod (combine W is) (fun p => nth (snd p) (fst p) r0)).
    { clear. induction W as [|w W IH]; intros [|i is]; simpl; auto. rewrite IH. auto. }
    rewrite EL. unfold lfactors. ring.
  Qed.

  (** ** values on grids *)
  Definition gevals (bs : list fb) (G : list (list (list A))) : list (nd R) := map (fun p => fb_eval (fst p) (snd p)) (combine bs G).
  Definition grid_ok (bs : list fb) (G : list (list (list A))) : Prop := Forall2 (fun b g => Forall (fun p => length p = fb_ndim b) g) bs G.
  Lemma grid_len bs G : grid_ok bs G -> length G = length bs.
  Proof. intros H. symmetry. apply (Forall2_length' _ _ _ H). Qed.
  Lemma gevals_factors bs : forall G is js, grid_ok bs G -> valid (g_shape G) is -> length js = length bs ->
    factors (gevals bs G) is js = prod_fun bs js (grid_point G is).
  Proof.
    induction bs as [|b bs IH]; intros G is js HG Hi Hj; inversion HG; subst.
    - destruct js; cbn in *; auto; lia.
    - destruct is as [|i is]; [inversion Hi|]. destruct js as [|j js]; [cbn in Hj; lia|]. inversion Hi; subst. rename y into g. rename l' into G'. unfold gevals. cbn [combine map factors fst snd prod_fun grid_point fb_eval get nth].
      assert (Lp : length (nth i g []) = fb_ndim b) by (rewrite Forall_forall in H1; apply H1, nth_In; auto).
      rewrite firstn_app, Lp, Nat.sub_diag, firstn_all2 by lia. cbn [firstn]. rewrite app_nil_r.
      rewrite skipn_app, Lp, Nat.sub_diag, skipn_all2 by lia. cbn [skipn app]. f_equal. apply IH; auto.
  Qed.
  Lemma gevals_shape bs : forall G k, length G = length bs -> (k < length bs)%nat -> shape (nth k (gevals bs G) (scalar r0)) = [nth k (g_shape G) 0%nat; nth k (cards bs) 0%nat].
  Proof. induction bs as [|b bs IH]; intros [|g G] k HL Hk; cbn [length] in *; try lia. destruct k; [reflexivity|]. cbn [gevals combine map nth g_shape cards]. apply IH; lia. Qed.
  Lemma gevals_length bs G : length G = length bs -> length (gevals bs G) = length bs.
  Proof. intros H. unfold gevals. rewrite map_length, combine_length. lia. Qed.
  Lemma eval_list_all (bs : list fb) G : fbs_eval_list bs None G = Some (gevals bs G).
  Proof. unfold fbs_eval_list, dims_or. rewrite omap_seq_nth. reflexivity. Qed.
  Lemma heads_list (Ms : list (nd R)) ns : length Ms = length ns -> (forall k, (k < length ns)%nat -> nth 0 (shape (nth k Ms (scalar r0))) 0%nat = nth k ns 0%nat) -> map (fun M : nd R => nth 0 (shape M) 0%nat) Ms = ns.
  Proof.
    intros L H. apply nth_ext with (d := 0%nat) (d' := 0%nat); [rewrite map_length; auto|]. intros k Hk. rewrite map_length in Hk.
    rewrite map_nth_in with (da := scalar r0) by auto. apply H. lia.
  Qed.
  Lemma tmp_all (T : nd R) Ms ns : ndim T = length ns -> length Ms = length ns ->
    (forall k, (k < length ns)%nat -> shape (nth k Ms (scalar r0)) = [nth k ns 0%nat; nth k (shape T) 0%nat]) ->
    returns (ft_tensor_matrix_product T Ms (Some (seq 0 (length ns)))) ns (fun is => bsum (shape T) (fun js => get T js * factors Ms is js)).
  Proof.
    intros Hnd HL HM.
    destruct (ft_tensor_matrix_product_spec T Ms (seq 0 (length ns)) (seq_NoDup _ _)) as (Y & EY & SY & GY).
    { apply Forall_forall. intros k Hk. apply in_seq in Hk. lia. }
    { rewrite seq_length. auto. }
    { rewrite seq_length. intros k Hk. rewrite seq_nth by auto. cbn [Nat.add]. eexists. apply HM. auto. }
    assert (EH : map (fun M : nd R => nth 0 (shape M) 0%nat) Ms = ns) by (apply heads_list; auto; intros k Hk; rewrite HM; auto).
    rewrite EH in SY. rewrite put_all in SY by (auto; unfold ndim in Hnd; lia).
    exists Y. split; auto. split; auto. intros is Hi. pose proof (valid_length _ _ Hi) as Li. rewrite GY.
    - assert (ES : sel 0%nat (shape T) (seq 0 (length ns)) = shape T) by (rewrite <- Hnd; apply sel_seq). rewrite ES. apply bsum_ext. intros js Hj. pose proof (valid_length _ _ Hj) as Lj.
      rewrite put_all by (auto; unfold ndim in Hnd; lia). f_equal. f_equal. rewrite <- Li. apply sel_seq.
    - rewrite EH. rewrite put_all by (auto; unfold ndim in Hnd; lia). auto.
  Qed.
  Theorem fun_grid_full_ok (T : nd R) (bs : list fb) G : shape T = cards bs -> grid_ok bs G ->
    returns (fun_grid_full T bs G) (g_shape G) (fun is => expansion bs (get T) (grid_point G is)).
  Proof.
    intros HT HG. pose proof (grid_len _ _ HG) as LG. unfold fun_grid_full. rewrite eval_list_all. cbn [bind].
    assert (Hnd : ndim T = length bs) by (unfold ndim; rewrite HT; apply map_length). rewrite Hnd, Nat.eqb_refl.
    assert (LS : length (g_shape G) = length bs) by (unfold g_shape; rewrite map_length; auto).
    rewrite <- LS. destruct (tmp_all T (gevals bs G) (g_shape G)) as (Y & EY & SY & GY).
    { lia. } { rewrite gevals_length; auto. } { intros k Hk. rewrite gevals_shape, HT by (auto; lia). auto. }
    exists Y. split; auto. split; auto. intros is Hi. rewrite GY by auto. rewrite HT. unfold expansion. apply bsum_ext. intros js Hj. f_equal.
    apply gevals_factors; auto. rewrite (valid_length _ _ Hj). apply map_length.
  Qed.

  (** ** composition of mode products *)
  Lemma factors_compose : forall ns (As Bs Cs : list (nd R)) is js, length As = length ns -> length Bs = length ns -> length Cs = length ns -> length is = length ns -> length js = length ns ->
    (forall k, (k < length ns)%nat -> rsum (nth k ns 0%nat) (fun l => get (nth k As (scalar r0)) [nth k is 0%nat; l] * get (nth k Bs (scalar r0)) [l; nth k js 0%nat]) = get (nth k Cs (scalar r0)) [nth k is 0%nat; nth k js 0%nat]) ->
    bsum ns (fun ks => factors As is ks * factors Bs ks js) = factors Cs is js.
  Proof.
    induction ns as [|n ns IH]; intros [|a As] [|b Bs] [|c Cs] [|i is] [|j js] H1 H2 H3 H4 H5 H; cbn [length] in *; try lia.
    - cbn. ring.
    - cbn [bsum factors]. pose proof (H 0%nat ltac:(lia)) as H0. cbn [nth] in H0. rewrite <- H0.
      rewrite <- (IH As Bs Cs is js) by (try lia; intros k Hk; apply (H (S k)); lia).
      rewrite <- rsum_scal_r. apply rsum_ext. intros l Hl. rewrite <- bsum_scal_l. apply bsum_ext. intros ks Hk. ring.
  Qed.
  Lemma omap_shapes {B C} (f : B -> option C) l l' db dc : omap f l = Some l' -> length l' = length l /\ forall k, (k < length l)%nat -> f (nth k l db) = Some (nth k l' dc).
  Proof.
    intros H. apply omap_Forall2 in H. split; [symmetry; apply (Forall2_length' _ _ _ H)|]. intros k Hk.
    revert k Hk. induction H as [|x y l l' Hx H IH]; intros k Hk; cbn [length] in *; [lia|]. destruct k; cbn [nth]; auto. apply IH. lia.
  Qed.
  Lemma Forall2_nth' {B C} (P : B -> C -> Prop) l l' db dc : Forall2 P l l' -> forall k, (k < length l)%nat -> P (nth k l db) (nth k l' dc).
  Proof. induction 1 as [|x y l l' Hx H IH]; intros k Hk; cbn [length] in *; [lia|]. destruct k; cbn [nth]; auto. apply IH. lia. Qed.

  (** tensor_product_interpolation: the function that is returned has the values of f at the points of the grid *)
  Theorem tp_interpolate_ok inv (bs : list fb) f G T : bs <> [] -> inv_contract inv -> grid_ok bs G -> Forall (fun g => g <> []) G ->
    tp_interpolate inv bs f G = Some T ->
    shape T = cards bs /\ forall is, valid (g_shape G) is -> expansion bs (get T) (grid_point G is) = f (grid_point G is).
  Proof.
    intros Hn Hinv HG HE HT. pose proof (grid_len _ _ HG) as LG. unfold tp_interpolate in HT. rewrite g_array_ok in HT by (auto; destruct bs, G; cbn in LG; congruence). cbn [bind] in HT.
    set (xs := map (grid_point G) (boxF (g_shape G))) in HT.
    assert (HY : exists y, np_reshapeF (ND [length xs] (fun is : list nat => f (nth (nth 0 is 0%nat) xs []))) (g_shape G) = Some y /\ shape y = g_shape G /\ forall is, valid (g_shape G) is -> get y is = f (grid_point G is)).
    { unfold np_reshapeF. assert (Lx : length xs = prodn (g_shape G)) by (unfold xs; rewrite map_length; apply boxF_length).
      cbn [shape prodn]. rewrite Nat.mul_1_r, Lx, Nat.eqb_refl. eexists. split; [reflexivity|]. split; [reflexivity|]. intros is Hi. cbn [get ind2subF nth].
      pose proof (sub2indF_lt _ _ Hi) as Hlt. rewrite Nat.mod_small by lia. f_equal. unfold xs. rewrite map_nth_in with (da := []) by (rewrite boxF_length; auto).
      rewrite nth_boxF by auto. rewrite ind2subF_sub2indF; auto. }
    destruct HY as (y & EY & SY & GY). rewrite EY in HT. cbn [bind] in HT. rewrite eval_list_all in HT. cbn [bind] in HT.
    destruct (omap inv (gevals bs G)) as [Bi|] eqn:EB; [|discriminate]. cbn [bind] in HT.
    destruct (omap_shapes _ _ _ (scalar r0) (scalar r0) EB) as [LB HB]. rewrite gevals_length in LB, HB by auto.
    assert (LS : length (g_shape G) = length bs) by (unfold g_shape; rewrite map_length; auto).
    assert (LC : length (cards bs) = length bs) by apply map_length.
    assert (HK : forall k, (k < length bs)%nat -> nth k (g_shape G) 0%nat = nth k (cards bs) 0%nat /\ shape (nth k Bi (scalar r0)) = [nth k (cards bs) 0%nat; nth k (cards bs) 0%nat] /\
       identity (nth k (cards bs) 0%nat) (fun i j => rsum (nth k (cards bs) 0%nat) (fun l => get (nth k (gevals bs G) (scalar r0)) [i; l] * get (nth k Bi (scalar r0)) [l; j]))).
    { intros k Hk. destruct (Hinv _ _ (HB k Hk)) as (n & S1 & S2 & I1 & I2). rewrite gevals_shape in S1 by auto. injection S1 as E1 E2. rewrite E1, E2. auto. }
    assert (EG : g_shape G = cards bs) by (apply nth_ext with (d := 0%nat) (d' := 0%nat); [lia|]; intros k Hk; apply HK; lia).
    rewrite ft_tensor_matrix_product_default in HT.
    assert (Hnd : ndim y = length (cards bs)) by (unfold ndim; rewrite SY; lia). rewrite Hnd in HT.
    destruct (tmp_all y Bi (cards bs)) as (Z & EZ & SZ & GZ); auto; [lia| |].
    { intros k Hk. rewrite SY. destruct (HK k ltac:(lia)) as (E1 & E2 & _). rewrite E1. auto. }
    rewrite EZ in HT. injection HT as <-. split; auto. intros is Hi. unfold expansion.
    transitivity (bsum (cards bs) (fun js => bsum (cards bs) (fun ks => get y ks * (factors (gevals bs G) is js * factors Bi js ks)))).
    { apply bsum_ext. intros js Hj. rewrite GZ by auto. rewrite SY, EG, <- bsum_scal_r. apply bsum_ext. intros ks Hk. rewrite gevals_factors; auto; [ring|]. rewrite (valid_length _ _ Hj). auto. }
    rewrite bsum_exchange. rewrite EG in *.
    rewrite (bsum_single _ is); auto.
    - rewrite bsum_scal_l. rewrite (factors_compose (cards bs) (gevals bs G) Bi (map np_eye (cards bs)) is is); rewrite ?map_length; auto; try lia; try (rewrite gevals_length; auto; lia).
      + rewrite GY by (auto; congruence). enough (EE : factors (map np_eye (cards bs)) is is = r1) by (rewrite EE; ring).
        clear -Hi. revert Hi. generalize (cards bs) is. induction l as [|n l IH]; intros [|i is0] Hi; inversion Hi; subst; cbn [map factors]; auto. rewrite IH by auto. cbn. rewrite Nat.eqb_refl. ring.
      + apply (valid_length _ _ Hi).
      + apply (valid_length _ _ Hi).
      + intros k Hk. destruct (HK k ltac:(lia)) as (E1 & E2 & E3). pose proof (valid_nth _ _ k Hi Hk) as Hv. rewrite E3 by auto. rewrite map_nth_in with (da := 0%nat) by auto. reflexivity.
    - intros ks Hk Hne. rewrite bsum_scal_l. rewrite (factors_compose (cards bs) (gevals bs G) Bi (map np_eye (cards bs)) is ks); rewrite ?map_length; auto; try lia; try (rewrite gevals_length; auto; lia).
      + enough (EE : factors (map np_eye (cards bs)) is ks = r0) by (rewrite EE; ring).
        clear -Hi Hk Hne. revert Hi Hk Hne. generalize (cards bs) is ks. induction l as [|n l IH]; intros [|i is0] [|k ks0] Hi Hk Hne; inversion Hi; inversion Hk; subst; cbn [map factors]; [congruence|].
        cbn [np_eye get nth]. destruct (i =? k)%nat eqn:E; [|ring]. apply Nat.eqb_eq in E. subst. rewrite IH; auto; [ring|congruence].
      + apply (valid_length _ _ Hi).
      + apply (valid_length _ _ Hk).
      + intros k Hk2. destruct (HK k ltac:(lia)) as (E1 & E2 & E3). pose proof (valid_nth _ _ k Hi Hk2) as Hv. pose proof (valid_nth _ _ k Hk Hk2) as Hv2. rewrite E3 by auto. rewrite map_nth_in with (da := 0%nat) by auto. reflexivity.
  Qed.
End P.
