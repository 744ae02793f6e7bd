(** Means and Gram matrices of tensor-product bases; means and conditional expectations of functional tensors. *)
From Coq Require Import List Arith Bool ZArith Lia.
From Verif.Base Require Import ListAux CRing Index.
From Verif.Model Require Import Sorting MultiIndices Numpy FullTensor Diagonal Canonical Sparse DimensionTree Functions FunctionalBases.
From Verif.Spec Require Import MultiIndicesSpec TensorSpec FunctionSpec FunctionalSpec.
From Verif.Proofs Require Import NumpyP FullTensorP FullTensorP3 SparseP CanonicalP CanonicalP2 MIMoreP FunctionsP FunctionsP2 FunctionsP3 TensorizerP FunctionalP FunctionalP2.
Import ListNotations.

Section P.
  Context {R : Type} {CR : CRing R} {A V : Type}.
  Add Ring Rfb3 : rth.
  Local Open Scope cr_scope.
  Notation fb := (fbasis R A V).

  (** products of functions of separate groups of variables *)
  Fixpoint hprod (ns : list nat) (hs : list (list A -> R)) (p : list A) : R :=
    match ns, hs with n :: ns', h :: hs' => h (firstn n p) * hprod ns' hs' (skipn n p) | _, _ => r1 end.
  Fixpoint meanprod (G : list (list (list A))) (W : list (list R)) (hs : list (list A -> R)) : R :=
    match G, W, hs with g :: G', w :: W', h :: hs' => dmean g w h * meanprod G' W' hs' | _, _, _ => r1 end.
  Lemma lfactors_cons (w : list R) W i is : lfactors (w :: W) (i :: is) = nth i w r0 * lfactors W is.
  Proof. reflexivity. Qed.
  Lemma tmean_hprod ns : forall hs G W, length hs = length ns -> each3 (fun n g (w : list R) => Forall (fun p : list A => length p = n) g) ns G W ->
    tmean G W (hprod ns hs) = meanprod G W hs.
  Proof.
    induction ns as [|n ns IH]; intros [|h hs] [|g G] [|w W] HL H; cbn [each3 length] in *; try tauto; try lia.
    - unfold tmean. cbn [map bsum hprod]. unfold lfactors. cbn. ring.
    - destruct H as [Hg H]. cbn [meanprod]. rewrite <- (IH hs G W) by (auto; lia). unfold tmean. cbn [map bsum]. unfold dmean.
      rewrite <- rsum_scal_r. apply rsum_ext. intros i Hi. rewrite <- bsum_scal_l. apply bsum_ext. intros js Hj.
      rewrite lfactors_cons. cbn [grid_point hprod].
      assert (Lp : length (nth i g []) = n) by (rewrite Forall_forall in Hg; apply Hg, nth_In; auto).
      rewrite firstn_app, Lp, Nat.sub_diag, firstn_all2 by lia. cbn [firstn]. rewrite app_nil_r.
      rewrite skipn_app, Lp, Nat.sub_diag, skipn_all2 by lia. cbn [skipn app]. ring.
  Qed.
  Definition funs (bs : list fb) (is : list nat) : list (list A -> R) := map (fun q p => fb_at (fst q) p (snd q)) (combine bs is).
  Lemma prod_hprod (bs : list fb) : forall is p, length is = length bs -> prod_fun bs is p = hprod (map fb_ndim bs) (funs bs is) p.
  Proof. induction bs as [|b bs IH]; intros [|i is] p HL; cbn [length] in *; try lia; auto. unfold funs. cbn [prod_fun combine map hprod fst snd]. f_equal. apply IH. lia. Qed.
  Definition funs2 (bs : list fb) (is js : list nat) : list (list A -> R) := map (fun q p => fb_at (fst q) p (fst (snd q)) * fb_at (fst q) p (snd (snd q))) (combine bs (combine is js)).
  Lemma prod2_hprod (bs : list fb) : forall is js p, length is = length bs -> length js = length bs ->
    prod_fun bs is p * prod_fun bs js p = hprod (map fb_ndim bs) (funs2 bs is js) p.
  Proof.
    induction bs as [|b bs IH]; intros [|i is] [|j js] p H1 H2; cbn [length] in *; try lia.
    - unfold funs2. cbn [combine map hprod prod_fun]. ring.
    - unfold funs2. cbn [prod_fun combine map hprod fst snd]. fold (funs2 bs is js). rewrite <- IH by lia. ring.
  Qed.
  Lemma each3_impl {X Y Z X'} (P : X -> Y -> Z -> Prop) (Q : X' -> Y -> Z -> Prop) (f : X -> X') a : (forall x y z, P x y z -> Q (f x) y z) ->
    forall b c, each3 P a b c -> each3 Q (map f a) b c.
  Proof. intros HI. induction a as [|x a IH]; intros [|y b] [|z c] H; cbn [each3 map] in *; try tauto. destruct H. auto. Qed.
  Lemma tmean_ext G W f g : (forall is, valid (map (@length (list A)) G) is -> f (grid_point G is) = g (grid_point G is)) -> tmean (R := R) G W f = tmean G W g.
  Proof. intros H. unfold tmean. apply bsum_ext. intros is His. rewrite H; auto. Qed.

  Theorem tmean_prod (bs : list fb) : forall is G W, valid (cards bs) is -> each3 mean_ok bs G W ->
    tmean G W (prod_fun bs is) = lfactors (map (fun b => fb_mean b None) bs) is.
  Proof.
    intros is G W Hi H. assert (Li : length is = length bs) by (rewrite (valid_length _ _ Hi); apply map_length).
    rewrite (tmean_ext _ _ _ (hprod (map fb_ndim bs) (funs bs is))) by (intros; apply prod_hprod; auto).
    rewrite tmean_hprod.
    - revert is G W Hi H Li. induction bs as [|b bs IH]; intros [|i is] [|g G] [|w W] Hi H Li; cbn [length each3] in *; try lia; try tauto; try reflexivity.
      destruct H as [(H1 & H2 & H3 & H4) H]. inversion Hi; subst. unfold funs. cbn [combine map meanprod fst snd]. rewrite lfactors_cons. fold (funs bs is). rewrite IH by (auto; lia).
      rewrite H4 by auto. reflexivity.
    - unfold funs. rewrite !map_length, combine_length. lia.
    - apply (each3_impl mean_ok _ fb_ndim); auto. intros b g w (_ & Hm & _). auto.
  Qed.
  Theorem tmean_prod2 (bs : list fb) : forall is js G W, valid (cards bs) is -> valid (cards bs) js -> each3 gram_ok bs G W ->
    tmean G W (fun p => prod_fun bs is p * prod_fun bs js p) = factors (map fb_gram bs) is js.
  Proof.
    intros is js G W Hi Hj H. assert (Li : length is = length bs) by (rewrite (valid_length _ _ Hi); apply map_length).
    assert (Lj : length js = length bs) by (rewrite (valid_length _ _ Hj); apply map_length).
    rewrite (tmean_ext _ _ _ (hprod (map fb_ndim bs) (funs2 bs is js))) by (intros; apply prod2_hprod; auto).
    rewrite tmean_hprod.
    - revert is js G W Hi Hj H Li Lj. induction bs as [|b bs IH]; intros [|i is] [|j js] [|g G] [|w W] Hi Hj H Li Lj; cbn [length each3] in *; try lia; try tauto; try reflexivity.
      destruct H as [(H1 & H2 & H3 & H4 & H5) H]. inversion Hi; inversion Hj; subst. unfold funs2. cbn [combine map meanprod fst snd factors]. fold (funs2 bs is js). rewrite IH by (auto; lia).
      rewrite H4 by auto. reflexivity.
    - unfold funs2. rewrite !map_length, !combine_length. lia.
    - apply (each3_impl gram_ok _ fb_ndim); auto. intros b g w (_ & Hm & _). auto.
  Qed.

  (** ** means *)
  Lemma take_vec_nat (v : list R) ks : Forall (fun k => (k < length v)%nat) ks -> take_vec v (map Z.of_nat ks) = Some (map (fun k => nth k v r0) ks).
  Proof.
    intros HF. unfold take_vec. rewrite omap_map. apply omap_some. intros k Hk. rewrite Forall_forall in HF. rewrite py_index_nat by auto. cbn [bind]. apply nth_error_nth'. auto.
  Qed.
  Lemma sb_mean_with_ok (I : mi) l (dims : list nat) (M : list (list R)) : M <> [] -> length dims = length M -> mi_rows I = map (map Z.of_nat) l ->
    Forall (fun d => (d < mi_dim I)%nat) dims -> (forall r, In r l -> length r = mi_dim I) ->
    (forall j r, (j < length M)%nat -> In r l -> (nth (nth j dims 0%nat) r 0 < length (nth j M []))%nat) ->
    sb_mean_with I dims M = Some (map (fun r => lfactors M (sel 0%nat r dims)) l).
  Proof.
    intros Hn LD Hr HD HL HB.
    assert (HT : forall j, (j < length M)%nat -> exists ks, mi_col I (nth j dims 0%nat) = Some ks /\
       take_vec (nth j M []) ks = Some (map (fun r => nth (nth (nth j dims 0%nat) r 0%nat) (nth j M []) r0) l)).
    { intros j Hj. assert (Hd : (nth j dims 0 < mi_dim I)%nat) by (rewrite Forall_forall in HD; apply HD, nth_In; lia).
      rewrite (mi_col_nat I l); auto.
      - eexists. split; [reflexivity|]. rewrite <- (map_map (fun r => nth (nth j dims 0%nat) r 0%nat) Z.of_nat). rewrite take_vec_nat; [rewrite map_map; auto|].
        apply Forall_forall. intros k Hk. apply in_map_iff in Hk. destruct Hk as (r & <- & Hr2). auto.
      - apply Forall_forall. intros r Hr2. rewrite HL by auto. auto. }
    unfold sb_mean_with. destruct M as [|M0 M']; [congruence|]. set (M := M0 :: M') in *.
    destruct (HT 0%nat) as (k0 & E1 & E2); [cbn; lia|]. rewrite E1. cbn [bind]. change (nth 0 M []) with M0 in E2. rewrite E2. cbn [bind].
    assert (IND : forall m, (m <= length M - 1)%nat -> ofold (fun y i => let* k := mi_col I (nth i dims 0%nat) in let* t := take_vec (nth i M []) k in vec_imul y t) (seq 1 m)
         (map (fun r => nth (nth (nth 0 dims 0%nat) r 0%nat) M0 r0) l) = Some (map (fun r => lprod (seq 0 (S m)) (fun j => nth (nth (nth j dims 0%nat) r 0%nat) (nth j M []) r0)) l)).
    { induction m as [|m IHm]; intros Hm.
      - cbn [seq ofold]. f_equal. apply map_ext. intros r. cbn [lprod]. change (nth 0 M []) with M0. ring.
      - rewrite seq_S, ofold_app', IHm by lia. cbn [ofold Nat.add]. destruct (HT (S m)) as (ks & E3 & E4); [lia|]. rewrite E3. cbn [bind]. rewrite E4. cbn [bind].
        unfold vec_imul. rewrite !map_length, Nat.eqb_refl. f_equal. clear. induction l as [|r l IH]; [reflexivity|]. cbn [map combine fst snd]. f_equal; [|exact IH].
        rewrite (seq_S (S m)). rewrite lprod_snoc. reflexivity. }
    rewrite IND by lia. f_equal. apply map_ext_in. intros r Hr2. replace (S (length M - 1)) with (length M) by (cbn; lia).
    unfold lfactors. clear - LD. clearbody M. clear M0 M'. revert dims LD. induction M as [|m M IH]; intros [|d dims] LD; cbn [length] in LD; try lia; [reflexivity|].
    cbn [length seq lprod sel map combine fst snd nth]. f_equal. rewrite <- seq_shift, lprod_map. apply (IH dims). lia.
  Qed.
  Definition measure_args (m : mmeasure V) (d : nat) : list (option V) :=
    match m with MNone => repeat None d | MVar v => repeat (Some v) d | MVec vs => map Some vs end.
  Lemma means_all (bs : list fb) m : (match m with MVec vs => length vs = length bs | _ => True end) ->
    fbs_mean bs None m = Some (map (fun q => fb_mean (fst q) (snd q)) (combine bs (measure_args m (length bs)))).
  Proof.
    intros H. unfold fbs_mean. cbn [dims_or]. rewrite omap_seq_nth. cbn [bind]. f_equal. destruct m; cbn [measure_args].
    - clear. induction bs as [|b bs IH]; [reflexivity|]. cbn. f_equal. auto.
    - clear. induction bs as [|b bs IH]; [reflexivity|]. cbn. f_equal. auto.
    - clear. revert vs. induction bs as [|b bs IH]; intros [|v vs]; try reflexivity. cbn. f_equal. auto.
  Qed.
  Theorem sb_mean_ok (bs : list fb) (I : mi) l m : bs <> [] -> mi_dim I = length bs -> mi_rows I = map (map Z.of_nat) l -> Forall (valid (cards bs)) l ->
    (match m with MVec vs => length vs = length bs | _ => True end) -> (forall b v, In b bs -> length (fb_mean b v) = fb_card b) ->
    sb_mean bs I m = Some (map (lfactors (map (fun q => fb_mean (fst q) (snd q)) (combine bs (measure_args m (length bs))))) l).
  Proof.
    intros Hn Hd Hr HF Hm HL. unfold sb_mean. rewrite means_all by auto. cbn [bind]. set (MM := map _ (combine bs _)).
    assert (LA : length (measure_args m (length bs)) = length bs) by (destruct m; cbn [measure_args]; rewrite ?repeat_length, ?map_length; auto).
    assert (LM : length MM = length bs) by (unfold MM; rewrite map_length, combine_length; lia).
    rewrite Forall_forall in HF. rewrite (sb_mean_with_ok I l (seq 0 (length MM)) MM).
    - f_equal. apply map_ext_in. intros r Hr2. f_equal. assert (Lr : length r = length MM) by (rewrite (valid_length _ _ (HF r Hr2)); unfold cards; rewrite map_length; auto).
      rewrite <- Lr. apply sel_seq.
    - intros E. rewrite E in LM. destruct bs; [congruence|cbn in LM; lia].
    - apply seq_length.
    - auto.
    - apply Forall_forall. intros k Hk. apply in_seq in Hk. lia.
    - intros r Hr2. rewrite (valid_length _ _ (HF r Hr2)). unfold cards. rewrite map_length. auto.
    - intros j r Hj Hr2. rewrite seq_nth by auto. cbn [Nat.add]. pose proof (valid_nth _ _ j (HF r Hr2)) as Hv. unfold cards in Hv. rewrite map_length in Hv.
      specialize (Hv ltac:(lia)). destruct bs as [|b0 bs0]; [congruence|]. set (bs := b0 :: bs0) in *.
      unfold MM. rewrite map_nth_in with (da := (b0, None)) by (rewrite combine_length; lia). rewrite combine_nth by auto. cbn [fst].
      rewrite map_nth_in with (da := b0) in Hv by lia. rewrite HL; auto. apply nth_In. lia.
  Qed.

  (** ** Gram matrices *)
  Lemma take_ix_nat (M : nd R) m ks : shape M = [m; m] -> Forall (fun k => (k < m)%nat) ks ->
    exists Y, take_ix M (map Z.of_nat ks) = Some Y /\ shape Y = [length ks; length ks] /\
      forall p k, (p < length ks)%nat -> (k < length ks)%nat -> get Y [p; k] = get M [nth p ks 0%nat; nth k ks 0%nat].
  Proof.
    intros HS HF. unfold take_ix. rewrite HS. cbn [nth]. rewrite omap_map. rewrite (omap_some _ (fun k => k)).
    - cbn [bind]. eexists. split; [reflexivity|]. cbn [shape get nth]. rewrite map_length. split; auto. intros p k Hp Hk. rewrite map_id. auto.
    - intros k Hk. rewrite Forall_forall in HF. apply py_index_nat. auto.
  Qed.
  Lemma factors_seq2 (Ms : list (nd R)) : forall is js, length is = length Ms -> length js = length Ms ->
    factors Ms is js = lprod (seq 0 (length Ms)) (fun k => get (nth k Ms (scalar r0)) [nth k is 0%nat; nth k js 0%nat]).
  Proof.
    induction Ms as [|M Ms IH]; intros [|i is] [|j js] L1 L2; cbn [length] in *; try lia; [reflexivity|].
    cbn [factors seq lprod nth]. f_equal. rewrite IH by lia. rewrite <- seq_shift, lprod_map. reflexivity.
  Qed.
  Theorem sb_gram_factors (bs : list fb) (I : mi) l : bs <> [] -> mi_dim I = length bs -> mi_rows I = map (map Z.of_nat) l -> Forall (valid (cards bs)) l ->
    forallb fb_orth bs = false -> (forall b, In b bs -> shape (fb_gram b) = [fb_card b; fb_card b]) ->
    returns (sb_gram bs I) [length l; length l] (fun ix => factors (map fb_gram bs) (nth (nth 0 ix 0%nat) l []) (nth (nth 1 ix 0%nat) l [])).
  Proof.
    intros Hn Hd Hr HF Ho HS. unfold sb_gram. rewrite Ho. destruct bs as [|b0 bs0]; [congruence|]. set (bs := b0 :: bs0) in *.
    rewrite Forall_forall in HF. assert (Lc : length (cards bs) = length bs) by apply map_length.
    assert (HT : forall j, (j < length bs)%nat -> exists ks b Y, mi_col I j = Some ks /\ nth_error bs j = Some b /\ take_ix (fb_gram b) ks = Some Y /\ shape Y = [length l; length l] /\
       forall p k, (p < length l)%nat -> (k < length l)%nat -> get Y [p; k] = get (nth j (map fb_gram bs) (scalar r0)) [nth j (nth p l []) 0%nat; nth j (nth k l []) 0%nat]).
    { intros j Hj. rewrite (mi_col_nat I l j); auto; [| lia |].
      - pose proof (nth_error_nth' bs b0 Hj) as En. set (b := nth j bs b0) in *. assert (Hb : In b bs) by (apply nth_In; auto).
        destruct (take_ix_nat (fb_gram b) (fb_card b) (map (fun r => nth j r 0%nat) l)) as (Y & E & SY & GY); auto.
        + apply Forall_forall. intros k Hk. apply in_map_iff in Hk. destruct Hk as (r & <- & Hr2). pose proof (valid_nth _ _ j (HF r Hr2) ltac:(lia)) as Hv.
          unfold cards in Hv. rewrite map_nth_in with (da := b0) in Hv by auto. exact Hv.
        + rewrite map_map in E. eexists. exists b, Y. split; [reflexivity|]. split; auto. split; [exact E|]. rewrite map_length in SY, GY. split; auto.
          intros p k Hp Hk. rewrite GY by auto. rewrite !map_nth_in with (da := []) by auto. rewrite map_nth_in with (da := b0) by auto. auto.
      - apply Forall_forall. intros r Hr2. rewrite (valid_length _ _ (HF r Hr2)). lia. }
    destruct (HT 0%nat) as (k0 & b & Y0 & E1 & Eb & E2 & S0 & G0); [cbn; lia|]. injection Eb as <-. rewrite E1. cbn [bind]. rewrite E2. cbn [bind].
    assert (IND : forall m, (m <= length bs - 1)%nat -> exists Y, ofold (fun M i => let* k := mi_col I i in let* b := nth_error bs i in let* t := take_ix (fb_gram b) k in np_imul M t) (seq 1 m) Y0 = Some Y /\
       shape Y = [length l; length l] /\ forall p k, (p < length l)%nat -> (k < length l)%nat -> get Y [p; k] = lprod (seq 0 (S m)) (fun j => get (nth j (map fb_gram bs) (scalar r0)) [nth j (nth p l []) 0%nat; nth j (nth k l []) 0%nat])).
    { induction m as [|m IHm]; intros Hm.
      - exists Y0. split; [reflexivity|]. split; auto. intros p k Hp Hk. rewrite G0 by auto. cbn [seq lprod]. ring.
      - destruct IHm as (Y & EY & SY & GY); [lia|]. rewrite seq_S. destruct (HT (S m)) as (ks & b & T & E3 & E5 & E4 & ST & GT); [lia|].
        destruct (np_imul_ok Y T) as (Z & EZ & SZ & GZ); [congruence|]. exists Z. split.
        + rewrite ofold_app'. rewrite EY. cbn [ofold Nat.add]. rewrite E3. cbn [bind]. rewrite E5. cbn [bind]. rewrite E4. cbn [bind]. rewrite EZ. auto.
        + split; [congruence|]. intros p k Hp Hk. rewrite GZ by (rewrite SY; constructor; [auto|constructor; [auto|constructor]]). rewrite GY, GT by auto.
          rewrite (seq_S (S m)). rewrite lprod_snoc. reflexivity. }
    destruct (IND (length bs - 1)%nat) as (Y & EY & SY & GY); [lia|]. exists Y. rewrite Hd. split; [exact EY|]. split; auto.
    intros ix Hix. inversion Hix as [|p ? ix' ? Hp Hix2]; subst. inversion Hix2 as [|k ? ix'' ? Hk Hix3]; subst. inversion Hix3; subst.
    rewrite GY by auto. cbn [nth]. rewrite factors_seq2.
    - replace (S (length bs - 1)) with (length (map fb_gram bs)) by (rewrite map_length; cbn; lia). reflexivity.
    - rewrite map_length, (valid_length _ _ (HF (nth p l []) (nth_In _ _ Hp))). auto.
    - rewrite map_length, (valid_length _ _ (HF (nth k l []) (nth_In _ _ Hk))). auto.
  Qed.
  Lemma gram_orth (bs : list fb) : forall G W is js, each3 gram_ok bs G W -> forallb fb_orth bs = true -> valid (cards bs) is -> valid (cards bs) js ->
    factors (map fb_gram bs) is js = if list_eqb is js then r1 else r0.
  Proof.
    induction bs as [|b bs IH]; intros [|g G] [|w W] is js H Ho Hi Hj; cbn [each3] in H; try tauto; inversion Hi; inversion Hj; subst; [reflexivity|].
    destruct H as [(Q1 & Q2 & Q3 & Q4 & Q5) H]. cbn [forallb] in Ho. apply andb_true_iff in Ho. destruct Ho as [Ho1 Ho2].
    cbn [map factors list_eqb]. rewrite Q4 by auto. rewrite Q5 by auto. rewrite (IH G W) by auto.
    match goal with |- context [Nat.eqb ?a ?b] => destruct (Nat.eqb a b) end; cbn [andb]; [|ring]. destruct (list_eqb _ _); ring.
  Qed.
  Theorem sb_gram_ok (bs : list fb) (I : mi) l G W : bs <> [] -> mi_dim I = length bs -> mi_rows I = map (map Z.of_nat) l -> Forall (valid (cards bs)) l -> NoDup l ->
    each3 gram_ok bs G W ->
    returns (sb_gram bs I) [length l; length l] (fun ix => tmean G W (fun p => prod_fun bs (nth (nth 0 ix 0%nat) l []) p * prod_fun bs (nth (nth 1 ix 0%nat) l []) p)).
  Proof.
    intros Hn Hd Hr HF ND H. destruct (forallb fb_orth bs) eqn:Ho.
    - unfold sb_gram. rewrite Ho. assert (El : length (mi_rows I) = length l) by (rewrite Hr; apply map_length). rewrite El. exists (np_eye (length l)). split; auto. split; auto.
      intros ix Hix. inversion Hix as [|p ? ix' ? Hp Hix2]; subst. inversion Hix2 as [|k ? ix'' ? Hk Hix3]; subst. inversion Hix3; subst. cbn [nth np_eye get].
      rewrite Forall_forall in HF. rewrite tmean_prod2 by (auto; apply HF, nth_In; auto). rewrite (gram_orth bs G W) by (auto; apply HF, nth_In; auto).
      destruct (Nat.eqb_spec p k) as [->|E]; [rewrite list_eqb_refl; auto|]. destruct (list_eqb _ _) eqn:Q; auto. apply list_eqb_spec in Q. exfalso. apply E.
      apply (NoDup_nth l []); auto.
    - destruct (sb_gram_factors bs I l) as (Y & E & SY & GY); auto.
      + intros b Hb. clear - H Hb. revert G W H. induction bs as [|b0 bs IH]; intros [|g G] [|w W] H; cbn [each3] in H; try tauto; try (destruct Hb; fail).
        destruct H as [(H1 & H2 & H3 & H4) H]. destruct Hb as [->|Hb]; auto. apply (IH Hb G W). auto.
      + exists Y. split; auto. split; auto. intros ix Hix. rewrite GY by auto. inversion Hix as [|p ? ix' ? Hp Hix2]; subst. inversion Hix2 as [|k ? ix'' ? Hk Hix3]; subst.
        cbn [nth]. rewrite Forall_forall in HF. rewrite (tmean_prod2 bs); auto; apply HF, nth_In; auto.
  Qed.
End P.
