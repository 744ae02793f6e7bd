(** Tree-based tensors: inner products and norms, in terms of the full tensors. *)
From Coq Require Import List Arith Lia Bool ZArith Ring Permutation.
From Verif.Base Require Import ListAux CRing Index.
From Verif.Model Require Import Sorting Numpy FullTensor DimensionTree TreeBased.
From Verif.Spec Require Import TensorSpec TreeSpec TreeTensorSpec.
From Verif.Proofs Require Import NumpyP FullTensorP FullTensorP2 FullTensorP3 FullTensorP4 DimTreeP DimTreeP2 DimTreeP3 TreeTensorP TreeTensorP2 TreeTensorP3 TreeTensorP4 TreeTensorP5 TreeTensorP6 TreeTensorP7 TreeTensorP8 TreeTensorP9 TreeTensorP10 TreeTensorP11 TreeTensorP12 TreeTensorP13.
Import ListNotations.

Lemma nth_firstn_lt {A} (d : A) n k l : (k < n)%nat -> nth k (firstn n l) d = nth k l d.
Proof. revert n l. induction k as [|k IH]; intros [|n] [|x l] H; simpl; auto; try lia. apply IH. lia. Qed.
Section DotFull.
  Context {R : Type} {CR : CRing R}.
  Add Ring Rrdf : rth.
  Local Open Scope cr_scope.

  Lemma factors_eye s : forall is js, valid s is -> valid s js -> factors (map (fun n => np_eye n) s) is js = if list_eqb is js then r1 else r0.
  Proof.
    induction s as [|n s IH]; intros is js H1 H3; inversion H1; subst; inversion H3; subst; auto.
    cbn [map factors list_eqb]. rewrite IH by auto. cbn [np_eye get nth]. destruct (_ =? _); cbn [andb]; destruct (list_eqb _ _); ring.
  Qed.
  Lemma bsum_eye s (F : list nat -> list nat -> R) :
    bsum s (fun is => bsum s (fun js => F is js * factors (map (fun n => np_eye n) s) is js)) = bsum s (fun is => F is is).
  Proof.
    apply bsum_ext. intros is Hi. rewrite (bsum_single s is); auto.
    - rewrite factors_eye by auto. replace (list_eqb is is) with true by (symmetry; apply list_eqb_spec; auto). ring.
    - intros js Hj Hne. rewrite factors_eye by auto. destruct (list_eqb is js) eqn:E; [apply list_eqb_spec in E; congruence|ring].
  Qed.

  (** general form: any metrics, root with or without rank axis *)
  Theorem tb_dot_metric_full X Y r Ms A B : tb_ok X r -> tb_ok Y r -> ttree Y = ttree X -> (forall n, node (ttree X) n -> active Y n = active X n) ->
    (2 <= tb_order X)%nat -> tb_full X = Some A -> tb_full Y = Some B -> ndim A = ndim B ->
    length Ms = tb_order X -> (forall k, (k < tb_order X)%nat -> shape (nth k Ms (scalar r0)) = [nth k (shape A) 0%nat; nth k (shape B) 0%nat]) ->
    (ndim A = tb_order X \/ 1 < nth (tb_order X) (shape A) 0)%nat ->
    returns (tb_dot_metric X Y Ms) (skipn (tb_order X) (shape A) ++ skipn (tb_order X) (shape B))
      (fun es => let e := firstn (ndim A - tb_order X) es in let e' := skipn (ndim A - tb_order X) es in
        bsum (firstn (tb_order X) (shape A)) (fun is => bsum (firstn (tb_order X) (shape B)) (fun js =>
          get A (is ++ e) * factors Ms is js * get B (js ++ e')))).
  Proof.
    intros OX OY HT HA H2 HX HY Hnd HL HM HR. assert (HL2 : (2 <= tb_order Y)%nat) by (unfold tb_order in *; rewrite HT; auto).
    destruct (full_inv X r A OX H2 HX) as [HsA HgA]. destruct (full_inv Y r B OY HL2 HY) as [HsB HgB].
    assert (LX : length (tb_shape X) = tb_order X) by apply tb_shape_length.
    assert (LY : length (tb_shape Y) = tb_order X) by (rewrite tb_shape_length; unfold tb_order; rewrite HT; auto).
    assert (HE : length (exts Y r) = length (exts X r)) by (unfold ndim in Hnd; rewrite HsA, HsB, !app_length in Hnd; lia).
    assert (EA : skipn (tb_order X) (shape A) = exts X r) by (rewrite HsA, <- LX, skipn_app, skipn_all, Nat.sub_diag; auto).
    assert (EB : skipn (tb_order X) (shape B) = exts Y r) by (rewrite HsB, <- LY, skipn_app, skipn_all, Nat.sub_diag; auto).
    assert (FA : firstn (tb_order X) (shape A) = tb_shape X) by (rewrite HsA, <- LX, firstn_app, firstn_all, Nat.sub_diag; cbn [firstn]; apply app_nil_r).
    assert (FB : firstn (tb_order X) (shape B) = tb_shape Y) by (rewrite HsB, <- LY, firstn_app, firstn_all, Nat.sub_diag; cbn [firstn]; apply app_nil_r).
    assert (NA : (ndim A - tb_order X)%nat = length (exts X r)) by (unfold ndim; rewrite HsA, app_length; lia).
    destruct (tb_dot_metric_val X Y r Ms OX OY HT HE HA H2 HL) as (D & HD & HsD & HgD).
    - intros k Hk. rewrite HM by auto. rewrite HsA, HsB, !app_nth1 by lia. auto.
    - destruct HR as [HR|HR].
      + left. unfold ndim in HR. rewrite HsA, app_length, LX in HR. destruct (exts X r); auto. simpl in HR. lia.
      + right. rewrite HsA, app_nth2, LX, Nat.sub_diag in HR by lia. auto.
    - exists D. split; auto. rewrite EA, EB. split; auto. intros es Hv. cbv zeta. apply valid_app_inv in Hv. destruct Hv as (e & e' & -> & He & He').
      assert (Le : length e = length (exts X r)) by (apply valid_length; auto).
      rewrite NA, <- Le, firstn_app, firstn_all, skipn_app, skipn_all, Nat.sub_diag. cbn [firstn skipn app]. rewrite app_nil_r.
      rewrite HgD by auto. rewrite FA, FB. apply bsum_ext. intros is Hi. apply bsum_ext. intros js Hj. rewrite HgA, HgB by auto. auto.
  Qed.
  Theorem tb_dot_full X Y r A B : tb_ok X r -> tb_ok Y r -> ttree Y = ttree X -> (forall n, node (ttree X) n -> active Y n = active X n) ->
    (2 <= tb_order X)%nat -> tb_full X = Some A -> tb_full Y = Some B -> firstn (tb_order X) (shape B) = firstn (tb_order X) (shape A) -> ndim B = ndim A ->
    (ndim A = tb_order X \/ 1 < nth (tb_order X) (shape A) 0)%nat ->
    returns (tb_dot X Y) (skipn (tb_order X) (shape A) ++ skipn (tb_order X) (shape B))
      (fun es => let e := firstn (ndim A - tb_order X) es in let e' := skipn (ndim A - tb_order X) es in
        bsum (firstn (tb_order X) (shape A)) (fun is => get A (is ++ e) * get B (is ++ e'))).
  Proof.
    intros OX OY HT HA H2 HX HY HS Hnd HR. destruct (full_inv X r A OX H2 HX) as [HsA HgA].
    assert (LX : length (tb_shape X) = tb_order X) by apply tb_shape_length.
    assert (FA : firstn (tb_order X) (shape A) = tb_shape X) by (rewrite HsA, <- LX, firstn_app, firstn_all, Nat.sub_diag; cbn [firstn]; apply app_nil_r).
    destruct (tb_dot_metric_full X Y r (map (fun n => np_eye n) (tb_shape X)) A B) as (D & HD & HsD & HgD); auto.
    - rewrite map_length. auto.
    - intros k Hk. rewrite map_nth_in with (da := 0%nat) by lia. cbn [np_eye shape]. rewrite <- FA.
      rewrite nth_firstn_lt by auto. f_equal. f_equal. rewrite <- (nth_firstn_lt _ (tb_order X) k (shape A)) by auto. rewrite <- HS. apply nth_firstn_lt. auto.
    - exists D. split; auto. split; auto. intros es Hv. rewrite HgD by auto. cbv zeta. rewrite HS, FA.
      rewrite <- bsum_eye with (F := fun is js => get A (is ++ _) * get B (js ++ _)). apply bsum_ext. intros is Hi. apply bsum_ext. intros js Hj. ring.
  Qed.
  (** scalar case: no rank axis at the root *)
  Corollary tb_dot_scalar X Y r A B : tb_ok X r -> tb_ok Y r -> ttree Y = ttree X -> (forall n, node (ttree X) n -> active Y n = active X n) ->
    (2 <= tb_order X)%nat -> tb_full X = Some A -> tb_full Y = Some B -> shape B = shape A -> ndim A = tb_order X ->
    returns (tb_dot X Y) [] (fun _ => bsum (shape A) (fun is => get A is * get B is)).
  Proof.
    intros OX OY HT HA H2 HX HY HS Hnd.
    destruct (tb_dot_full X Y r A B) as (D & HD & HsD & HgD); auto; [congruence|unfold ndim; congruence|].
    exists D. rewrite HS in HsD. unfold ndim in *. rewrite <- Hnd, firstn_all, Nat.sub_diag in *. rewrite HS in HgD. rewrite skipn_all in *. cbn [app] in *.
    split; auto. split; auto. intros es He. rewrite HgD by auto. cbn [firstn skipn]. inversion He; subst. apply bsum_ext. intros is Hi. rewrite !app_nil_r. auto.
  Qed.

  (** * norm *)
  Section Norm.
    Variables (X : tbt R) (r : nat).
    Hypothesis O : tb_ok X r.
    Hypothesis H2 : (2 <= tb_order X)%nat.
    Hypothesis HO : forall n, node (ttree X) n -> active X n = true -> n <> r -> orth_cols (core X n).
    Let t := ttree X.
    Let V : dim_tree t r := proj1 O.
    Let T : rooted_tree t r := proj1 V.
    Let Ms := map (fun n => np_eye (R := R) n) (tb_shape X).
    Let LMs : length Ms = tb_order X.
    Proof. unfold Ms. rewrite map_length. apply tb_shape_length. Qed.
    Lemma eye_nth k : (k < tb_order X)%nat -> nth k Ms (scalar r0) = np_eye (nth k (tb_shape X) 0%nat).
    Proof. intros Hk. unfold Ms. apply map_nth_in with (da := 0%nat). rewrite tb_shape_length. auto. Qed.
    Lemma lprod_eye cs : forall ks ls, valid (map (csize X) cs) ks -> valid (map (csize X) cs) ls ->
      (forall c k l, In c cs -> (k < csize X c)%nat -> (l < csize X c)%nat -> gram X X Ms c [k] [l] = if k =? l then r1 else r0) ->
      lprod (combine cs (combine ks ls)) (fun p => gram X X Ms (fst p) [fst (snd p)] [snd (snd p)]) = if list_eqb ks ls then r1 else r0.
    Proof.
      induction cs as [|c cs IH]; intros ks ls Hk Hl HG; inversion Hk; subst; inversion Hl; subst; auto.
      cbn [combine lprod fst snd list_eqb]. rewrite IH; auto; [|intros; apply HG; simpl; auto]. rewrite HG by (simpl; auto).
      destruct (_ =? _); cbn [andb]; destruct (list_eqb _ _); ring.
    Qed.
    Lemma gram_node n e e' : node t n -> is_leaf t n = false ->
      (forall c k l, In c (children t n) -> (k < csize X c)%nat -> (l < csize X c)%nat -> gram X X Ms c [k] [l] = if k =? l then r1 else r0) ->
      gram X X Ms n e e' = bsum (heads X n) (fun ks => get (core X n) (ks ++ e) * get (core X n) (ks ++ e')).
    Proof.
      intros Hn Hl HG. rewrite (gram_internal X X r Ms O O eq_refl eq_refl H2 LMs n e e' Hn Hl).
      apply bsum_ext. intros ks Hk. rewrite (bsum_single (heads X n) ks); auto.
      - rewrite (heads_internal X r O n Hn Hl) in Hk. fold t. rewrite lprod_eye by auto. replace (list_eqb ks ks) with true by (symmetry; apply list_eqb_spec; auto). ring.
      - intros ls Hls Hne. rewrite (heads_internal X r O n Hn Hl) in Hk, Hls. fold t. rewrite lprod_eye by auto.
        destruct (list_eqb ks ls) eqn:E; [apply list_eqb_spec in E; congruence|ring].
    Qed.
    Lemma gram_delta n : node t n -> n <> r -> forall k l, (k < csize X n)%nat -> (l < csize X n)%nat -> gram X X Ms n [k] [l] = if k =? l then r1 else r0.
    Proof.
      intros Hn. revert n Hn. apply (tree_up_ind t r T (fun n => n <> r -> forall k l, (k < csize X n)%nat -> (l < csize X n)%nat -> gram X X Ms n [k] [l] = if k =? l then r1 else r0)).
      intros n Hn IH Hne k l Hk Hl. destruct (is_leaf t n) eqn:El.
      - rewrite (gram_leaf X X r Ms O n [k] [l] El). fold t. cbv zeta. destruct (leaf_index t n El) as [Hi _]. set (d := index_of n (d2i t)) in *.
        rewrite (eye_nth d) by exact Hi. assert (Es : nth d (tb_shape X) 0%nat = tb_size X n) by (apply (tb_shape_leaf X n El)). rewrite !Es. cbn [np_eye get nth].
        assert (Hz : forall i, nth d (upd d i (repeat 0%nat (tb_order X))) 0%nat = i) by (intros i; apply nth_upd_eq; rewrite repeat_length; exact Hi).
        assert (Hin : forall i, (i < tb_size X n)%nat -> rsum (tb_size X n) (fun j => (if i =? j then r1 else r0) *
            (tval X n (upd d i (repeat 0%nat (tb_order X))) [k] * tval X n (upd d j (repeat 0%nat (tb_order X))) [l]))
          = tval X n (upd d i (repeat 0%nat (tb_order X))) [k] * tval X n (upd d i (repeat 0%nat (tb_order X))) [l]).
        { intros i Hi'. rewrite (rsum_single _ i); auto; [rewrite Nat.eqb_refl; ring|]. intros j _ Hj. destruct (Nat.eqb_spec i j); [congruence|ring]. }
        rewrite (rsum_ext _ _ _ Hin). destruct (active X n) eqn:Ha.
        + pose proof (HO n Hn Ha Hne k l) as HC. rewrite (ok_shape X n Hn Ha), (heads_leaf X r O n El Ha), (ok_exts_rank X r O n Hn Ha Hne) in HC.
          unfold csize in Hk, Hl. rewrite Ha in Hk, Hl. cbn [app last] in HC. rewrite <- (HC Hk Hl).
          cbn [removelast bsum]. unfold tb_size. rewrite Ha. apply rsum_ext. intros i _. rewrite !(tval_leaf X r V n) by auto. fold t. fold d. rewrite Hz. auto.
        + unfold csize in Hk, Hl. rewrite Ha in Hk, Hl. rewrite (rsum_single _ k); auto.
          * rewrite !(tval_inactive X r V n) by auto. fold t. fold d. rewrite Hz. cbn [list_eqb]. rewrite Nat.eqb_refl, Nat.eqb_sym. cbn [andb]. rewrite !andb_true_r. ring.
          * intros i _ Hik. rewrite (tval_inactive X r V n _ [k]) by auto. fold t. fold d. rewrite Hz. cbn [list_eqb]. destruct (Nat.eqb_spec k i); [congruence|]. cbn [andb]. ring.
      - assert (Ha : active X n = true) by (apply (ok_internal X r O n Hn El)). rewrite gram_node; auto.
        + pose proof (HO n Hn Ha Hne k l) as HC. rewrite (ok_shape X n Hn Ha), (ok_exts_rank X r O n Hn Ha Hne), last_last, removelast_last in HC.
          unfold csize in Hk, Hl. rewrite Ha in Hk, Hl. auto.
        + intros c k' l' Hc Hk' Hl'. apply in_children in Hc; auto. apply IH; auto. intros E. rewrite E in Hc. apply (rt_no_edge t r T n Hc).
    Qed.
    Lemma orth_root e e' : bsum (tb_shape X) (fun is => tval X r is e * tval X r is e') = bsum (heads X r) (fun ks => get (core X r) (ks ++ e) * get (core X r) (ks ++ e')).
    Proof.
      assert (Hr : node t r) by apply T. pose proof (root_not_leaf X r O H2) as El. rewrite <- gram_node; auto.
      - rewrite (gram_root X X r Ms O eq_refl eq_refl H2 LMs).
        rewrite <- bsum_eye with (F := fun is js => tval X r is e * tval X r js e'). apply bsum_ext. intros is Hi. apply bsum_ext. intros js Hj. unfold Ms. ring.
      - intros c k l Hc Hk Hl. apply in_children in Hc; auto. apply gram_delta; auto; [apply Hc|]. intros E. rewrite E in Hc. apply (rt_no_edge t r T r Hc).
    Qed.
    Lemma orth_norm A : tb_full X = Some A -> ft_norm2 (core X r) = bsum (shape A) (fun is => get A is * get A is).
    Proof.
      intros HA. destruct (full_inv X r A O H2 HA) as [HsA HgA]. assert (Hr : node t r) by apply T.
      unfold ft_norm2. rewrite HsA, (ok_shape X r Hr (proj1 (proj2 (proj2 O)))), !bsum_app.
      rewrite bsum_exchange. symmetry. rewrite bsum_exchange. apply bsum_ext. intros e He. rewrite <- orth_root. apply bsum_ext. intros is Hi. rewrite HgA by auto. auto.
    Qed.
  End Norm.
  Theorem tb_norm2_full qr X r A flag : qr_contract qr -> tb_ok X r -> (2 <= tb_order X)%nat -> tb_full X = Some A ->
    (flag = true -> forall n, node (ttree X) n -> active X n = true -> n <> r -> orth_cols (core X n)) ->
    tb_norm2 qr flag X = Some (bsum (shape A) (fun is => get A is * get A is)).
  Proof.
    intros Hq O H2 HA HF. unfold tb_norm2. destruct flag.
    - cbn [bind]. rewrite (proj1 (root_node X r O)). f_equal. apply (orth_norm X r O H2); auto.
    - destruct (tb_orth_spec qr X r Hq O) as (Z & HZ & SV & AZ & CZ). rewrite HZ. cbn [bind].
      destruct (same_val_full X Z r A O H2 HA SV) as (B & HB & HsB & HgB). destruct SV as (OZ & TZ & _).
      rewrite (proj1 (root_node Z r OZ)). f_equal. rewrite (orth_norm Z r OZ) with (A := B); auto.
      + rewrite HsB. apply bsum_ext. intros is Hi. rewrite HgB by (rewrite ?HsB; auto). auto.
      + unfold tb_order. rewrite TZ. exact H2.
      + rewrite TZ. intros n Hn Ha. rewrite AZ in Ha by auto. auto.
  Qed.
End DotFull.
