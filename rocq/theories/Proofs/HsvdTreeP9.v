(** gramians of a tree-based tensor: what the matrices are. *)
From Coq Require Import List Arith Lia Bool Reals Lra Permutation.
From Verif.Base Require Import ListAux CRing Index RealAux.
From Verif.Model Require Import Sorting Numpy FullTensor Diagonal Canonical DimensionTree TreeBased Truncator HSVD HsvdTree.
From Verif.Spec Require Import TensorSpec TreeSpec TreeTensorSpec TruncatorSpec GramSpec.
From Verif.Proofs Require Import NumpyP FullTensorP FullTensorP3 FullTensorP4 DiagonalP DimTreeP DimTreeP2 TreeTensorP TreeTensorP2 TreeTensorP3 TreeTensorP4 TreeTensorP6 TreeTensorP7 TreeTensorP12 TreeTensorP13 TreeTensorP14 TreeTensorP15 TreeTensorP29 PolyP5 EinsumP HsvdP2 HsvdTreeP1 HsvdTreeP2 HsvdTreeP3 HsvdTreeP5 HsvdTreeP8.
Import ListNotations.
Local Open Scope R_scope.

Lemma put_upd d i : forall ds xs (is : list nat), ~ In d ds -> put ds xs (upd d i is) = upd d i (put ds xs is).
Proof.
  induction ds as [|k ds IH]; intros [|x xs] is H; cbn [put]; auto. rewrite IH by (intros Q; apply H; simpl; auto). apply upd_comm. intros ->. apply H. simpl. auto.
Qed.
Lemma part_put s ds f : NoDup ds -> forall is, part s ds f is = bsum (map s ds) (fun x => f (put ds x is)).
Proof.
  induction ds as [|d ds IH]; intros ND is; cbn [part map bsum put]; auto. inversion ND as [|? ? H1 H2]; subst. apply rsum_ext_R. intros i _. rewrite IH by auto.
  apply bsum_ext_R. intros x _. rewrite put_upd by auto. auto.
Qed.
Lemma put_seq_app (e : list nat) : forall (is e0 : list nat), length e0 = length e -> put (seq (length is) (length e)) e (is ++ e0) = is ++ e.
Proof.
  induction e as [|x e IH]; intros is [|y e0] L; try discriminate; cbn [length seq put]; auto.
  rewrite <- Nat.add_1_r. replace (length is + 1)%nat with (length (is ++ [y])) by (rewrite app_length; cbn; lia). replace (is ++ y :: e0) with ((is ++ [y]) ++ e0) by (rewrite <- app_assoc; auto).
  rewrite IH by (cbn in L; lia). rewrite <- app_assoc. cbn [app]. clear. induction is as [|a is IH]; cbn; auto. f_equal. auto.
Qed.
Lemma put_app_ds d1 : forall x1 d2 x2 is, length x1 = length d1 -> put (d1 ++ d2) (x1 ++ x2) is = put d1 x1 (put d2 x2 is).
Proof. induction d1 as [|d d1 IH]; intros [|x x1] d2 x2 is L; try discriminate; cbn [app put]; auto. f_equal. apply IH. cbn in L. lia. Qed.
Lemma put_low ds xs : forall (is e : list nat), Forall (fun d => (d < length is)%nat) ds -> put ds xs (is ++ e) = put ds xs is ++ e.
Proof.
  revert xs. induction ds as [|d ds IH]; intros [|x xs] is e H; cbn [put]; auto. inversion H; subst. rewrite IH by auto. apply upd_app_l. rewrite put_length. auto.
Qed.
Section G.
  Variables (X : tbt R) (r : nat).
  Hypothesis O : tb_ok X r.
  Hypothesis H2 : (2 <= tb_order X)%nat.
  Hypothesis HO : forall n, node (ttree X) n -> active X n = true -> n <> r -> orth_cols (core X n).
  Local Notation t := (ttree X).
  Let V : dim_tree t r := proj1 O.
  Let T : rooted_tree t r := proj1 V.
  Lemma good_sect A n G is js : tb_full X = Some A -> node t n -> active X n = true -> n <> r -> good X r n G -> valid (shape A) is -> valid (shape A) js ->
    sect A (dims t n) is js = rsum (csize X n) (fun k => rsum (csize X n) (fun l => tval X n (firstn (tb_order X) is) [k] * get G [k; l] * tval X n (firstn (tb_order X) js) [l])).
  Proof.
    intros HA Hn Ha NE (SG & W & FW & EG) Hi Hj. destruct (full_inv X r A O H2 HA) as [SA VA]. rewrite SA in Hi, Hj.
    apply valid_app_inv in Hi. destruct Hi as (i1 & i2 & -> & Hi1 & Hi2). apply valid_app_inv in Hj. destruct Hj as (j1 & j2 & -> & Hj1 & Hj2).
    assert (LS : length (tb_shape X) = tb_order X) by apply tb_shape_length.
    assert (Li : length i1 = tb_order X) by (rewrite <- LS; apply (valid_length _ _ Hi1)). assert (Lj : length j1 = tb_order X) by (rewrite <- LS; apply (valid_length _ _ Hj1)).
    assert (F1 : firstn (tb_order X) (i1 ++ i2) = i1) by (rewrite firstn_app, Li, Nat.sub_diag, firstn_O, app_nil_r; apply firstn_all2; lia).
    assert (F2 : firstn (tb_order X) (j1 ++ j2) = j1) by (rewrite firstn_app, Lj, Nat.sub_diag, firstn_O, app_nil_r; apply firstn_all2; lia). rewrite F1, F2.
    unfold sect. cbv zeta.
    assert (EC : filter (fun d => negb (existsb (Nat.eqb d) (dims t n))) (seq 0 (ndim A)) = co X n ++ seq (tb_order X) (length (exts X r))).
    { unfold ndim. rewrite SA, app_length, LS, seq_app, filter_app. f_equal. cbn [plus]. apply filter_true. intros d Hd. apply in_seq in Hd. apply negb_true_iff. apply (proj2 (inb_false d (dims t n))). intros Q.
      pose proof (proj1 (Forall_forall _ _) (dims_N X r O n Hn) d Q). cbv beta in *. lia. }
    rewrite EC. assert (HC : Forall (fun d => (d < tb_order X)%nat) (co X n)) by (apply Forall_forall; intros d Hd; apply (in_co X n d Hn) in Hd; tauto).
    assert (NDC : NoDup (co X n)) by (apply NoDup_filter, seq_NoDup).
    assert (ES : sel 0%nat (shape A) (co X n ++ seq (tb_order X) (length (exts X r))) = map (sz X) (co X n) ++ exts X r).
    { unfold sel. rewrite map_app. f_equal.
      - apply map_ext_in. intros d Hd. pose proof (proj1 (Forall_forall _ _) HC d Hd). cbv beta in *. rewrite SA, app_nth1 by lia. auto.
      - rewrite SA, <- LS. apply nth_ext' with (d := 0%nat); [rewrite map_length, seq_length; auto|]. rewrite map_length, seq_length. intros k Hk.
        rewrite map_nth_in with (da := 0%nat) by (rewrite seq_length; auto). rewrite seq_nth by auto. rewrite app_nth2 by lia. f_equal. lia. }
    rewrite ES, bsum_app.
    assert (LF := FW). destruct LF as [LW _].
    assert (AG : forall x (a : list nat), length a = tb_order X -> valid (map (sz X) (co X n)) x -> agree (co X n) (put (co X n) x a) (put (co X n) x (zN X))).
    { intros x a La Hx d Hd. destruct (In_nth _ _ 0%nat Hd) as (q & Hq & <-). pose proof (valid_length _ _ Hx) as Lx. rewrite map_length in Lx.
      pose proof (proj1 (Forall_forall _ _) HC _ Hd). cbv beta in *. rewrite !put_nth_idx; auto; try lia. unfold zN. rewrite repeat_length. auto. }
    assert (TV : forall x (a : list nat) e, length a = tb_order X -> valid (map (sz X) (co X n)) x -> valid (exts X r) e -> tval X r (put (co X n) x a) e = rsum (csize X n) (fun k => tval X n a [k] * W [k] (put (co X n) x (zN X)) e)).
    { intros x a e La Hx He. rewrite (sum_fact X r O n W) by auto. apply rsum_ext_R. intros k _. f_equal.
      - apply (loc_tval X r O n [k] Hn). intros d Hd. rewrite put_nth_out; auto. intros Q. apply (in_co X n d Hn) in Q. tauto.
      - apply LW. apply AG; auto. }
    assert (PV : forall x (a : list nat), valid (map (sz X) (co X n)) x -> valid (tb_shape X) a -> valid (tb_shape X) (put (co X n) x a)).
    { intros x a Hx Hv. pose proof (valid_length _ _ Hx) as Lx. rewrite map_length in Lx. pose proof (valid_length _ _ Hv) as La. apply valid_intro; [rewrite put_length; auto|]. intros d Hd.
      destruct (in_dec Nat.eq_dec d (co X n)) as [Q|Q].
      - destruct (In_nth _ _ 0%nat Q) as (q & Hq & <-). rewrite put_nth_idx by (auto; pose proof (proj1 (Forall_forall _ _) HC _ Q); cbv beta in *; lia). rewrite index_of_NoDup by auto. pose proof (valid_nth _ _ q Hx) as K. rewrite map_length in K. specialize (K Hq). rewrite map_nth_in with (da := 0%nat) in K by auto. exact K.
      - rewrite put_nth_out by auto. apply (valid_nth _ _ d Hv). auto. }
    assert (PP : forall x e (a1 a2 : list nat), length a1 = tb_order X -> valid (map (sz X) (co X n)) x -> valid (exts X r) e -> valid (exts X r) a2 -> put (co X n ++ seq (tb_order X) (length (exts X r))) (x ++ e) (a1 ++ a2) = put (co X n) x a1 ++ e).
    { intros x e a1 a2 La Hx He H2'. pose proof (valid_length _ _ Hx) as Lx. rewrite map_length in Lx. rewrite put_app_ds by auto. rewrite <- (valid_length _ _ He), <- La, put_seq_app by (rewrite (valid_length _ _ He); apply (valid_length _ _ H2')).
      apply put_low. rewrite La. auto. }
    transitivity (bsum (map (sz X) (co X n)) (fun x => bsum (exts X r) (fun e => rsum (csize X n) (fun k => rsum (csize X n) (fun l => (tval X n i1 [k] * tval X n j1 [l]) * (W [k] (put (co X n) x (zN X)) e * W [l] (put (co X n) x (zN X)) e)))))).
    { apply bsum_ext_R. intros x Hx. apply bsum_ext_R. intros e He. rewrite !PP by auto. rewrite !VA by auto. rewrite !TV by auto. rewrite <- rsum_scal_r_R. apply rsum_ext_R. intros k _. rewrite <- rsum_scal_l_R. apply rsum_ext_R. intros l _. rcbn. ring. }
    rewrite bsum_exchange.
    transitivity (rsum (csize X n) (fun k => rsum (csize X n) (fun l => bsum (exts X r) (fun e => bsum (map (sz X) (co X n)) (fun x => (tval X n i1 [k] * tval X n j1 [l]) * (W [k] (put (co X n) x (zN X)) e * W [l] (put (co X n) x (zN X)) e)))))).
    { rewrite (rsum_ext_R _ _ (fun k => bsum (exts X r) (fun e => rsum (csize X n) (fun l => bsum (map (sz X) (co X n)) (fun x => (tval X n i1 [k] * tval X n j1 [l]) * (W [k] (put (co X n) x (zN X)) e * W [l] (put (co X n) x (zN X)) e)))))) by (intros k Hk; symmetry; apply bsum_rsum_exchange_R).
      rewrite <- bsum_rsum_exchange_R. apply bsum_ext_R. intros e _. rewrite (rsum_ext_R _ _ (fun k => bsum (map (sz X) (co X n)) (fun x => rsum (csize X n) (fun l => (tval X n i1 [k] * tval X n j1 [l]) * (W [k] (put (co X n) x (zN X)) e * W [l] (put (co X n) x (zN X)) e))))) by (intros k Hk; symmetry; apply bsum_rsum_exchange_R).
      rewrite <- bsum_rsum_exchange_R. auto. }
    apply rsum_ext_R. intros k Hk. apply rsum_ext_R. intros l Hl. rewrite EG by auto. unfold gm, nu.
    rewrite (bsum_ext_R (exts X r) (fun e => bsum (map (sz X) (co X n)) (fun x => (tval X n i1 [k] * tval X n j1 [l]) * (W [k] (put (co X n) x (zN X)) e * W [l] (put (co X n) x (zN X)) e))) (fun e => (tval X n i1 [k] * tval X n j1 [l]) * part (sz X) (co X n) (fun is => W [k] is e * W [l] is e) (zN X))).
    - rewrite bsum_scal_l_R. rcbn. ring.
    - intros e _. rewrite bsum_scal_l_R, part_put by auto. auto.
  Qed.
  Lemma tval_orth n k l : node t n -> active X n = true -> n <> r -> (k < csize X n)%nat -> (l < csize X n)%nat ->
    bsum (sel 0%nat (tb_shape X) (dims t n)) (fun x => tval X n (put (dims t n) x (repeat 0%nat (tb_order X))) [k] * tval X n (put (dims t n) x (repeat 0%nat (tb_order X))) [l]) = if (k =? l)%nat then 1 else 0.
  Proof.
    intros Hn Ha NE Hk Hl. rewrite <- (node_orth X r O H2 HO n k l Hn NE Hk Hl). symmetry. rewrite part_put by (apply (NoDup_dims' X r O n Hn)). reflexivity.
  Qed.
End G.

Lemma valid_put_sel (s ds x is : list nat) : NoDup ds -> Forall (fun d => (d < length s)%nat) ds -> valid (sel 0%nat s ds) x -> valid s is -> valid s (put ds x is).
Proof.
  intros ND HF Hx Hi. pose proof (valid_length _ _ Hx) as Lx. rewrite sel_length in Lx. pose proof (valid_length _ _ Hi) as Li. apply valid_intro; [rewrite put_length; auto|]. intros d Hd.
  destruct (in_dec Nat.eq_dec d ds) as [Q|Q].
  - rewrite put_nth_idx by (auto; lia). destruct (index_of_nth ds d Q) as [K1 K2]. pose proof (valid_nth _ _ (index_of d ds) Hx) as K. rewrite sel_length in K. specialize (K K1). rewrite sel_nth in K by auto. rewrite K2 in K. exact K.
  - rewrite put_nth_out by auto. apply (valid_nth _ _ d Hi). auto.
Qed.
(** gramians *)
Lemma list_max_ge l x : In x l -> (x <= list_max l)%nat.
Proof. intros H. pose proof (proj1 (list_max_le l (list_max l)) (le_n _)) as F. apply (proj1 (Forall_forall _ _) F x H). Qed.
Lemma gramians_main qr (X : tbt R) r A is_orth alpha : qr_contract qr -> tb_ok X r -> (2 <= tb_order X)%nat -> tb_full X = Some A ->
  (is_orth = true -> forall n, node (ttree X) n -> active X n = true -> n <> r -> orth_cols (core X n)) ->
  (forall al n, alpha = Some al -> In n al -> node (ttree X) n) ->
  exists g Z, tb_gramians qr is_orth X alpha = Some (g, Z) /\ tb_ok Z r /\ ttree Z = ttree X /\
    (forall n, node (ttree X) n -> active Z n = active X n) /\
    (exists B, tb_full Z = Some B /\ shape B = shape A /\ forall is, valid (shape A) is -> get B is = get A is) /\
    (forall n, node (ttree X) n -> active X n = true -> n <> r -> orth_cols (core Z n)) /\
    Forall2 (fun n oG =>
      (n = r -> oG = Some (ND [1%nat; 1%nat] (fun _ => 1))) /\
      (n <> r -> active X n = false -> oG = None) /\
      (n <> r -> active X n = true -> exists G, oG = Some G /\
         let K := last (shape (core Z n)) 0%nat in shape G = [K; K] /\
         (forall k l, (k < K)%nat -> (l < K)%nat ->
            bsum (sel 0%nat (shape A) (dims (ttree X) n)) (fun x => tval Z n (put (dims (ttree X) n) x (repeat 0%nat (tb_order X))) [k] * tval Z n (put (dims (ttree X) n) x (repeat 0%nat (tb_order X))) [l]) = if (k =? l)%nat then 1 else 0) /\
         forall is js, valid (shape A) is -> valid (shape A) js ->
           sect A (dims (ttree X) n) is js =
           rsum K (fun k => rsum K (fun l => tval Z n (firstn (tb_order X) is) [k] * get G [k; l] * tval Z n (firstn (tb_order X) js) [l]))))
      (match alpha with None => nodes (ttree X) | Some al => al end) g.
Proof.
  intros QR O H2 HA HF Hal. pose proof (proj1 O) as V. pose proof (proj1 V) as T.
  assert (HZ : exists Z, (if is_orth then Some X else tb_orth qr X) = Some Z /\ same_val X Z r /\ (forall n, node (ttree X) n -> active Z n = active X n) /\ (forall n, node (ttree X) n -> active X n = true -> n <> r -> orth_cols (core Z n))).
  { destruct is_orth.
    - exists X. split; auto. split; [apply same_val_refl; auto|]. split; auto.
    - exact (tb_orth_spec qr X r QR O). }
  destruct HZ as (Z & EZ & SV & AZ & CZ). pose proof (proj1 SV) as OZ. pose proof (proj1 (proj2 SV)) as TZ.
  assert (H2' : (2 <= tb_order Z)%nat) by (unfold tb_order; rewrite TZ; exact H2).
  assert (HO : forall n, node (ttree Z) n -> active Z n = true -> n <> r -> orth_cols (core Z n)) by (rewrite TZ; intros n Hn Ha NE; rewrite AZ in Ha by auto; auto).
  destruct (same_val_full X Z r A O H2 HA SV) as (B & HB & HsB & HgB).
  set (an := filter (active Z) (nodes (ttree X))).
  set (ml := match alpha with None => max_level (ttree X) | Some al => list_max (map (level (ttree X)) al) end).
  set (ln := match alpha with None => an | Some al => filter (fun n => inb n (flat_map (ascendants (ttree X)) al ++ al)) an end).
  assert (Ian : forall m, In m an <-> node (ttree X) m /\ active X m = true).
  { intros m. unfold an. rewrite filter_In, in_nodes. split; intros [K1 K2]; split; auto; rewrite AZ in *; auto. }
  assert (Iln : forall m, In m ln <-> node (ttree X) m /\ active X m = true /\ (forall al, alpha = Some al -> exists a, In a al /\ below (ttree X) m a)).
  { intros m. unfold ln. destruct alpha as [al|].
    - rewrite filter_In, Ian, inb_spec, in_app_iff, in_flat_map. split.
      + intros [[K1 K2] K3]. split; auto. split; auto. intros al' E. injection E as <-. destruct K3 as [(a & Ha & K)|K].
        * exists a. split; auto. apply (ascendants_spec (ttree X) r T) in K; [tauto|apply (Hal al a); auto].
        * exists m. split; auto. apply below_refl.
      + intros (K1 & K2 & K3). split; auto. destruct (K3 al eq_refl) as (a & Ha & Hb). destruct (Nat.eq_dec a m) as [->|NE]; auto. left. exists a. split; auto. apply (ascendants_spec (ttree X) r T); [apply (Hal al a); auto|]. split; auto.
    - rewrite Ian. split; [intros [K1 K2]; split; auto; split; auto; discriminate|tauto]. }
  destruct (gram_loop Z r OZ H2' HO ln ml) as (g & E1 & E2 & E3 & E4 & E5).
  - intros m Hm. apply Iln in Hm. rewrite TZ. rewrite AZ by tauto. tauto.
  - rewrite TZ. intros m Hm NE. apply Iln in Hm. destruct Hm as (Hm & Ha & K). pose proof (parent_is_edge _ r T m Hm NE) as He. apply Iln. split; [apply He|]. split.
    + apply (ok_internal X r O); [apply He|]. apply (int_of_edge X r O _ m He).
    + intros al E. destruct (K al E) as (a & Ha' & Hb). exists a. split; auto. apply below_step. right. exists m. auto.
  - rewrite TZ. intros m Hm. apply Iln in Hm. destruct Hm as (Hm & Ha & K). unfold ml. destruct alpha as [al|]; [|apply (level_le_max _ r T); auto]. destruct (K al eq_refl) as (a & Ha' & d & Hd).
    pose proof (level_below (ttree X) r T m a d Hm Hd). apply Nat.le_trans with (level (ttree X) a); [lia|]. apply list_max_ge, in_map. auto.
  - rewrite TZ in E1, E2, E4, E5. unfold one11 in *.
    set (gg := match alpha with None => g | Some al => map (fun n => nth (n - 1) g None) al end).
    exists gg, Z. split; [unfold tb_gramians; cbv zeta; rewrite EZ; cbn [bind]; fold an; fold ml; change (ofold (gram_step Z ln) (top_down (ttree X) ml) (upd (root (ttree X) - 1) (Some (ND [1%nat; 1%nat] (fun _ => 1))) (repeat None (nbn (ttree X))))) with (ofold (gram_step Z ln) (top_down (ttree X) ml) (upd (root (ttree X) - 1) (Some (ND [1%nat; 1%nat] (fun _ => 1))) (repeat None (nbn (ttree X))))); fold ln; rewrite E1; reflexivity|].
    split; auto. split; auto. split; auto. split; [exists B; rewrite HsB in *; auto|]. split; auto.
    assert (EN : forall n, node (ttree X) n -> (alpha = None \/ exists al, alpha = Some al /\ In n al) ->
      (n = r -> nth (n - 1) g None = Some (ND [1%nat; 1%nat] (fun _ => 1))) /\
      (n <> r -> active X n = false -> nth (n - 1) g None = None) /\
      (n <> r -> active X n = true -> exists G, nth (n - 1) g None = Some G /\
         let K := last (shape (core Z n)) 0%nat in shape G = [K; K] /\
         (forall k l, (k < K)%nat -> (l < K)%nat ->
            bsum (sel 0%nat (shape A) (dims (ttree X) n)) (fun x => tval Z n (put (dims (ttree X) n) x (repeat 0%nat (tb_order X))) [k] * tval Z n (put (dims (ttree X) n) x (repeat 0%nat (tb_order X))) [l]) = if (k =? l)%nat then 1 else 0) /\
         forall is js, valid (shape A) is -> valid (shape A) js ->
           sect A (dims (ttree X) n) is js =
           rsum K (fun k => rsum K (fun l => tval Z n (firstn (tb_order X) is) [k] * get G [k; l] * tval Z n (firstn (tb_order X) js) [l])))).
    { intros n Hn Hcase. split; [intros ->; auto|]. split.
      - intros NE Ha. apply E5; auto. intros Q. apply Iln in Q. destruct Q as (_ & Q & _). congruence.
      - intros NE Ha. assert (Q : In n ln). { apply Iln. split; auto. split; auto. intros al Eal. destruct Hcase as [C|(al' & C & Hi)]; [congruence|]. assert (al' = al) by congruence. subst al'. exists n. split; auto. apply below_refl. }
        destruct (E4 n Hn NE Q) as (G & EG & HG). exists G. split; auto. cbv zeta. assert (EK : csize Z n = last (shape (core Z n)) 0%nat) by (unfold csize; rewrite AZ, Ha by auto; auto).
        rewrite <- EK. assert (Hn' : node (ttree Z) n) by (rewrite TZ; auto). assert (Ha' : active Z n = true) by (rewrite AZ; auto).
        assert (EO : tb_order Z = tb_order X) by (unfold tb_order; rewrite TZ; auto). split; [apply HG|]. split.
        + intros k l Hk Hl. pose proof (tval_orth Z r OZ H2' HO n k l Hn' Ha' NE Hk Hl) as Q'. rewrite TZ, EO in Q'. rewrite <- Q'. f_equal.
          destruct (full_inv X r A O H2 HA) as [SA _]. rewrite SA. assert (ES : tb_shape Z = tb_shape X) by apply SV. rewrite ES. unfold sel. apply map_ext_in. intros d Hd.
          rewrite app_nth1; auto. rewrite tb_shape_length. pose proof (proj1 (Forall_forall _ _) (dims_N X r O n Hn) d Hd). unfold tb_order in *. auto.
        + intros is js Hi Hj. transitivity (sect B (dims (ttree X) n) is js).
          * unfold sect, ndim. rewrite HsB. cbv zeta. apply bsum_ext_R. intros x Hx. rewrite !HgB; auto; apply valid_put_sel; auto; [apply NoDup_filter, seq_NoDup| |apply NoDup_filter, seq_NoDup|]; apply Forall_forall; intros d Hd; apply filter_In in Hd; destruct Hd as [Hd _]; apply in_seq in Hd; lia.
          * pose proof (good_sect Z r OZ H2' B n G is js HB Hn' Ha' NE HG) as Q'. rewrite TZ, EO in Q'. apply Q'; rewrite HsB; auto. }
    assert (HI : forall n, In n (match alpha with None => nodes (ttree X) | Some al => al end) -> node (ttree X) n /\ (alpha = None \/ exists al, alpha = Some al /\ In n al)).
    { intros n Hn. destruct alpha as [al|]; [split; [apply (Hal al); auto|right; exists al; auto]|apply in_nodes in Hn; auto]. }
    assert (EG : gg = map (fun n => nth (n - 1) g None) (match alpha with None => nodes (ttree X) | Some al => al end)).
    { unfold gg. destruct alpha; auto. apply nth_ext' with (d := None); [rewrite map_length; unfold nodes; rewrite seq_length; auto|]. intros k Hk. unfold nodes. rewrite map_nth_in with (da := 0%nat) by (rewrite seq_length; lia). rewrite seq_nth by lia. f_equal. lia. }
    rewrite EG. clear EG gg. revert HI. generalize (match alpha with None => nodes (ttree X) | Some al => al end). intros L HI. induction L as [|n L IH]; [constructor|]. constructor; [|apply IH; intros; apply HI; simpl; auto].
    destruct (HI n (or_introl eq_refl)) as [Hn Hc]. apply (EN n Hn Hc).
Qed.
