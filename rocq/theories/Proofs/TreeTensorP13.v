(** Tree-based tensors: scalar products (end). *)
From Coq Require Import List Arith Lia Bool ZArith Ring Permutation.
From Verif.Base Require Import ListAux CRing Index.
From Verif.Model Require Import Sorting Numpy FullTensor DimensionTree TreeBased.
From Verif.Spec Require Import TensorSpec TreeSpec TreeTensorSpec.
From Verif.Proofs Require Import NumpyP FullTensorP FullTensorP2 FullTensorP3 FullTensorP4 DimTreeP DimTreeP2 DimTreeP3 TreeTensorP TreeTensorP2 TreeTensorP3 TreeTensorP4 TreeTensorP5 TreeTensorP6 TreeTensorP7 TreeTensorP8 TreeTensorP9 TreeTensorP10 TreeTensorP11 TreeTensorP12.
Import ListNotations.

Lemma valid2 a b ks : valid [a; b] ks -> exists k l, ks = [k; l] /\ (k < a)%nat /\ (l < b)%nat.
Proof.
  intros Hk. inversion Hk as [|k ? k' ? Hk1 Hk2]; subst. inversion Hk2 as [|l ? l' ? Hl1 Hl2]; subst. inversion Hl2; subst. eauto.
Qed.
Section ReshapeId.
  Context {R : Type} {CR : CRing R}.
  Lemma ft_reshape_id' (O : nd R) s : shape O = s -> exists Q, ft_reshape O s = Some Q /\ shape Q = s /\ forall is, valid s is -> get Q is = get O is.
  Proof.
    intros Hs. destruct (ft_reshape_spec O s) as (Q & HQ & HsQ & HgQ); [rewrite Hs; auto|]. exists Q. split; auto. split; auto.
    intros is Hv. apply HgQ; rewrite ?Hs; auto.
  Qed.
  Lemma nthc_setc_eq n (A : nd R) l : (1 <= n <= length l)%nat -> nthc (setc n A l) n = A.
  Proof. intros H. rewrite nthc_setc, Nat.eqb_refl by lia. auto. Qed.
  Lemma nthc_setc_neq n (A : nd R) l m : (1 <= n)%nat -> (1 <= m)%nat -> m <> n -> nthc (setc n A l) m = nthc l m.
  Proof. intros H1 H2 Hne. unfold nthc, setc. apply nth_upd_neq. lia. Qed.
End ReshapeId.

Section Dot.
  Context {R : Type} {CR : CRing R}.
  Add Ring Rrdot : rth.
  Local Open Scope cr_scope.
  Variables (X Y : tbt R) (r : nat) (Ms : list (nd R)).
  Hypothesis OX : tb_ok X r.
  Hypothesis OY : tb_ok Y r.
  Hypothesis HT : ttree Y = ttree X.
  Hypothesis HE : length (exts Y r) = length (exts X r).
  Hypothesis HA : forall n, node (ttree X) n -> active Y n = active X n.
  Hypothesis H2 : (2 <= tb_order X)%nat.
  Hypothesis HLM : length Ms = tb_order X.
  Hypothesis HM : forall k, (k < tb_order X)%nat -> shape (nth k Ms (scalar r0)) = [nth k (tb_shape X) 0%nat; nth k (tb_shape Y) 0%nat].
  Let t := ttree X.
  Let V : dim_tree t r := proj1 OX.
  Let T : rooted_tree t r := proj1 V.
  Let N := tb_order X.
  Let sX k := nth k (tb_shape X) 0%nat.
  Let sY k := nth k (tb_shape Y) 0%nat.
  Let Mf k i j := get (nth k Ms (scalar r0)) [i; j].
  Let zz := repeat 0%nat N.
  Definition gram (n : nat) (e e' : list nat) : R :=
    psum sX sY Mf (dims t n) (fun is js => tval X n is e * tval Y n js e') zz zz.
  Lemma VY : dim_tree (ttree Y) r.
  Proof. rewrite HT. exact V. Qed.

  Lemma gram_leaf n e e' : is_leaf t n = true -> let d := index_of n (d2i t) in
    gram n e e' = rsum (sX d) (fun i => rsum (sY d) (fun j => Mf d i j * (tval X n (upd d i zz) e * tval Y n (upd d j zz) e'))).
  Proof. intros Hl d. unfold gram. rewrite (dims_leaf t r V n Hl). cbn [psum]. auto. Qed.

  Lemma local_tval n e e' : node t n -> local N (dims t n) (fun is js => tval X n is e * tval Y n js e').
  Proof.
    intros Hn is is' js js' _ _ _ _ H1 H3. f_equal.
    - apply (tval_local X r V n Hn). exact H1.
    - apply (tval_local Y r VY n); rewrite ?HT; auto.
  Qed.
  Lemma dims_lt n : node t n -> Forall (fun d => (d < N)%nat) (dims t n).
  Proof. intros Hn. apply Forall_forall. intros d Hd. apply (in_dims t r V n d Hn) in Hd. apply Hd. Qed.
  (** product over children *)
  Lemma psum_children cs ks ls : (forall c, In c cs -> node t c) -> length ks = length cs -> length ls = length cs ->
    (forall l1 c l2, cs = l1 ++ c :: l2 -> forall d, In d (dims t c) -> ~ In d (flat_map (dims t) l2)) ->
    psum sX sY Mf (flat_map (dims t) cs) (fun is js => lprod (combine cs ks) (fun p => tval X (fst p) is [snd p]) * lprod (combine cs ls) (fun p => tval Y (fst p) js [snd p])) zz zz
    = lprod (combine cs (combine ks ls)) (fun p => gram (fst p) [fst (snd p)] [snd (snd p)]).
  Proof.
    revert ks ls. induction cs as [|c cs IH]; intros [|k ks] [|l ls] Hn Lk Ll HD; cbn in Lk, Ll; try discriminate.
    - cbn. ring.
    - cbn [flat_map combine lprod fst snd].
      rewrite <- (IH ks ls); try lia; [|intros; apply Hn; simpl; auto|].
      2:{ intros l1 x l2 E d Hd. apply (HD (c :: l1) x l2); auto. rewrite E. auto. }
      unfold gram. rewrite <- psum_app_mul with (N := N).
      + apply psum_ext with (N := N); try (unfold zz; apply repeat_length). intros is js _ _. ring.
      + apply Forall_forall. intros d Hd. apply in_flat_map in Hd. destruct Hd as (x & Hx & Hd). assert (Hnx : node t x) by (apply Hn; simpl; auto).
        pose proof (dims_lt x Hnx) as HF. rewrite Forall_forall in HF. auto.
      + apply local_tval. apply Hn. simpl; auto.
      + intros is is' js js' _ _ _ _ H1 H3. f_equal; apply lprod_ext; intros [x k0] Hx; cbn [fst snd]; apply in_combine_l in Hx;
          (assert (Hnx : node t x) by (apply Hn; simpl; auto)).
        * apply (tval_local X r V x Hnx). intros d Hd. apply H1. apply in_flat_map. eauto.
        * apply (tval_local Y r VY x); rewrite ?HT; auto. intros d Hd. apply H3. apply in_flat_map. eauto.
      + apply (HD [] c cs). auto.
      + unfold zz. apply repeat_length.
      + unfold zz. apply repeat_length.
  Qed.
  Lemma children_disjoint n : node t n -> forall l1 c l2, children t n = l1 ++ c :: l2 -> forall d, In d (dims t c) -> ~ In d (flat_map (dims t) l2).
  Proof.
    intros Hn l1 c l2 E d Hd Hi. apply in_flat_map in Hi. destruct Hi as (x & Hx & Hd').
    assert (Hc : edge t n c) by (apply in_children; auto; rewrite E; apply in_or_app; simpl; auto).
    assert (Hx' : edge t n x) by (apply in_children; auto; rewrite E; apply in_or_app; simpl; auto).
    pose proof (NoDup_children t n) as ND. rewrite E in ND. apply NoDup_remove_2 in ND.
    assert (Hne : c <> x) by (intros ->; apply ND; apply in_or_app; auto).
    apply (in_dims t r V c d) in Hd; [|apply Hc]. apply (in_dims t r V x d) in Hd'; [|apply Hx'].
    apply Hne. apply (siblings_disjoint t r T n c x (nth d (d2i t) 0%nat)); tauto.
  Qed.
  Lemma dot_heads n : node t n -> is_leaf t n = false -> heads X n = map (csize X) (children t n) /\ heads Y n = map (csize Y) (children t n).
  Proof.
    intros Hn Hl. split; [apply (heads_internal X r OX n Hn Hl)|]. rewrite (heads_internal Y r OY n); rewrite HT; auto.
  Qed.
  Lemma gram_internal n e e' : node t n -> is_leaf t n = false ->
    gram n e e' = bsum (heads X n) (fun ks => bsum (heads Y n) (fun ls => get (core X n) (ks ++ e) * get (core Y n) (ls ++ e') *
       lprod (combine (children t n) (combine ks ls)) (fun p => gram (fst p) [fst (snd p)] [snd (snd p)]))).
  Proof.
    intros Hn Hl. unfold gram at 1. rewrite (dims_internal t r V n Hn Hl).
    transitivity (psum sX sY Mf (flat_map (dims t) (children t n)) (fun is js => bsum (heads X n) (fun ks => bsum (heads Y n) (fun ls =>
      (get (core X n) (ks ++ e) * get (core Y n) (ls ++ e')) *
      (lprod (combine (children t n) ks) (fun p => tval X (fst p) is [snd p]) * lprod (combine (children t n) ls) (fun p => tval Y (fst p) js [snd p]))))) zz zz).
    - apply psum_ext with (N := N); try (unfold zz; apply repeat_length). intros is js _ _.
      rewrite (tval_internal X r V n) by auto. rewrite (tval_internal Y r VY n) by (rewrite HT; auto). rewrite bsum_mul, HT. fold t.
      apply bsum_ext. intros ks _. apply bsum_ext. intros ls _. ring.
    - rewrite psum_bsum. apply bsum_ext. intros ks Hk. rewrite psum_bsum. apply bsum_ext. intros ls Hl'. rewrite psum_scal. f_equal.
      destruct (dot_heads n Hn Hl) as [EX EY]. rewrite EX in Hk. rewrite EY in Hl'.
      apply psum_children.
      + intros c Hc. apply in_children' in Hc. apply Hc.
      + rewrite (valid_length _ _ Hk), map_length. auto.
      + rewrite (valid_length _ _ Hl'), map_length. auto.
      + apply children_disjoint. auto.
  Qed.

  (** the matrices computed by the code *)
  Definition good (A : nd R) (n : nat) : Prop := tensor_is A [csize X n; csize Y n] (fun ks => gram n [nth 0 ks 0%nat] [nth 1 ks 0%nat]).
  Lemma leaf_ne n : is_leaf t n = true -> n <> r.
  Proof. intros Hl E. pose proof (root_not_leaf X r OX H2) as E'. rewrite <- E in E'. fold t in E'. congruence. Qed.
  Lemma nth_zz d i : (d < N)%nat -> nth d (upd d i zz) 0%nat = i.
  Proof. intros H. apply nth_upd_eq. unfold zz. rewrite repeat_length. auto. Qed.
  Lemma dot_leaf_good n : is_leaf t n = true -> exists A, dot_leaf X Y (nth (index_of n (d2i t)) Ms (scalar r0)) n = Some A /\ good A n.
  Proof.
    intros Hl. pose proof (leaf_node t r V n Hl) as Hn. pose proof (leaf_ne n Hl) as Hne. destruct (leaf_index t n Hl) as [Hi1 Hi2].
    assert (HlY : is_leaf (ttree Y) n = true) by (rewrite HT; auto). assert (HnY : node (ttree Y) n) by (rewrite HT; auto).
    set (d := index_of n (d2i t)) in *.
    assert (ESX : sX d = tb_size X n) by (unfold sX, d; apply (tb_shape_leaf X n Hl)).
    assert (ESY : sY d = tb_size Y n) by (unfold sY, d, t; rewrite <- HT; apply (tb_shape_leaf Y n HlY)).
    assert (HdN : (d < N)%nat) by exact Hi1.
    pose proof (HM d Hi1) as ShM. fold (sX d) (sY d) in ShM. rewrite ESX, ESY in ShM.
    unfold dot_leaf. destruct (active X n) eqn:Ha.
    - assert (HaY : active Y n = true) by (rewrite HA; auto).
      assert (SX : shape (core X n) = [tb_size X n; csize X n]).
      { rewrite (ok_shape X n Hn Ha), (heads_leaf X r OX n Hl Ha), (ok_exts_rank X r OX n Hn Ha Hne). unfold tb_size, csize. rewrite Ha. auto. }
      assert (SY : shape (core Y n) = [tb_size Y n; csize Y n]).
      { rewrite (ok_shape Y n HnY HaY), (heads_leaf Y r OY n HlY HaY), (ok_exts_rank Y r OY n HnY HaY Hne). unfold tb_size, csize. rewrite HaY. auto. }
      destruct (tmp_single (core Y n) (nth d Ms (scalar r0)) [] [csize Y n] (tb_size Y n) (tb_size X n) SY ShM) as (W & HW & HsW & HgW).
      cbn [length] in HW. rewrite HW. cbn [bind].
      destruct (td_single (core X n) W [] [csize X n] [] [csize Y n] (tb_size X n) SX HsW) as (O & HO & HsO & HgO).
      cbn [length] in HO. rewrite HO. cbn [bind]. cbn [app] in HsO. rewrite SX, SY. cbn [last].
      destruct (ft_reshape_id' O [csize X n; csize Y n] HsO) as (Q & HQ & HsQ & HgQ). exists Q. split; auto. split; auto.
      intros ks Hk. pose proof Hk as Hk0. apply valid2 in Hk0. destruct Hk0 as (k & l & Eks & Hk1 & Hl1). rewrite Eks in *. cbn [nth].
      rewrite HgQ by auto. change [k; l] with (([] ++ [k]) ++ ([] ++ [l])). rewrite HgO; try constructor; auto; try constructor.
      rewrite (gram_leaf n [k] [l] Hl). fold d. rewrite ESX, ESY. apply rsum_ext. intros i Hi. cbn [app].
      specialize (HgW [] i [l] ltac:(constructor) Hi ltac:(constructor; [auto|constructor])). cbn [app] in HgW. rewrite HgW.
      rewrite <- rsum_scal_l. apply rsum_ext. intros j Hj. rewrite (tval_leaf X r V n) by auto. rewrite (tval_leaf Y r VY n) by auto. rewrite HT. fold t. fold d.
      rewrite !nth_zz by auto. unfold Mf. ring.
    - assert (HaY : active Y n = false) by (rewrite HA; auto). eexists. split; [reflexivity|]. unfold good. unfold csize. rewrite Ha, HaY. split; auto.
      intros ks Hk. pose proof Hk as Hk0. apply valid2 in Hk0. destruct Hk0 as (k & l & Eks & Hk1 & Hl1). rewrite Eks in *. cbn [nth].
      rewrite (gram_leaf n [k] [l] Hl). fold d. rewrite ESX, ESY.
      rewrite (rsum_single (tb_size X n) k); auto.
      + rewrite (rsum_single (tb_size Y n) l); auto.
        * rewrite (tval_inactive X r V n) by auto. rewrite (tval_inactive Y r VY n) by auto. rewrite HT. fold t. fold d. rewrite !nth_zz by auto.
          cbn [list_eqb]. rewrite !Nat.eqb_refl. cbn [andb]. unfold Mf. ring.
        * intros j Hj Hne'. rewrite (tval_inactive Y r VY n) by auto. rewrite HT. fold t. fold d. rewrite !nth_zz by auto.
          cbn [list_eqb]. destruct (Nat.eqb_spec l j); [congruence|]. cbn [andb]. ring.
      + intros i Hi Hne'. apply rsum_zero. intros j Hj. rewrite (tval_inactive X r V n) by auto. fold t. fold d. rewrite !nth_zz by auto.
        cbn [list_eqb]. destruct (Nat.eqb_spec k i); [congruence|]. cbn [andb]. ring.
  Qed.

  Lemma factors_gram cs (Gs : nat -> nd R) ks ls : (forall c, In c cs -> good (Gs c) c) ->
    valid (map (csize X) cs) ks -> valid (map (csize Y) cs) ls ->
    factors (map Gs cs) ks ls = lprod (combine cs (combine ks ls)) (fun p => gram (fst p) [fst (snd p)] [snd (snd p)]).
  Proof.
    revert ks ls. induction cs as [|c cs IH]; intros ks ls Hg Hk Hl; inversion Hk; subst; inversion Hl; subst; auto.
    cbn [map factors combine lprod fst snd]. rewrite IH by (auto; intros; apply Hg; simpl; auto). f_equal.
    destruct (Hg c) as [_ HG]; [simpl; auto|]. rewrite HG by (repeat constructor; auto). auto.
  Qed.
  Lemma dot_node_core n out : node t n -> is_leaf t n = false -> (forall c, In c (children t n) -> good (nthc out c) c) ->
    exists tmp O, ft_tensor_matrix_product (core Y n) (map (nthc out) (children t n)) (Some (seq 0 (length (children t n)))) = Some tmp /\
      ft_tensordot (core X n) tmp (seq 0 (length (children t n))) (seq 0 (length (children t n))) = Some O /\
      shape O = exts X n ++ exts Y n /\ forall e e', valid (exts X n) e -> valid (exts Y n) e' -> get O (e ++ e') = gram n e e'.
  Proof.
    intros Hn Hl HG. destruct (dot_heads n Hn Hl) as [EX EY]. pose proof (ok_internal X r OX n Hn Hl) as Ha.
    assert (HaY : active Y n = true) by (rewrite HA; auto).
    pose proof (ok_shape X n Hn Ha) as SX. assert (SY : shape (core Y n) = heads Y n ++ exts Y n) by (apply ok_shape; rewrite ?HT; auto).
    assert (LX : length (heads X n) = length (children t n)) by (rewrite EX, map_length; auto).
    assert (LY : length (heads Y n) = length (children t n)) by (rewrite EY, map_length; auto).
    assert (Hrows : map mrows (map (nthc out) (children t n)) = heads X n).
    { rewrite map_map, EX. apply map_ext_in. intros c Hc. unfold mrows. destruct (HG c Hc) as [-> _]. auto. }
    destruct (tmp_front (core Y n) (map (nthc out) (children t n)) (heads Y n) (exts Y n) SY) as (W & HW & HsW & HgW).
    - rewrite map_length. auto.
    - intros k Hk. rewrite LY in Hk. exists (csize X (nth k (children t n) 0%nat)). rewrite map_nth_in with (da := 0%nat) by auto.
      assert (Hc : In (nth k (children t n) 0%nat) (children t n)) by (apply nth_In; auto). destruct (HG _ Hc) as [-> _].
      rewrite EY, map_nth_in with (da := 0%nat) by auto. auto.
    - rewrite Hrows in HsW, HgW. rewrite LY in HW. destruct (td_front (core X n) W (heads X n) (exts X n) (exts Y n) SX HsW) as (O & HO & HsO & HgO).
      rewrite LX in HO. exists W, O. split; auto. split; auto. split; auto. intros e e' He He'. rewrite HgO by auto.
      rewrite (gram_internal n e e' Hn Hl). apply bsum_ext. intros ks Hk. rewrite HgW by auto. rewrite <- bsum_scal_l. apply bsum_ext. intros ls Hls.
      rewrite (factors_gram (children t n) (nthc out)); auto; [ring| |].
      + rewrite <- EX. auto.
      + rewrite <- EY. auto.
  Qed.
  Lemma dot_ndim n : node t n -> is_leaf t n = false -> ndim (core X n) = (length (children t n) + length (exts X n))%nat.
  Proof.
    intros Hn Hl. destruct (dot_heads n Hn Hl) as [EX EY]. unfold ndim. rewrite (ok_shape X n Hn (ok_internal X r OX n Hn Hl)), app_length, EX, map_length. auto.
  Qed.
  Lemma sizes_map : map sX (seq 0 N) = tb_shape X /\ map sY (seq 0 N) = tb_shape Y.
  Proof.
    assert (LX : length (tb_shape X) = N) by apply tb_shape_length. assert (LY : length (tb_shape Y) = N) by (rewrite tb_shape_length, HT; auto).
    split.
    - unfold sX. rewrite <- LX. apply (sel_seq 0%nat).
    - unfold sY. rewrite <- LY. apply (sel_seq 0%nat).
  Qed.
  Lemma lprod_factors k : forall m L u v, length u = k -> length v = k -> length L = k -> (forall j, (j < k)%nat -> nth (m + j) Ms (scalar r0) = nth j L (scalar r0)) ->
    lprod (combine (seq m k) (combine u v)) (fun p => Mf (fst p) (fst (snd p)) (snd (snd p))) = factors L u v.
  Proof.
    induction k as [|k IH]; intros m [|A L] [|i u] [|j v] L1 L2 L3 H; try discriminate; auto.
    cbn [seq combine lprod fst snd factors]. rewrite (IH (S m) L u v); cbn in *; try lia.
    - unfold Mf. specialize (H 0%nat ltac:(lia)). rewrite Nat.add_0_r in H. cbn in H. rewrite H. auto.
    - intros x Hx. specialize (H (S x) ltac:(lia)). rewrite Nat.add_succ_r in H. cbn in H. exact H.
  Qed.
  Lemma gram_root e e' : gram r e e' = bsum (tb_shape X) (fun is => bsum (tb_shape Y) (fun js => tval X r is e * factors Ms is js * tval Y r js e')).
  Proof.
    unfold gram. assert (Hr : node t r) by apply T. rewrite (psum_perm sX sY Mf (dims t r) (seq 0 N)).
    - change zz with ([] ++ zz). rewrite psum_seq by (auto; unfold zz; apply repeat_length). destruct sizes_map as [-> ->]. cbn [app].
      assert (LX : length (tb_shape X) = N) by apply tb_shape_length. assert (LY : length (tb_shape Y) = N) by (rewrite tb_shape_length, HT; auto).
      apply bsum_ext. intros u Hu. apply bsum_ext. intros v Hv. rewrite (lprod_factors N 0 Ms u v); auto; [ring| |].
      + rewrite (valid_length _ _ Hu). auto.
      + rewrite (valid_length _ _ Hv). auto.
    - apply (dims_root t r V).
    - apply (NoDup_dims t r V r Hr).
  Qed.
  Hypothesis HR : exts X r = [] \/ (1 < nth 0 (exts X r) 0)%nat.
  Lemma dot_ord n : node t n -> is_leaf t n = false ->
    (if negb (n =? root t) || (1 <? tb_rank X (root t)) then seq 0 (ndim (core X n) - 1) else seq 0 (ndim (core X n))) = seq 0 (length (children t n)).
  Proof.
    intros Hn Hl. rewrite (dot_ndim n Hn Hl). rewrite (root_eq t r T). pose proof (root_rank X r OX H2) as Hrk. fold t in Hrk. rewrite (root_eq t r T) in Hrk.
    rewrite Hrk. destruct (Nat.eqb_spec n r) as [E|Hne].
    - rewrite E. cbn [negb orb]. destruct HR as [E0|H1].
      + rewrite E0. cbn. rewrite Nat.add_0_r. auto.
      + pose proof (ok_exts_root X r OX) as Hle. destruct (exts X r) as [|a [|b l]]; cbn in H1, Hle; try lia. cbn [nth length].
        destruct (Nat.ltb_spec 1 a); [|lia]. f_equal. lia.
    - cbn [negb orb]. rewrite (ok_exts X r OX n Hn (ok_internal X r OX n Hn Hl) Hne). f_equal. lia.
  Qed.
  Lemma dot_node_good n out : node t n -> n <> r -> is_leaf t n = false -> (forall c, In c (children t n) -> good (nthc out c) c) ->
    exists A, dot_node X Y out n = Some A /\ good A n.
  Proof.
    intros Hn Hne Hl HG. destruct (dot_node_core n out Hn Hl HG) as (W & O & HW & HO & HsO & HgO).
    unfold dot_node. fold t. rewrite Hl. cbv zeta. rewrite (dot_ord n Hn Hl), HW. cbn [bind]. rewrite HO. cbn [bind].
    rewrite (root_eq t r T). destruct (Nat.eqb_spec n r); [contradiction|]. cbn [negb].
    pose proof (ok_internal X r OX n Hn Hl) as Ha. assert (HaY : active Y n = true) by (rewrite HA; auto).
    assert (EeX : exts X n = [csize X n]) by (unfold csize; rewrite Ha; apply (ok_exts_rank X r OX n Hn Ha Hne)).
    assert (EeY : exts Y n = [csize Y n]) by (unfold csize; rewrite HaY; apply (ok_exts_rank Y r OY n); rewrite ?HT; auto).
    rewrite EeX, EeY in HsO, HgO. cbn [app] in HsO.
    assert (LX : last (shape (core X n)) 0%nat = csize X n) by (unfold csize; rewrite Ha; auto).
    assert (LY : last (shape (core Y n)) 0%nat = csize Y n) by (unfold csize; rewrite HaY; auto). rewrite LX, LY.
    destruct (ft_reshape_id' O [csize X n; csize Y n] HsO) as (Q & HQ & HsQ & HgQ). exists Q. split; auto. split; auto.
    intros ks Hk. pose proof Hk as Hk0. apply valid2 in Hk0. destruct Hk0 as (k & l & Eks & Hk1 & Hl1). rewrite Eks in *. cbn [nth].
    rewrite HgQ by auto. change [k; l] with ([k] ++ [l]). apply HgO; repeat constructor; auto.
  Qed.

  Lemma leaves_fold : exists out, ofold (fun out p => let* A := dot_leaf X Y (snd p) (fst p) in Some (setc (fst p) A out)) (combine (d2i t) Ms) (repeat no_core (nbn t)) = Some out /\
    length out = nbn t /\ forall n, is_leaf t n = true -> good (nthc out n) n.
  Proof.
    assert (ND : NoDup (d2i t)) by (apply (NoDup_d2i t r V)).
    assert (G : forall k out, (k <= length (d2i t))%nat -> length out = nbn t ->
      exists out', ofold (fun out p => let* A := dot_leaf X Y (snd p) (fst p) in Some (setc (fst p) A out)) (skipn (length (d2i t) - k) (combine (d2i t) Ms)) out = Some out' /\
        length out' = nbn t /\ (forall n, In n (skipn (length (d2i t) - k) (d2i t)) -> good (nthc out' n) n) /\
        (forall n, is_leaf t n = true -> ~ In n (skipn (length (d2i t) - k) (d2i t)) -> nthc out' n = nthc out n)).
    { induction k as [|k IH]; intros out Hk HL.
      - rewrite Nat.sub_0_r. rewrite !skipn_all2 by (rewrite ?combine_length; lia). exists out. cbn. split; auto. split; auto. split; auto. intros n [].
      - assert (Hj : (length (d2i t) - S k < length (d2i t))%nat) by lia. set (j := (length (d2i t) - S k)%nat) in *.
        replace (length (d2i t) - k)%nat with (S j) in IH by (unfold j; lia).
        assert (E1 : skipn j (combine (d2i t) Ms) = (nth j (d2i t) 0%nat, nth j Ms (scalar r0)) :: skipn (S j) (combine (d2i t) Ms)).
        { rewrite (skipn_nth_cons (0%nat, scalar r0) j (combine (d2i t) Ms)) by (rewrite combine_length, HLM; unfold tb_order, t in *; lia).
          rewrite combine_nth by (rewrite HLM; auto). auto. }
        assert (E2 : skipn j (d2i t) = nth j (d2i t) 0%nat :: skipn (S j) (d2i t)) by (apply skipn_nth_cons; auto).
        set (n := nth j (d2i t) 0%nat) in *. assert (Hin : In n (d2i t)) by (apply nth_In; auto).
        assert (Hl : is_leaf t n = true) by (apply inb_spec; auto).
        assert (Hidx : index_of n (d2i t) = j) by (apply (index_of_NoDup (d2i t) j); auto).
        destruct (dot_leaf_good n Hl) as (A & HA' & HG). rewrite Hidx in HA'.
        rewrite E1. cbn [ofold fst snd]. rewrite HA'. cbn [bind].
        pose proof (leaf_node t r V n Hl) as Hnn.
        destruct (IH (setc n A out)) as (out' & HF & HL' & HG' & HO'); [lia|unfold setc; rewrite upd_length; auto|].
        exists out'. split; auto. split; auto. rewrite E2.
        assert (Hnot : ~ In n (skipn (S j) (d2i t))).
        { pose proof ND as ND'. rewrite <- (firstn_skipn j (d2i t)), E2 in ND'. apply NoDup_remove_2 in ND'. intros Hx. apply ND', in_or_app. auto. }
        split.
        + intros m [<-|Hm]; auto. rewrite HO' by auto. rewrite nthc_setc_eq by (rewrite HL; apply Hnn). auto.
        + intros m Hlm Hm. rewrite HO' by (auto; intros Hx; apply Hm; simpl; auto).
          apply nthc_setc_neq; [apply Hnn|apply (leaf_node t r V m Hlm)|]. intros ->. apply Hm. simpl; auto. }
    destruct (G (length (d2i t)) (repeat no_core (nbn t))) as (out & HF & HL & HG & _); auto; [apply repeat_length|].
    rewrite Nat.sub_diag in *. cbn [skipn] in *. exists out. split; auto. split; auto. intros n Hl. apply HG. apply inb_spec. auto.
  Qed.
  Definition root_good (A : nd R) : Prop := shape A = exts X r ++ exts Y r /\ forall e e', valid (exts X r) e -> valid (exts Y r) e' -> get A (e ++ e') = gram r e e'.
  Lemma dot_step n out : node t n -> length out = nbn t -> (forall m, is_leaf t m = true -> good (nthc out m) m) ->
    (forall c, In c (children t n) -> good (nthc out c) c) -> exists A, dot_node X Y out n = Some A /\ if n =? r then root_good A else good A n.
  Proof.
    intros Hn HL Hlf HC. destruct (is_leaf t n) eqn:Hl.
    - exists (nthc out n). unfold dot_node. fold t. rewrite Hl. split; auto. destruct (Nat.eqb_spec n r) as [E|_]; auto. exfalso. apply (leaf_ne n Hl E).
    - destruct (Nat.eqb_spec n r) as [E|Hne].
      + destruct (dot_node_core n out Hn Hl HC) as (W & O & HW & HO & HsO & HgO). exists O. unfold dot_node. fold t. rewrite Hl. cbv zeta.
        rewrite (dot_ord n Hn Hl), HW. cbn [bind]. rewrite HO. cbn [bind]. rewrite (root_eq t r T). destruct (Nat.eqb_spec n r); [|contradiction]. cbn [negb].
        split; auto. unfold root_good. rewrite <- E. auto.
      + apply dot_node_good; auto.
  Qed.
  Lemma dot_fold l : forall out done, length out = nbn t -> (forall m, is_leaf t m = true -> good (nthc out m) m) ->
    bottom_up t = done ++ l -> (forall m, In m done -> if m =? r then root_good (nthc out m) else good (nthc out m) m) ->
    exists out', ofold (fun out n => match dot_node X Y out n with Some A => Some (upd (n - 1) A out) | None => None end) l out = Some out' /\
      forall m, In m (bottom_up t) -> if m =? r then root_good (nthc out' m) else good (nthc out' m) m.
  Proof.
    induction l as [|n l IH]; intros out done HL Hlf E Hd.
    - exists out. split; auto. intros m Hm. apply Hd. rewrite E, app_nil_r in Hm. auto.
    - assert (Hn : node t n) by (apply (in_bottom_up t r T); rewrite E; apply in_or_app; simpl; auto).
      destruct (dot_step n out Hn HL Hlf) as (A & HA' & HG).
      { intros c Hc. apply in_children in Hc; auto. pose proof (topo_bottom_up t r T done n l c E Hc) as Hin.
        pose proof (Hd c Hin) as Hg. destruct (Nat.eqb_spec c r) as [Ec|]; auto. rewrite Ec in Hc. exfalso. apply (rt_no_edge t r T n Hc). }
      cbn [ofold]. rewrite HA'.
      pose proof (NoDup_bottom_up t) as ND. rewrite E in ND. apply NoDup_remove_2 in ND.
      assert (Hneq : forall m, node t m -> m <> n -> nthc (upd (n - 1) A out) m = nthc out m) by (intros m Hm Hmn; apply nthc_setc_neq; auto; [apply Hn|apply Hm]).
      assert (Heq : nthc (upd (n - 1) A out) n = A) by (apply nthc_setc_eq; rewrite HL; apply Hn).
      apply (IH (upd (n - 1) A out) (done ++ [n])).
      + rewrite upd_length. auto.
      + intros m Hm. destruct (Nat.eq_dec m n) as [Em|Hmn].
        * rewrite Em, Heq. destruct (Nat.eqb_spec n r) as [En|]; auto. exfalso. rewrite Em in Hm. apply (leaf_ne n Hm En).
        * rewrite Hneq; auto. apply (leaf_node t r V m Hm).
      + rewrite <- app_assoc. auto.
      + intros m Hm. apply in_app_iff in Hm. destruct Hm as [Hm|[<-|[]]].
        * assert (Hmn : m <> n) by (intros ->; apply ND; apply in_or_app; auto).
          assert (Hnm : node t m) by (apply (in_bottom_up t r T); rewrite E; apply in_or_app; auto). rewrite Hneq by auto. apply (Hd m Hm).
        * rewrite Heq. exact HG.
  Qed.
  Theorem tb_dot_metric_val : exists A, tb_dot_metric X Y Ms = Some A /\ shape A = exts X r ++ exts Y r /\
    forall e e', valid (exts X r) e -> valid (exts Y r) e' ->
      get A (e ++ e') = bsum (tb_shape X) (fun is => bsum (tb_shape Y) (fun js => tval X r is e * factors Ms is js * tval Y r js e')).
  Proof.
    unfold tb_dot_metric. rewrite HLM, Nat.eqb_refl. destruct leaves_fold as (out & HF & HL & HG). fold t. cbv zeta. rewrite HF. cbn [bind].
    destruct (dot_fold (bottom_up t) out [] HL HG eq_refl) as (out' & HF' & HG'); [intros m []|]. rewrite HF'. cbn [bind].
    rewrite (root_eq t r T). eexists. split; [reflexivity|].
    assert (Hr : In r (bottom_up t)) by (apply (in_bottom_up t r T); apply T). specialize (HG' r Hr). rewrite Nat.eqb_refl in HG'. destruct HG' as [HS HV].
    split; auto. intros e e' He He'. rewrite HV by auto. apply gram_root.
  Qed.
End Dot.
