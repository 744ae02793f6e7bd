(** orth_at_node: the tensors with the same cores outside the sub-tree of the node. *)
From Coq Require Import List Arith Lia Bool Reals Lra Permutation.
From Verif.Base Require Import ListAux CRing Index RealAux LinAlg.
From Verif.Model Require Import Sorting Numpy FullTensor Diagonal Canonical DimensionTree TreeBased Truncator HSVD HsvdTree OrthNode.
From Verif.Spec Require Import TensorSpec TreeSpec TreeTensorSpec TruncatorSpec GramSpec LearningSpec FunctionalSpec OrthNodeSpec.
From Verif.Proofs Require Import NumpyP FullTensorP FullTensorP4 DimTreeP DimTreeP2 TreeTensorP TreeTensorP2 TreeTensorP3 TreeTensorP4 TreeTensorP6 TreeTensorP7 TreeTensorP12 TreeTensorP13 TreeTensorP14 TreeTensorP15 TreeTensorP29 PolyP5 HsvdP2 HsvdTreeP1 HsvdTreeP2 HsvdTreeP3 HsvdTreeP4 HsvdTreeP5 HsvdTreeP9 HsvdTreeP10 OrthNodeP1 OrthNodeP2.
Import ListNotations.
Local Open Scope R_scope.

Lemma gram_one qr (X : tbt R) r is_orth n : qr_contract qr -> tb_ok X r -> (2 <= tb_order X)%nat ->
  (is_orth = true -> forall n, node (ttree X) n -> active X n = true -> n <> r -> orth_cols (core X n)) ->
  node (ttree X) n -> active X n = true -> n <> r ->
  exists G Z, tb_gramians qr is_orth X (Some [n]) = Some ([Some G], Z) /\ (if is_orth then Some X else tb_orth qr X) = Some Z /\ same_val X Z r /\
    (forall m, node (ttree X) m -> active Z m = active X m) /\ (forall m, node (ttree X) m -> active X m = true -> m <> r -> orth_cols (core Z m)) /\ good Z r n G.
Proof.
  intros QR O H2 HF Hn Ha NE. pose proof (proj1 O) as V. pose proof (proj1 V) as T.
  assert (HZ : exists Z, (if is_orth then Some X else tb_orth qr X) = Some Z /\ same_val X Z r /\ (forall n, node (ttree X) n -> active Z n = active X n) /\ (forall n, node (ttree X) n -> active X n = true -> n <> r -> orth_cols (core Z n))).
  { destruct is_orth.
    - exists X. split; auto. split; [apply same_val_refl; auto|]. split; auto.
    - exact (tb_orth_spec qr X r QR O). }
  destruct HZ as (Z & EZ & SV & AZ & CZ). pose proof (proj1 SV) as OZ. pose proof (proj1 (proj2 SV)) as TZ.
  assert (H2' : (2 <= tb_order Z)%nat) by (unfold tb_order; rewrite TZ; exact H2).
  assert (HO : forall n, node (ttree Z) n -> active Z n = true -> n <> r -> orth_cols (core Z n)) by (rewrite TZ; intros m Hm Hm' NEm; rewrite AZ in Hm' by auto; auto).
  set (an := filter (active Z) (nodes (ttree X))).
  set (ml := list_max (map (level (ttree X)) [n])).
  set (ln := filter (fun m => inb m (flat_map (ascendants (ttree X)) [n] ++ [n])) an).
  assert (Ian : forall m, In m an <-> node (ttree X) m /\ active X m = true).
  { intros m. unfold an. rewrite filter_In, in_nodes. split; intros [K1 K2]; split; auto; rewrite AZ in *; auto. }
  assert (Iln : forall m, In m ln <-> node (ttree X) m /\ active X m = true /\ below (ttree X) m n).
  { intros m. unfold ln. rewrite filter_In, Ian, inb_spec. cbn [flat_map]. rewrite app_nil_r, in_app_iff. rewrite (proj1 (proj2 (ascendants_spec (ttree X) r T n Hn))). cbn [In]. split.
    - intros [[K1 K2] [K3|[<-|[]]]]; split; auto; split; auto; [tauto|apply below_refl].
    - intros (K1 & K2 & K3). split; auto. destruct (Nat.eq_dec n m) as [->|NEm]; auto. }
  destruct (gram_loop Z r OZ H2' HO ln ml) as (g & E1 & E2 & E3 & E4 & E5).
  - intros m Hm. apply Iln in Hm. rewrite TZ. rewrite AZ by tauto. tauto.
  - rewrite TZ. intros m Hm NEm. apply Iln in Hm. destruct Hm as (Hm & Hma & K). pose proof (parent_is_edge _ r T m Hm NEm) as He. apply Iln. split; [apply He|]. split.
    + apply (ok_internal X r O); [apply He|]. apply (int_of_edge X r O _ m He).
    + apply below_step. right. exists m. auto.
  - rewrite TZ. intros m Hm. apply Iln in Hm. destruct Hm as (Hm & Hma & d & Hd). unfold ml. pose proof (level_below (ttree X) r T m n d Hm Hd). cbn [map list_max fold_right]. apply Nat.le_trans with (level (ttree X) n); [lia|]. cbn. lia.
  - rewrite TZ in E1, E2, E4, E5. unfold one11 in *. destruct (E4 n Hn NE) as (G & EG & HG); [apply Iln; split; auto; split; auto; apply below_refl|].
    exists G, Z. split; [|auto 10]. unfold tb_gramians. cbv zeta. rewrite EZ. cbn [bind]. fold an. fold ml. fold ln. rewrite E1. cbn [bind map]. rewrite EG. reflexivity.
Qed.

Section Back.
  Variables (Z : tbt R) (r : nat).
  Hypothesis O : tb_ok Z r.
  Hypothesis H2 : (2 <= tb_order Z)%nat.
  Local Notation t := (ttree Z).
  Let V : dim_tree t r := proj1 O.
  Let T : rooted_tree t r := proj1 V.
  Variables (n a : nat) (W : list nat -> list nat -> list nat -> R) (S : nat -> nat -> R) (s1 s2 : list nat) (P : nd R).
  Hypothesis Hn : node t n.
  Hypothesis Ha : active Z n = true.
  Hypothesis NE : n <> r.
  Hypothesis Ap : (0 < a)%nat.
  Hypothesis FW : fact Z r n W.
  Let p := parent t n.
  Let K := csize Z n.
  Hypothesis L1 : length s1 = index_of n (children t p).
  Hypothesis Hsp : shape (core Z p) = s1 ++ K :: s2.
  Hypothesis SP : shape P = s1 ++ a :: s2.
  Hypothesis VP : forall a1 i a2, valid s1 a1 -> (i < a)%nat -> valid s2 a2 -> get P (a1 ++ i :: a2) = rsum K (fun k => S i k * get (core Z p) (a1 ++ k :: a2)).
  Definition outer (Y : tbt R) : Prop := ttree Y = t /\ length (cores Y) = nbn t /\ (forall m, node t m -> ~ below t n m -> m <> p -> core Y m = core Z m) /\
    (forall m, node t m -> m <> n -> m <> p -> shape (core Y m) = shape (core Z m)) /\ shape (core Y n) = heads Z n ++ [a] /\ core Y p = P.
  Let He : edge t p n.
  Proof. apply (parent_is_edge _ r T n Hn NE). Qed.
  Let Hpn : p <> n.
  Proof. intros E. pose proof (level_edge _ r T p n He) as HL. rewrite E in HL. lia. Qed.
  Let Hp : node t p.
  Proof. apply He. Qed.
  Lemma hsn : shape (core Z n) = heads Z n ++ [K].
  Proof.
    assert (Ec : K = last (shape (core Z n)) 0%nat) by (unfold K, csize; rewrite Ha; auto). rewrite Ec, (ok_shape Z n Hn Ha) at 1. f_equal. apply (ok_exts_rank Z r O n Hn Ha NE).
  Qed.
  Lemma leaf_bound is mu : valid (tb_shape Z) is -> is_leaf t n = true -> mu = index_of n (d2i t) -> (nth mu is 0 < nth 0 (heads Z n) 0)%nat.
  Proof.
    intros Hi Hl ->. pose proof (heads_leaf Z r O n Hl Ha) as Hh. pose proof (valid_leaf_index Z is n Hi Hl) as Hlt. rewrite Hh. cbn [nth]. unfold tb_size in Hlt. rewrite Ha in Hlt. auto.
  Qed.
  Lemma back Y : outer Y -> tb_ok Y r /\ tb_shape Y = tb_shape Z /\ exts Y r = exts Z r /\ (forall m, node t m -> active Y m = active Z m) /\
    forall is e, valid (tb_shape Z) is -> valid (exts Z r) e -> tval Y r is e = rsum a (fun c => tval Y n is [c] * rsum K (fun k => S c k * W [k] is e)).
  Proof.
    intros (YT & YL & YO & YS & Yn & Yp). pose proof (ok_cores_length Z r O) as LC. pose proof hsn as Hsn.
    set (Q := ND (heads Z n ++ [K]) (fun ks => rsum a (fun j => S j (last ks 0%nat) * get (core Y n) (removelast ks ++ [j])))).
    set (Z' := TB t (setc p (core Z p) (setc n Q (cores Y)))).
    assert (Hcore : forall m, node t m -> core Z' m = if (m =? p)%nat then core Z p else if (m =? n)%nat then Q else core Y m).
    { intros m Hm. unfold core at 1, Z'. cbn [cores]. unfold node in *. rewrite nthc_setc by (rewrite ?setc_length; lia). destruct (Nat.eqb_spec m p); auto. apply nthc_setc; lia. }
    assert (Hcp : core Z' p = core Z p) by (rewrite Hcore, Nat.eqb_refl; auto).
    assert (Hcn : core Z' n = Q) by (rewrite Hcore, Nat.eqb_refl by auto; destruct (Nat.eqb_spec n p); [congruence|auto]).
    assert (LZ : length (cores Z') = nbn t) by (unfold Z'; cbn [cores]; rewrite !setc_length; auto).
    assert (SZ : forall m, node t m -> shape (core Z' m) = shape (core Z m)).
    { intros m Hm. rewrite Hcore by auto. destruct (Nat.eqb_spec m p) as [->|N1]; auto. destruct (Nat.eqb_spec m n) as [->|N2]; auto. }
    destruct (ok_same_shape Z Z' r O eq_refl LZ SZ) as (OZ & HSZ & HEZ).
    assert (AZ' : active Z' n = true) by (rewrite (active_shape_eq Z' Z n n); auto).
    assert (Anz : active Y n = true).
    { apply active_prod. rewrite Yn, prodn_app. simpl. pose proof Ha as Ha'. apply active_prod in Ha'. rewrite Hsn, prodn_app in Ha'. simpl in Ha'. intros E. apply Ha'. destruct (prodn (heads Z n)); simpl in *; lia. }
    assert (GV : forall is c, valid (tb_shape Z) is -> (c < K)%nat -> tval Z' n is [c] = rsum a (fun l => S l c * tval Y n is [l])).
    { intros is c Hi Hc. assert (VY : dim_tree (ttree Y) r) by (rewrite YT; exact V). rewrite YT in *. apply (node_val Y Z' r n a K (fun l c => S l c) (heads Z n)); auto; rewrite ?YT; auto.
      - apply (ok_heads_length Z r O n Hn Ha).
      - rewrite Hcn. auto.
      - intros ks d Hk Hd. rewrite Hcn. unfold Q. cbn [get]. rewrite last_last, removelast_last. auto.
      - intros m Hm Hb Nm. rewrite Hcore by auto. destruct (Nat.eqb_spec m p) as [E|N1]; [exfalso; apply (not_below_up Z r O H2 p n He); rewrite <- E; exact Hb|]. destruct (Nat.eqb_spec m n); [contradiction|auto].
      - intros mu. apply (leaf_bound is mu Hi). }
    assert (GA : gauge Z' Y p n a K S).
    { constructor; auto.
      - intros m Hm N1 N2. rewrite Hcore by auto. destruct (Nat.eqb_spec m p); [contradiction|]. destruct (Nat.eqb_spec m n); [contradiction|auto].
      - exists s1, s2. split; auto. rewrite Hcp, Yp. auto.
      - split; auto. left. rewrite Yn. f_equal. unfold heads. rewrite SZ by auto. auto.
      - intros is Hi k Hk. rewrite HSZ in Hi. rewrite GV by auto. apply rsum_ext_R. intros. rcbn. ring. }
    pose proof (gauge_same Z' Y r p n a K S OZ GA) as (OY & TY & ShY & ExY & VY).
    split; auto. split; [congruence|]. split; [congruence|]. split.
    { intros m Hm. destruct (Nat.eq_dec m n) as [->|Nm]; [congruence|]. rewrite (ga_active Z' Y r p n a K S OZ GA m Hm Nm). apply (active_shape_eq Z' Z m m). auto. }
    intros is e Hi He'. rewrite VY by (rewrite ?HSZ, ?HEZ; auto).
    rewrite (proj2 FW Z'); auto.
    - rewrite (exts_n Z r O n Hn Ha NE). cbn [bsum]. fold K.
      rewrite (rsum_ext_R _ _ (fun k => rsum a (fun c => tval Y n is [c] * (S c k * W [k] is e)))).
      + rewrite rsum_swap_R. apply rsum_ext_R. intros c _. rewrite rsum_scal_l_R. auto.
      + intros k Hk. rewrite GV by auto. rewrite <- rsum_scal_r_R. apply rsum_ext_R. intros. ring.
    - split; auto. split; auto. split; auto. intros m Hm Hb. rewrite Hcore by auto. destruct (Nat.eqb_spec m p) as [->|N1]; auto. destruct (Nat.eqb_spec m n) as [->|N2]; [exfalso; apply Hb, below_refl|auto].
  Qed.
End Back.
