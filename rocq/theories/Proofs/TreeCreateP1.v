(** Tree-based tensors: direct sums (cat). *)
From Coq Require Import List Arith Lia Bool ZArith Ring Permutation.
From Verif.Base Require Import ListAux CRing Index.
From Verif.Model Require Import Sorting Numpy FullTensor DimensionTree TreeBased TreeCreate.
From Verif.Spec Require Import TensorSpec TreeSpec TreeTensorSpec.
From Verif.Proofs Require Import NumpyP FullTensorP FullTensorP2 FullTensorP3 FullTensorP4 DimTreeP DimTreeP2 DimTreeP3 TreeTensorP TreeTensorP2 TreeTensorP3 TreeTensorP4 TreeTensorP5 TreeTensorP6 TreeTensorP7 TreeTensorP8.
Import ListNotations.

Lemma forallb_flat {A B} (f : B -> bool) (g : A -> list B) l : forallb f (flat_map g l) = forallb (fun a => forallb f (g a)) l.
Proof. induction l as [|x l IH]; cbn; auto. rewrite forallb_app, IH. auto. Qed.

Section LprodIf.
  Context {R : Type} {CR : CRing R}.
  Add Ring Rrlpif : rth.
  Local Open Scope cr_scope.
  Lemma lprod_if (b : nat -> bool) (f : nat * nat -> R) : forall cs ks, length cs = length ks ->
    lprod (combine cs ks) (fun p => if b (fst p) then f p else r0) = if forallb b cs then lprod (combine cs ks) f else r0.
  Proof.
    induction cs as [|c cs IH]; intros [|k ks] L; cbn in *; auto; try lia. rewrite IH by lia.
    destruct (b c), (forallb b cs); cbn [andb]; ring.
  Qed.
End LprodIf.

Section Cat.
  Context {R : Type} {CR : CRing R}.
  Add Ring Rrcat : rth.
  Local Open Scope cr_scope.
  Variables (X Y : tbt R) (r : nat).
  Hypothesis OX : tb_ok X r.
  Hypothesis OY : tb_ok Y r.
  Hypothesis HT : ttree Y = ttree X.
  Hypothesis HE : length (exts Y r) = length (exts X r).
  Hypothesis HA : forall n, node (ttree X) n -> active Y n = active X n.
  Hypothesis H2 : (2 <= tb_order X)%nat.
  Local Notation t := (ttree X).
  Let V : dim_tree t r := proj1 OX.
  Let T : rooted_tree t r := proj1 V.
  Local Notation fl := (fun _ : nat => true).

  Lemma cat_exts_length n : node t n -> active X n = true -> length (exts Y n) = length (exts X n).
  Proof.
    intros Hn Ha. destruct (Nat.eq_dec n r) as [->|Hr]; [exact HE|].
    rewrite (ok_exts X r OX n Hn Ha Hr), (ok_exts Y r OY n); rewrite ?HT, ?HA; auto.
  Qed.
  Lemma ft_cat_None (A B : nd R) : ndim A = ndim B ->
    returns (ft_cat A B None) (cat_shape (seq 0 (ndim A)) (shape A) (shape B)) (cat_entry (seq 0 (ndim A)) A B).
  Proof.
    intros E. change (ft_cat A B None) with (ft_cat A B (Some (seq 0 (ndim A)))). apply ft_cat_spec; auto.
    - apply Forall_forall. intros k Hk. apply in_seq in Hk. lia.
    - intros k Hk Hni. exfalso. apply Hni, in_seq. lia.
  Qed.
  Definition ccore (n : nat) : option (nd R) := if active X n then ft_cat (core X n) (core Y n) None else Some (core X n).

  Lemma cat_core_internal n : node t n -> is_leaf t n = false ->
    exists C, ccore n = Some C /\ shape C = map (bsz fl (asz X n) (asz Y n)) (axes X n) /\
      forall is, valid (shape C) is -> get C is =
        (if first_block fl (asz X n) (axes X n) is then get (core X n) is else r0) +
        (if second_block fl (asz X n) (axes X n) is then get (core Y n) (shiftb fl (asz X n) (axes X n) is) else r0).
  Proof.
    intros Hn Hl. pose proof (ok_internal X r OX n Hn Hl) as Ha. unfold ccore. rewrite Ha.
    pose proof (axes_shape X r H2 X n OX eq_refl Hn Hl eq_refl) as SX.
    pose proof (axes_shape X r H2 Y n OY HT Hn Hl (cat_exts_length n Hn Ha)) as SY.
    assert (HndX : ndim (core X n) = length (axes X n)) by (unfold ndim; rewrite SX, map_length; auto).
    assert (HndY : ndim (core Y n) = length (axes X n)) by (unfold ndim; rewrite SY, map_length; auto).
    destruct (ft_cat_None (core X n) (core Y n)) as (C & HC & HsC & HgC); [congruence|].
    exists C. split; auto. rewrite HndX in *.
    assert (HD1 : forall k, (k < length (axes X n))%nat -> inb k (seq 0 (length (axes X n))) = fl (nth k (axes X n) 0%nat)).
    { intros k Hk. apply inb_spec, in_seq. lia. }
    assert (HD2 : Forall (fun k => (k < length (axes X n))%nat) (seq 0 (length (axes X n)))).
    { apply Forall_forall. intros k Hk. apply in_seq in Hk. lia. }
    rewrite (cat_shape_block fl (asz X n) (asz Y n) _ _ _ _ SX SY HD1) in HsC, HgC. split; auto. intros is Hv. rewrite HsC in Hv.
    rewrite HgC by auto. apply (cat_entry_block fl (asz X n) _ _ _ _ SX HD1 HD2). rewrite (valid_length _ _ Hv), map_length. auto.
  Qed.
  Lemma leaf_shape (W : tbt R) n : tb_ok W r -> (2 <= tb_order W)%nat -> is_leaf (ttree W) n = true -> active W n = true -> shape (core W n) = [tb_size W n; csize W n].
  Proof.
    intros O HO Hl Ha. pose proof (leaf_node (ttree W) r (proj1 O) n Hl) as Hn.
    assert (Hne : n <> r) by (intros E; pose proof (root_not_leaf W r O HO) as E'; rewrite <- E in E'; congruence).
    rewrite (ok_shape W n), (heads_leaf W r O n Hl Ha), (ok_exts_rank W r O n Hn Ha Hne) by auto.
    unfold tb_size, csize. rewrite Ha. auto.
  Qed.
  Lemma cat_core_leaf n : is_leaf t n = true -> active X n = true ->
    exists C, ccore n = Some C /\ shape C = [(tb_size X n + tb_size Y n)%nat; (csize X n + csize Y n)%nat] /\
      forall i k, (i < tb_size X n + tb_size Y n)%nat -> (k < csize X n + csize Y n)%nat ->
        get C [i; k] = (if (i <? tb_size X n) && (k <? csize X n) then get (core X n) [i; k] else r0) +
                       (if (tb_size X n <=? i) && (csize X n <=? k) then get (core Y n) [(i - tb_size X n)%nat; (k - csize X n)%nat] else r0).
  Proof.
    intros Hl Ha. pose proof (leaf_node t r V n Hl) as Hn. unfold ccore. rewrite Ha.
    pose proof (leaf_shape X n OX H2 Hl Ha) as SX.
    assert (SY : shape (core Y n) = [tb_size Y n; csize Y n]).
    { apply leaf_shape; auto; [unfold tb_order; rewrite HT; auto|rewrite HT; auto|rewrite HA; auto]. }
    destruct (ft_cat_None (core X n) (core Y n)) as (C & HC & HsC & HgC); [unfold ndim; rewrite SX, SY; auto|].
    exists C. split; auto. unfold ndim in *. rewrite SX, SY in *. cbn [length seq] in *. split; [exact HsC|].
    intros i k Hi Hk. rewrite HgC by (apply NumpyP.valid_intro; [reflexivity|]; intros [|[|j]] Hj; cbn in *; lia).
    unfold cat_entry. rewrite SX. cbn [forallb nth]. rewrite !andb_true_r. cbn [length seq map inb existsb Nat.eqb orb nth]. reflexivity.
  Qed.

  Definition cat_sz (c : nat) : nat := (csize X c + csize Y c)%nat.
  Definition cat_m (c : nat) : nat := (tb_size X c + tb_size Y c)%nat.
  Definition cat_ext : list nat := map (bsz fl (asz X r) (asz Y r)) (repeat 0%nat (length (exts X r))).
  Lemma cat_axes_sz n : node t n -> is_leaf t n = false ->
    map (bsz fl (asz X n) (asz Y n)) (axes X n) = map cat_sz (children t n) ++ (if n =? r then cat_ext else [cat_sz n]).
  Proof.
    intros Hn Hl. unfold axes. rewrite map_app. f_equal.
    - apply map_ext_in. intros c Hc. destruct (child_pos X r OX H2 n c Hn Hc) as (H0 & _ & _). unfold bsz, asz, cat_sz.
      destruct (Nat.eqb_spec c 0); [contradiction|auto].
    - pose proof (ok_internal X r OX n Hn Hl) as Ha. destruct (Nat.eqb_spec n r) as [->|Hne]; [auto|].
      assert (HaY : active Y n = true) by (rewrite HA; auto).
      rewrite (ok_exts_rank X r OX n Hn Ha Hne). cbn [length repeat map]. unfold bsz, asz, cat_sz, csize. cbn [Nat.eqb].
      rewrite Ha, HaY, (ok_exts_rank X r OX n Hn Ha Hne), (ok_exts_rank Y r OY n) by (rewrite ?HT; auto). auto.
  Qed.

  Variable Z : tbt R.
  Hypothesis ZT : ttree Z = t.
  Hypothesis ZL : length (cores Z) = nbn t.
  Hypothesis ZC : forall n, node t n -> ccore n = Some (core Z n).

  Lemma cat_build_HI n : node t n -> is_leaf t n = false ->
    shape (core Z n) = map cat_sz (children t n) ++ (if n =? r then cat_ext else [cat_sz n]) /\ active Z n = true.
  Proof.
    intros Hn Hl. destruct (cat_core_internal n Hn Hl) as (C & HC & HsC & _). rewrite ZC in HC by auto. injection HC as HC.
    rewrite HC, HsC, (cat_axes_sz n Hn Hl). split; auto. apply active_prod. rewrite HC, HsC.
    intros E. apply prodn_zero in E. apply in_map_iff in E. destruct E as (c & E & Hc).
    pose proof (ok_internal X r OX n Hn Hl) as Ha. apply (active_prod X n) in Ha. apply Ha. apply prodn_zero.
    rewrite (axes_shape X r H2 X n OX eq_refl Hn Hl eq_refl). apply in_map_iff. exists c. split; auto. unfold bsz in E. lia.
  Qed.
  Lemma cat_build_leaf n : is_leaf t n = true ->
    (active X n = true -> shape (core Z n) = [cat_m n; cat_sz n] /\ active Z n = true) /\
    (active X n = false -> core Z n = core X n /\ active Z n = false /\ cat_sz n = cat_m n).
  Proof.
    intros Hl. pose proof (leaf_node t r V n Hl) as Hn. split; intros Ha.
    - destruct (cat_core_leaf n Hl Ha) as (C & HC & HsC & _). rewrite ZC in HC by auto. injection HC as HC.
      rewrite HC, HsC. split; auto. apply active_prod. rewrite HC, HsC. cbn.
      pose proof Ha as Hp. apply (active_prod X n) in Hp. rewrite (leaf_shape X n OX H2 Hl Ha) in Hp. cbn in Hp. nia.
    - pose proof (ZC n Hn) as HC. unfold ccore in HC. rewrite Ha in HC. injection HC as HC.
      split; auto. split; [rewrite <- Ha; apply active_shape_eq; rewrite HC; auto|]. unfold cat_sz, cat_m, csize. rewrite HA, Ha by auto. auto.
  Qed.
  Lemma cat_active n : node t n -> active Z n = active X n.
  Proof.
    intros Hn. destruct (is_leaf t n) eqn:Hl.
    - destruct (cat_build_leaf n Hl) as [H1 H3]. destruct (active X n); [apply H1|apply H3]; auto.
    - rewrite (ok_internal X r OX n Hn Hl). apply (cat_build_HI n Hn Hl).
  Qed.
  Lemma cat_facts : tb_ok Z r /\ tb_shape Z = map cat_m (d2i t) /\ exts Z r = cat_ext /\
    (forall n, node t n -> is_leaf t n = false -> heads Z n = map cat_sz (children t n)) /\
    (forall n, node t n -> is_leaf t n = false -> exts Z n = if n =? r then cat_ext else [cat_sz n]) /\
    (forall c, node t c -> c <> r -> csize Z c = cat_sz c).
  Proof.
    assert (P1 : dim_tree (ttree Z) r) by (rewrite ZT; exact V).
    assert (P2 : length (cores Z) = nbn (ttree Z)) by (rewrite ZT; exact ZL).
    assert (P3 : is_leaf (ttree Z) r = false) by (rewrite ZT; apply (root_not_leaf X r OX H2)).
    assert (P4 : (length cat_ext <= 1)%nat) by (unfold cat_ext; rewrite map_length, repeat_length; apply (ok_exts_root X r OX)).
    assert (P5 : forall n, node (ttree Z) n -> is_leaf (ttree Z) n = false ->
      shape (core Z n) = map cat_sz (children (ttree Z) n) ++ (if n =? r then cat_ext else [cat_sz n]) /\ active Z n = true).
    { rewrite ZT. apply cat_build_HI. }
    assert (P6 : forall n, is_leaf (ttree Z) n = true -> active Z n = true -> shape (core Z n) = [cat_m n; cat_sz n]).
    { rewrite ZT. intros n Hl Ha. destruct (cat_build_leaf n Hl) as [H1 _]. rewrite cat_active in Ha by (apply (leaf_node t r V n Hl)). apply H1; auto. }
    assert (P7 : forall n, is_leaf (ttree Z) n = true -> active Z n = false -> cat_sz n = cat_m n).
    { rewrite ZT. intros n Hl Ha. destruct (cat_build_leaf n Hl) as [_ H1]. rewrite cat_active in Ha by (apply (leaf_node t r V n Hl)). apply H1; auto. }
    assert (Hr : node (ttree Z) r) by (rewrite ZT; apply T).
    split; [exact (build_ok Z r cat_sz cat_m cat_ext P1 P2 P3 P4 P5 P6)|].
    split; [rewrite (build_shape Z r cat_sz cat_m cat_ext P1 P2 P3 P4 P5 P6 P7), ZT; auto|].
    split; [rewrite (build_exts Z r cat_sz cat_ext P5 r Hr P3), Nat.eqb_refl; auto|].
    split; [|split]; intros n Hn Hl.
    - rewrite (build_heads Z r cat_sz cat_ext P5 n) by (rewrite ZT; auto). rewrite ZT. auto.
    - rewrite (build_exts Z r cat_sz cat_ext P5 n) by (rewrite ZT; auto). auto.
    - apply (build_csize Z r cat_sz cat_m cat_ext P1 P2 P3 P4 P5 P6); auto. rewrite ZT. auto.
  Qed.

  (** the indices of the dimensions of n are in the first / second block *)
  Definition blw (n : nat) (is : list nat) : bool := forallb (fun mu => nth mu is 0%nat <? nth mu (tb_shape X) 0%nat) (dims t n).
  Definition abv (n : nat) (is : list nat) : bool := forallb (fun mu => nth mu (tb_shape X) 0%nat <=? nth mu is 0%nat) (dims t n).
  Definition shi (is : list nat) : list nat := map (fun k => (nth k is 0 - nth k (tb_shape X) 0)%nat) (seq 0 (tb_order X)).
  Definition vX (is : list nat) (c k : nat) : R := if blw c is then tval X c is [k] else r0.
  Definition vY (is : list nat) (c k : nat) : R := if abv c is then tval Y c (shi is) [k] else r0.
  Definition vZ (is : list nat) (c k : nat) : R := tval Z c is [k].

  Lemma cat_tval_internal n is e : node t n -> is_leaf t n = false ->
    Forall (block_ok fl (asz X n) (asz Y n) (vX is) (vY is) (vZ is)) (children t n) ->
    valid (exts Z n) e ->
    tval Z n is e =
      (if blw n is && first_block fl (asz X n) (repeat 0%nat (length (exts X n))) e then tval X n is e else r0) +
      (if abv n is && second_block fl (asz X n) (repeat 0%nat (length (exts X n))) e then tval Y n (shi is) (shiftb fl (asz X n) (repeat 0%nat (length (exts X n))) e) else r0).
  Proof.
    intros Hn Hl HB He. destruct cat_facts as (OZ & SZ & EZ & HZh & HZe & _).
    assert (VZ : dim_tree (ttree Z) r) by (rewrite ZT; exact V). assert (VY : dim_tree (ttree Y) r) by (rewrite HT; exact V).
    assert (HhX : heads X n = map (csize X) (children t n)) by (apply (heads_internal X r OX n Hn Hl)).
    assert (HhY : heads Y n = map (csize Y) (children t n)) by (rewrite (heads_internal Y r OY n); rewrite HT; auto).
    rewrite (tval_internal Z r VZ n is e) by (rewrite ZT; auto). rewrite (tval_internal X r V n is e) by auto.
    rewrite (tval_internal Y r VY n (shi is)) by (rewrite HT; auto).
    rewrite (HZh n Hn Hl), HhX, HhY, HT, ZT.
    assert (EmX : map (csize X) (children t n) = map (asz X n) (children t n)).
    { apply map_ext_in. intros c Hc. destruct (child_pos X r OX H2 n c Hn Hc) as (H0 & _ & _). unfold asz. destruct (Nat.eqb_spec c 0); [contradiction|auto]. }
    assert (EmY : map (csize Y) (children t n) = map (asz Y n) (children t n)).
    { apply map_ext_in. intros c Hc. destruct (child_pos X r OX H2 n c Hn Hc) as (H0 & _ & _). unfold asz. destruct (Nat.eqb_spec c 0); [contradiction|auto]. }
    assert (EmZ : map cat_sz (children t n) = map (bsz fl (asz X n) (asz Y n)) (children t n)).
    { apply map_ext_in. intros c Hc. destruct (child_pos X r OX H2 n c Hn Hc) as (H0 & _ & _). unfold cat_sz, bsz, asz. destruct (Nat.eqb_spec c 0); [contradiction|auto]. }
    destruct (cat_core_internal n Hn Hl) as (C & HC & HsC & HgC). rewrite ZC in HC by auto. injection HC as HC. rewrite HC.
    pose proof (proj1 (cat_build_HI n Hn Hl)) as HsZ. rewrite HC in HsZ.
    set (e2 := shiftb fl (asz X n) (repeat 0%nat (length (exts X n))) e).
    pose proof (bsum_first fl (asz X n) (asz Y n) _ _ _ _ HB (fun ks => get (core X n) (ks ++ e))) as B1.
    pose proof (bsum_second fl (asz X n) (asz Y n) _ _ _ _ HB (fun ks => get (core Y n) (ks ++ e2))) as B2.
    rewrite EmX, EmY, EmZ.
    assert (B1' : bsum (map (asz X n) (children t n)) (fun ks => get (core X n) (ks ++ e) * prodv (vX is) (children t n) ks) =
       if blw n is then bsum (map (asz X n) (children t n)) (fun ks => get (core X n) (ks ++ e) * lprod (combine (children t n) ks) (fun p => tval X (fst p) is [snd p])) else r0).
    { transitivity (bsum (map (asz X n) (children t n)) (fun ks => if blw n is then get (core X n) (ks ++ e) * lprod (combine (children t n) ks) (fun p => tval X (fst p) is [snd p]) else r0)).
      - apply bsum_ext. intros ks Hks. assert (Lks : length (children t n) = length ks) by (rewrite (valid_length _ _ Hks), map_length; auto).
        unfold prodv, vX. rewrite (lprod_if (fun c => blw c is) (fun p => tval X (fst p) is [snd p])) by auto.
        replace (forallb (fun c => blw c is) (children t n)) with (blw n is); [destruct (blw n is); ring|].
        unfold blw. rewrite (dims_internal t r V n Hn Hl), forallb_flat. auto.
      - destruct (blw n is); [auto|apply bsum_zero; auto]. }
    assert (B2' : bsum (map (asz Y n) (children t n)) (fun ks => get (core Y n) (ks ++ e2) * prodv (vY is) (children t n) ks) =
       if abv n is then bsum (map (asz Y n) (children t n)) (fun ks => get (core Y n) (ks ++ e2) * lprod (combine (children t n) ks) (fun p => tval Y (fst p) (shi is) [snd p])) else r0).
    { transitivity (bsum (map (asz Y n) (children t n)) (fun ks => if abv n is then get (core Y n) (ks ++ e2) * lprod (combine (children t n) ks) (fun p => tval Y (fst p) (shi is) [snd p]) else r0)).
      - apply bsum_ext. intros ks Hks. assert (Lks : length (children t n) = length ks) by (rewrite (valid_length _ _ Hks), map_length; auto).
        unfold prodv, vY. rewrite (lprod_if (fun c => abv c is) (fun p => tval Y (fst p) (shi is) [snd p])) by auto.
        replace (forallb (fun c => abv c is) (children t n)) with (abv n is); [destruct (abv n is); ring|].
        unfold abv. rewrite (dims_internal t r V n Hn Hl), forallb_flat. auto.
      - destruct (abv n is); [auto|apply bsum_zero; auto]. }
    cbv beta in B1, B2. rewrite B1' in B1. rewrite B2' in B2. clear B1' B2'.
    set (fe := first_block fl (asz X n) (repeat 0%nat (length (exts X n))) e).
    set (se := second_block fl (asz X n) (repeat 0%nat (length (exts X n))) e).
    transitivity ((if fe then if blw n is then bsum (map (asz X n) (children t n)) (fun ks => get (core X n) (ks ++ e) * lprod (combine (children t n) ks) (fun p => tval X (fst p) is [snd p])) else r0 else r0) +
                  (if se then if abv n is then bsum (map (asz Y n) (children t n)) (fun ks => get (core Y n) (ks ++ e2) * lprod (combine (children t n) ks) (fun p => tval Y (fst p) (shi is) [snd p])) else r0 else r0));
      [|destruct fe, se, (blw n is), (abv n is); cbn [andb]; auto].
    rewrite <- B1, <- B2. unfold prodv, vZ.
    transitivity (bsum (map (bsz fl (asz X n) (asz Y n)) (children t n)) (fun ks =>
       (if fe then (if first_block fl (asz X n) (children t n) ks then get (core X n) (ks ++ e) else r0) * lprod (combine (children t n) ks) (fun p => tval Z (fst p) is [snd p]) else r0) +
       (if se then (if second_block fl (asz X n) (children t n) ks then get (core Y n) (shiftb fl (asz X n) (children t n) ks ++ e2) else r0) * lprod (combine (children t n) ks) (fun p => tval Z (fst p) is [snd p]) else r0))).
    - apply bsum_ext. intros ks Hks. assert (Lks : length (children t n) = length ks) by (rewrite (valid_length _ _ Hks), map_length; auto).
      rewrite HgC.
      + unfold axes. rewrite first_block_app, second_block_app, shiftb_app by auto. fold fe se e2.
        destruct fe, se, (first_block fl (asz X n) (children t n) ks), (second_block fl (asz X n) (children t n) ks); cbn [andb]; ring.
      + rewrite HsZ. apply valid_app; [rewrite EmZ; auto|]. rewrite <- (HZe n Hn Hl). auto.
    - rewrite bsum_plus. f_equal; [destruct fe|destruct se]; auto; apply bsum_zero; auto.
  Qed.
  Lemma blw_leaf n is : is_leaf t n = true -> blw n is = (nth (index_of n (d2i t)) is 0 <? tb_size X n)%nat.
  Proof. intros Hl. unfold blw. rewrite (dims_leaf t r V n Hl). cbn [forallb]. rewrite andb_true_r, (tb_shape_leaf X n Hl). auto. Qed.
  Lemma abv_leaf n is : is_leaf t n = true -> abv n is = (tb_size X n <=? nth (index_of n (d2i t)) is 0)%nat.
  Proof. intros Hl. unfold abv. rewrite (dims_leaf t r V n Hl). cbn [forallb]. rewrite andb_true_r, (tb_shape_leaf X n Hl). auto. Qed.
  Lemma shi_leaf n is : is_leaf t n = true -> nth (index_of n (d2i t)) (shi is) 0%nat = (nth (index_of n (d2i t)) is 0 - tb_size X n)%nat.
  Proof.
    intros Hl. rewrite <- (tb_shape_leaf X n Hl). unfold shi. rewrite nth_map_seq; [auto|].
    apply (leaf_index t n Hl).
  Qed.
  Lemma cat_tval n : node t n -> n <> r -> forall is, valid (tb_shape Z) is ->
    block_ok fl (csize X) (csize Y) (vX is) (vY is) (vZ is) n.
  Proof.
    revert n. apply (tree_up_ind t r T (fun n => n <> r -> forall is, valid (tb_shape Z) is ->
      block_ok fl (csize X) (csize Y) (vX is) (vY is) (vZ is) n)).
    intros n Hn IH Hne is Hi. destruct cat_facts as (OZ & SZ & EZ & HZh & HZe & HZc).
    assert (VZ : dim_tree (ttree Z) r) by (rewrite ZT; exact V). assert (VY : dim_tree (ttree Y) r) by (rewrite HT; exact V).
    unfold block_ok. destruct (is_leaf t n) eqn:Hl.
    - assert (Hlt : (nth (index_of n (d2i t)) is 0 < cat_m n)%nat).
      { assert (HlZ : is_leaf (ttree Z) n = true) by (rewrite ZT; auto). pose proof (valid_leaf_index Z is n Hi HlZ) as Hlt. rewrite ZT in Hlt.
        rewrite <- (tb_shape_leaf Z n HlZ), SZ, ZT in Hlt. destruct (leaf_index t n Hl) as [L1 L2].
        rewrite map_nth_in with (da := 0%nat) in Hlt by auto. rewrite L2 in Hlt. auto. }
      unfold vX, vY, vZ. rewrite (blw_leaf n is Hl), (abv_leaf n is Hl). unfold cat_m in Hlt.
      destruct (active X n) eqn:Ha.
      + assert (HaZ : active Z n = true) by (rewrite cat_active; auto). assert (HaY : active Y n = true) by (rewrite HA; auto).
        destruct (cat_core_leaf n Hl Ha) as (C & HC & HsC & HgC). rewrite ZC in HC by auto. injection HC as HC.
        split; intros k Hk.
        * rewrite (tval_leaf Z r VZ) by (rewrite ?ZT; auto). rewrite (tval_leaf X r V) by auto. rewrite ZT, HC, HgC by (auto; lia).
          destruct (Nat.ltb_spec k (csize X n)); [|lia]. destruct (Nat.leb_spec (csize X n) k); [lia|]. rewrite andb_true_r, andb_false_r. ring.
        * rewrite (tval_leaf Z r VZ) by (rewrite ?ZT; auto). rewrite (tval_leaf Y r VY) by (rewrite ?HT; auto). rewrite ZT, HT, HC, HgC by (auto; lia).
          rewrite (shi_leaf n is Hl).
          destruct (Nat.ltb_spec (csize X n + k) (csize X n)); [lia|]. destruct (Nat.leb_spec (csize X n) (csize X n + k)); [|lia].
          replace (csize X n + k - csize X n)%nat with k by lia. rewrite andb_true_r, andb_false_r. ring.
      + assert (HaZ : active Z n = false) by (rewrite cat_active; auto). assert (HaY : active Y n = false) by (rewrite HA; auto).
        assert (EX : csize X n = tb_size X n) by (unfold csize; rewrite Ha; auto).
        assert (EY : csize Y n = tb_size Y n) by (unfold csize; rewrite HaY; auto).
        split; intros k Hk.
        * rewrite (tval_inactive Z r VZ) by (rewrite ?ZT; auto). rewrite (tval_inactive X r V) by auto. rewrite ZT. cbn [list_eqb]. rewrite andb_true_r.
          destruct (Nat.ltb_spec (nth (index_of n (d2i t)) is 0%nat) (tb_size X n)); auto. destruct (Nat.eqb_spec k (nth (index_of n (d2i t)) is 0%nat)); [lia|auto].
        * rewrite (tval_inactive Z r VZ) by (rewrite ?ZT; auto). rewrite (tval_inactive Y r VY) by (rewrite ?HT; auto). rewrite ZT, HT. cbn [list_eqb]. rewrite !andb_true_r.
          rewrite (shi_leaf n is Hl), EX.
          destruct (Nat.leb_spec (tb_size X n) (nth (index_of n (d2i t)) is 0%nat)).
          -- destruct (Nat.eqb_spec (tb_size X n + k) (nth (index_of n (d2i t)) is 0%nat)), (Nat.eqb_spec k (nth (index_of n (d2i t)) is 0 - tb_size X n)%nat); try lia; auto.
          -- destruct (Nat.eqb_spec (tb_size X n + k) (nth (index_of n (d2i t)) is 0%nat)); [lia|auto].
    - pose proof (ok_internal X r OX n Hn Hl) as Ha. assert (HaY : active Y n = true) by (rewrite HA; auto).
      assert (HB : Forall (block_ok fl (asz X n) (asz Y n) (vX is) (vY is) (vZ is)) (children t n)).
      { apply Forall_forall. intros c Hc. destruct (child_pos X r OX H2 n c Hn Hc) as (H0 & Hce & Hcr). pose proof (IH c Hce Hcr is Hi) as HB.
        unfold block_ok, asz in *. destruct (Nat.eqb_spec c 0); [contradiction|]. exact HB. }
      assert (Eb : exts X n = [csize X n]) by (unfold csize; rewrite Ha; apply (ok_exts_rank X r OX n Hn Ha Hne)).
      split; intros k Hk; unfold vX, vY, vZ.
      + rewrite (cat_tval_internal n is [k] Hn Hl HB).
        * rewrite Eb. cbn [length repeat]. unfold first_block, second_block, asz. cbn -[Nat.ltb Nat.leb].
          rewrite Eb. cbn -[Nat.ltb Nat.leb]. destruct (Nat.ltb_spec k (csize X n)), (Nat.leb_spec (csize X n) k); try lia. cbn [andb]. rewrite andb_true_r, andb_false_r. ring.
        * rewrite (HZe n Hn Hl). destruct (Nat.eqb_spec n r); [contradiction|]. unfold cat_sz. apply NumpyP.valid_intro; [auto|]. intros [|j] Hj; cbn in *; lia.
      + rewrite (cat_tval_internal n is [(csize X n + k)%nat] Hn Hl HB).
        * rewrite Eb. cbn [length repeat]. unfold first_block, second_block, shiftb, asz. cbn -[Nat.ltb Nat.leb].
          rewrite Eb. cbn -[Nat.ltb Nat.leb]. destruct (Nat.ltb_spec (csize X n + k) (csize X n)), (Nat.leb_spec (csize X n) (csize X n + k)); try lia. cbn [andb].
          replace (csize X n + k - csize X n)%nat with k by lia. rewrite andb_true_r, andb_false_r. ring.
        * rewrite (HZe n Hn Hl). destruct (Nat.eqb_spec n r); [contradiction|]. unfold cat_sz. apply NumpyP.valid_intro; [auto|]. intros [|j] Hj; cbn in *; lia.
  Qed.
  Lemma cat_tval_root is e : valid (tb_shape Z) is -> valid (exts Z r) e ->
    tval Z r is e = (if blw r is && first_block fl (asz X r) (repeat 0%nat (length (exts X r))) e then tval X r is e else r0) +
      (if abv r is && second_block fl (asz X r) (repeat 0%nat (length (exts X r))) e then tval Y r (shi is) (shiftb fl (asz X r) (repeat 0%nat (length (exts X r))) e) else r0).
  Proof.
    intros Hi He. assert (Hr : node t r) by apply T. pose proof (root_not_leaf X r OX H2) as Hl.
    apply (cat_tval_internal r is e Hr Hl); auto.
    apply Forall_forall. intros c Hc. destruct (child_pos X r OX H2 r c Hr Hc) as (H0 & Hce & Hcr). pose proof (cat_tval c (proj1 (proj2 Hce)) Hcr is Hi) as HB.
    unfold block_ok, asz in *. destruct (Nat.eqb_spec c 0); [contradiction|]. exact HB.
  Qed.
End Cat.
