(** Tree-based tensors: sums. *)
From Coq Require Import List Arith Lia Bool ZArith Ring Permutation.
From Verif.Base Require Import ListAux CRing Index.
From Verif.Model Require Import Sorting Numpy FullTensor DimensionTree TreeBased.
From Verif.Spec Require Import TensorSpec TreeSpec TreeTensorSpec.
From Verif.Proofs Require Import NumpyP FullTensorP FullTensorP2 FullTensorP3 FullTensorP4 DimTreeP DimTreeP2 DimTreeP3 TreeTensorP TreeTensorP2 TreeTensorP3 TreeTensorP4 TreeTensorP5 TreeTensorP6 TreeTensorP7.
Import ListNotations.

Section Block.
  Context {R : Type} {CR : CRing R}.
  Add Ring Rrbl : rth.
  Local Open Scope cr_scope.
  Variables (fl : nat -> bool) (a b : nat -> nat) (vX vY vZ : nat -> nat -> R).
  Definition bsz (c : nat) : nat := if fl c then (a c + b c)%nat else a c.
  Definition first_block (cs ks : list nat) : bool := forallb (fun p => negb (fl (fst p)) || (snd p <? a (fst p))) (combine cs ks).
  Definition second_block (cs ks : list nat) : bool := forallb (fun p => negb (fl (fst p)) || (a (fst p) <=? snd p)) (combine cs ks).
  Definition shiftb (cs ks : list nat) : list nat := map (fun p => if fl (fst p) then (snd p - a (fst p))%nat else snd p) (combine cs ks).
  Definition prodv (v : nat -> nat -> R) (cs ks : list nat) : R := lprod (combine cs ks) (fun p => v (fst p) (snd p)).
  Definition block_ok (c : nat) : Prop :=
    if fl c then (forall k, (k < a c)%nat -> vZ c k = vX c k) /\ (forall k, (k < b c)%nat -> vZ c (a c + k)%nat = vY c k)
    else b c = a c /\ forall k, (k < a c)%nat -> vZ c k = vX c k /\ vZ c k = vY c k.

  Lemma bsum_first cs : Forall block_ok cs -> forall f,
    bsum (map bsz cs) (fun ks => (if first_block cs ks then f ks else r0) * prodv vZ cs ks) = bsum (map a cs) (fun ks => f ks * prodv vX cs ks).
  Proof.
    induction 1 as [|c cs Hc Hcs IH]; intros f; [cbn; auto|]. cbn [map bsum]. unfold block_ok in Hc. unfold bsz at 1.
    destruct (fl c) eqn:E.
    - rewrite rsum_add. rewrite (rsum_zero (b c)).
      + rewrite <- (Radd_0_l rth (rsum (a c) (fun j => bsum (map a cs) _))). rewrite (Radd_comm rth). f_equal. apply rsum_ext. intros k Hk.
        unfold first_block, prodv. cbn [combine forallb lprod fst snd]. rewrite E. destruct (Nat.ltb_spec k (a c)); [|lia]. cbn [negb orb andb].
        rewrite (proj1 Hc k Hk). specialize (IH (fun ks => f (k :: ks) * vX c k)). unfold first_block, prodv in IH.
        etransitivity; [|etransitivity; [exact IH|]]; apply bsum_ext; intros ks _; [destruct (forallb _ _); ring|ring].
      + intros k Hk. apply bsum_zero. intros ks _. unfold first_block. cbn [combine forallb fst snd]. rewrite E.
        destruct (Nat.ltb_spec (a c + k) (a c)); [lia|]. cbn. ring.
    - apply rsum_ext. intros k Hk. unfold first_block, prodv. cbn [combine forallb lprod fst snd]. rewrite E. cbn [negb orb andb].
      rewrite (proj1 (proj2 Hc k Hk)). specialize (IH (fun ks => f (k :: ks) * vX c k)). unfold first_block, prodv in IH.
      etransitivity; [|etransitivity; [exact IH|]]; apply bsum_ext; intros ks _; [destruct (forallb _ _); ring|ring].
  Qed.
  Lemma bsum_second cs : Forall block_ok cs -> forall f,
    bsum (map bsz cs) (fun ks => (if second_block cs ks then f (shiftb cs ks) else r0) * prodv vZ cs ks) = bsum (map b cs) (fun ks => f ks * prodv vY cs ks).
  Proof.
    induction 1 as [|c cs Hc Hcs IH]; intros f; [cbn; auto|]. cbn [map bsum]. unfold block_ok in Hc. unfold bsz at 1.
    destruct (fl c) eqn:E.
    - rewrite rsum_add. rewrite (rsum_zero (a c)).
      + rewrite (Radd_0_l rth). apply rsum_ext. intros k Hk.
        unfold second_block, prodv, shiftb. cbn [combine forallb lprod fst snd map]. rewrite E. destruct (Nat.leb_spec (a c) (a c + k)); [|lia]. cbn [negb orb andb].
        rewrite (proj2 Hc k Hk). replace (a c + k - a c)%nat with k by lia. specialize (IH (fun ks => f (k :: ks) * vY c k)). unfold second_block, prodv, shiftb in IH.
        etransitivity; [|etransitivity; [exact IH|]]; apply bsum_ext; intros ks _; [destruct (forallb _ _); ring|ring].
      + intros k Hk. apply bsum_zero. intros ks _. unfold second_block. cbn [combine forallb fst snd]. rewrite E.
        destruct (Nat.leb_spec (a c) k); [lia|]. cbn. ring.
    - destruct Hc as [Hab Hc]. rewrite Hab. apply rsum_ext. intros k Hk. unfold second_block, prodv, shiftb. cbn [combine forallb lprod fst snd map]. rewrite E. cbn [negb orb andb].
      rewrite (proj2 (Hc k Hk)). specialize (IH (fun ks => f (k :: ks) * vY c k)). unfold second_block, prodv, shiftb in IH.
      etransitivity; [|etransitivity; [exact IH|]]; apply bsum_ext; intros ks _; [destruct (forallb _ _); ring|ring].
  Qed.
End Block.

Section CatBlock.
  Context {R : Type} {CR : CRing R}.
  Add Ring Rrcb : rth.
  Local Open Scope cr_scope.
  Lemma in_combine_nth {A B} (da : A) (db : B) (l : list A) (l' : list B) p : length l = length l' ->
    (In p (combine l l') <-> exists k, (k < length l)%nat /\ p = (nth k l da, nth k l' db)).
  Proof.
    intros L. split.
    - intros Hi. apply In_nth with (d := (da, db)) in Hi. destruct Hi as (k & Hk & E). rewrite combine_length in Hk. exists k. split; [lia|].
      rewrite combine_nth in E by auto. auto.
    - intros (k & Hk & ->). rewrite <- combine_nth by auto. apply nth_In. rewrite combine_length. lia.
  Qed.
  Variables (fl : nat -> bool) (a b : nat -> nat).
  Variables (A B : nd R) (axes D : list nat).
  Hypothesis HA : shape A = map a axes.
  Hypothesis HB : shape B = map b axes.
  Hypothesis HD : forall k, (k < length axes)%nat -> inb k D = fl (nth k axes 0%nat).
  Hypothesis HD' : Forall (fun k => (k < length axes)%nat) D.

  Lemma cat_shape_block : cat_shape D (shape A) (shape B) = map (bsz fl a b) axes.
  Proof.
    apply nth_ext' with (d := 0%nat); [unfold cat_shape; rewrite !map_length, seq_length, HA, map_length; auto|].
    unfold cat_shape. rewrite map_length, seq_length, HA, map_length. intros k Hk. rewrite nth_map_seq by auto. cbn [plus]. rewrite HD by auto.
    rewrite HB, !map_nth_in with (da := 0%nat) by auto. unfold bsz. auto.
  Qed.
  Lemma cat_entry_block is : length is = length axes ->
    cat_entry D A B is = (if first_block fl a axes is then get A is else r0) + (if second_block fl a axes is then get B (shiftb fl a axes is) else r0).
  Proof.
    intros L. unfold cat_entry. rewrite HA.
    assert (E1 : forallb (fun k => nth k is 0%nat <? nth k (map a axes) 0%nat) D = first_block fl a axes is).
    { apply Bool.eq_iff_eq_true. unfold first_block. rewrite !forallb_forall. split.
      - intros H p Hp. apply (in_combine_nth 0%nat 0%nat) in Hp; auto. destruct Hp as (k & Hk & ->). cbn [fst snd].
        destruct (fl (nth k axes 0%nat)) eqn:E; auto. rewrite <- HD in E by auto. apply inb_spec in E. specialize (H k E).
        rewrite map_nth_in with (da := 0%nat) in H by auto. auto.
      - intros H k Hk. rewrite Forall_forall in HD'. pose proof (HD' k Hk) as Hlt. rewrite map_nth_in with (da := 0%nat) by auto.
        specialize (H (nth k axes 0%nat, nth k is 0%nat)). cbn [fst snd] in H. rewrite <- HD in H by auto.
        replace (inb k D) with true in H by (symmetry; apply inb_spec; auto). apply H. apply (in_combine_nth 0%nat 0%nat); eauto. }
    assert (E2 : forallb (fun k => nth k (map a axes) 0%nat <=? nth k is 0%nat) D = second_block fl a axes is).
    { apply Bool.eq_iff_eq_true. unfold second_block. rewrite !forallb_forall. split.
      - intros H p Hp. apply (in_combine_nth 0%nat 0%nat) in Hp; auto. destruct Hp as (k & Hk & ->). cbn [fst snd].
        destruct (fl (nth k axes 0%nat)) eqn:E; auto. rewrite <- HD in E by auto. apply inb_spec in E. specialize (H k E).
        rewrite map_nth_in with (da := 0%nat) in H by auto. auto.
      - intros H k Hk. rewrite Forall_forall in HD'. pose proof (HD' k Hk) as Hlt. rewrite map_nth_in with (da := 0%nat) by auto.
        specialize (H (nth k axes 0%nat, nth k is 0%nat)). cbn [fst snd] in H. rewrite <- HD in H by auto.
        replace (inb k D) with true in H by (symmetry; apply inb_spec; auto). apply H. apply (in_combine_nth 0%nat 0%nat); eauto. }
    rewrite E1, E2. f_equal. destruct (second_block fl a axes is); auto. f_equal.
    apply nth_ext' with (d := 0%nat); [unfold shiftb; rewrite !map_length, seq_length, combine_length; lia|].
    rewrite !map_length, seq_length. intros k Hk. rewrite nth_map_seq by auto. cbn [plus]. unfold shiftb.
    rewrite map_nth_in with (da := (0%nat, 0%nat)) by (rewrite combine_length; lia). rewrite combine_nth by auto. cbn [fst snd].
    rewrite HD by auto. rewrite map_nth_in with (da := 0%nat) by auto. auto.
  Qed.
End CatBlock.

(** A tree-based tensor given by the sizes of its cores. *)
Section Build.
  Context {R : Type} {CR : CRing R}.
  Local Open Scope cr_scope.
  Variables (Z : tbt R) (r : nat) (sz m : nat -> nat) (ext : list nat).
  Let t := ttree Z.
  Hypothesis V : dim_tree t r.
  Let T : rooted_tree t r := proj1 V.
  Hypothesis HL : length (cores Z) = nbn t.
  Hypothesis Hr : is_leaf t r = false.
  Hypothesis Hext : (length ext <= 1)%nat.
  Hypothesis HI : forall n, node t n -> is_leaf t n = false ->
    shape (core Z n) = map sz (children t n) ++ (if n =? r then ext else [sz n]) /\ active Z n = true.
  Hypothesis HLa : forall n, is_leaf t n = true -> active Z n = true -> shape (core Z n) = [m n; sz n].
  Hypothesis HLi : forall n, is_leaf t n = true -> active Z n = false -> sz n = m n.

  Lemma build_last n : node t n -> n <> r -> active Z n = true -> last (shape (core Z n)) 0%nat = sz n.
  Proof.
    intros Hn Hne Ha. destruct (is_leaf t n) eqn:El; [rewrite HLa by auto; auto|].
    rewrite (proj1 (HI n Hn El)). destruct (Nat.eqb_spec n r); [contradiction|]. apply last_last.
  Qed.
  Lemma build_exts n : node t n -> is_leaf t n = false -> exts Z n = if n =? r then ext else [sz n].
  Proof.
    intros Hn El. unfold exts, arity_at. fold t. rewrite El, (proj1 (HI n Hn El)), skipn_app, map_length, Nat.sub_diag.
    rewrite skipn_all2 by (rewrite map_length; auto). auto.
  Qed.
  Lemma build_heads n : node t n -> is_leaf t n = false -> heads Z n = map sz (children t n).
  Proof.
    intros Hn El. unfold heads, arity_at. fold t. rewrite El, (proj1 (HI n Hn El)), firstn_app, map_length, Nat.sub_diag.
    rewrite firstn_all2 by (rewrite map_length; auto). cbn. apply app_nil_r.
  Qed.
  Lemma build_ok : tb_ok Z r.
  Proof.
    split; [exact V|]. split; [exact HL|]. assert (Hnr : node t r) by apply T. split; [apply (HI r Hnr Hr)|]. fold t.
    intros n Hn. split; [intros El; apply (HI n Hn El)|]. split.
    - intros Ha. destruct (is_leaf t n) eqn:El.
      + assert (Hne : n <> r) by (intros ->; congruence). destruct (Nat.eqb_spec n r); [contradiction|].
        unfold exts, arity_at, ndim. fold t. rewrite El, (HLa n El Ha). cbn. lia.
      + rewrite (build_exts n Hn El). unfold arity_at, ndim. rewrite El, (proj1 (HI n Hn El)), app_length, map_length.
        destruct (Nat.eqb_spec n r); cbn; lia.
    - intros c He Ha. assert (El : is_leaf t n = false).
      { destruct (is_leaf t n) eqn:E; auto. apply (leaf_iff t r V) in E. exfalso. apply (proj2 E c He). }
      assert (Hc : In c (children t n)) by (apply in_children; auto). destruct (index_of_nth _ _ Hc) as [Hi Hi'].
      rewrite (proj1 (HI n Hn El)), app_nth1 by (rewrite map_length; auto). rewrite map_nth_in with (da := 0%nat) by auto. rewrite Hi'.
      symmetry. apply build_last; auto; [apply He|]. intros ->. apply (rt_no_edge t r T n He).
  Qed.
  Lemma build_csize c : node t c -> c <> r -> csize Z c = sz c.
  Proof.
    intros Hn Hne. destruct (rt_has_parent t r T c Hn Hne) as [p He].
    rewrite <- (csize_nth Z r build_ok p c He). fold t. assert (El : is_leaf t p = false).
    { destruct (is_leaf t p) eqn:E; auto. apply (leaf_iff t r V) in E. exfalso. apply (proj2 E c He). }
    assert (Hc : In c (children t p)) by (apply in_children; auto; apply He). destruct (index_of_nth _ _ Hc) as [Hi Hi'].
    rewrite (proj1 (HI p (proj1 He) El)), app_nth1 by (rewrite map_length; auto). rewrite map_nth_in with (da := 0%nat) by auto. rewrite Hi'. auto.
  Qed.
  Lemma build_size n : is_leaf t n = true -> tb_size Z n = m n.
  Proof.
    intros El. destruct (active Z n) eqn:Ha.
    - unfold tb_size. rewrite Ha, (HLa n El Ha). auto.
    - rewrite <- (HLi n El Ha). rewrite <- build_csize; [unfold csize; rewrite Ha; auto|apply (leaf_node t r V n El)|intros ->; congruence].
  Qed.
  Lemma build_shape : tb_shape Z = map m (d2i t).
  Proof. unfold tb_shape. apply map_ext_in. intros n Hn. apply build_size. apply inb_spec. auto. Qed.
End Build.

Section Add.
  Context {R : Type} {CR : CRing R}.
  Add Ring Rradd : rth.
  Local Open Scope cr_scope.
  Variables (X Y : tbt R) (r : nat).
  Hypothesis OX : tb_ok X r.
  Hypothesis OY : tb_ok Y r.
  Hypothesis HT : ttree Y = ttree X.
  Hypothesis HS : tb_shape Y = tb_shape X.
  Hypothesis HE : exts Y r = exts X r.
  Hypothesis HA : forall n, node (ttree X) n -> active Y n = active X n.
  Hypothesis H2 : (2 <= tb_order X)%nat.
  Let t := ttree X.
  Let V : dim_tree t r := proj1 OX.
  Let T : rooted_tree t r := proj1 V.

  Lemma add_inactive_size c : is_leaf t c = true -> tb_size Y c = tb_size X c.
  Proof.
    intros Hl. rewrite <- (tb_shape_leaf X c Hl), <- HS.
    assert (Hl' : is_leaf (ttree Y) c = true) by (rewrite HT; auto). rewrite <- (tb_shape_leaf Y c Hl'), HT. auto.
  Qed.
  Lemma add_csize_inactive c : node t c -> active X c = false -> csize Y c = csize X c.
  Proof.
    intros Hn Ha. unfold csize. rewrite HA, Ha by auto. apply add_inactive_size.
    destruct (is_leaf t c) eqn:E; auto. rewrite (ok_internal X r OX c Hn E) in Ha. discriminate.
  Qed.
  Lemma add_heads n : node t n -> is_leaf t n = false -> heads X n = map (csize X) (children t n) /\ heads Y n = map (csize Y) (children t n).
  Proof.
    intros Hn Hl. split; [apply (heads_internal X r OX n Hn Hl)|]. rewrite (heads_internal Y r OY n); rewrite HT; auto.
  Qed.
  (** the axes of the core of n: its children, then 0 for the rank *)
  Definition axes (n : nat) : list nat := children t n ++ repeat 0%nat (length (exts X n)).
  Definition afl (n c : nat) : bool := if c =? 0 then negb (n =? r) else active X c.
  Definition asz (W : tbt R) (n c : nat) : nat := if c =? 0 then nth 0 (exts W n) 0%nat else csize W c.
  Lemma add_exts_length n : node t n -> active X n = true -> length (exts Y n) = length (exts X n).
  Proof.
    intros Hn Ha. destruct (Nat.eq_dec n r) as [->|Hr]; [rewrite HE; auto|].
    rewrite (ok_exts X r OX n Hn Ha Hr), (ok_exts Y r OY n); rewrite ?HT, ?HA; auto.
  Qed.
  Lemma exts_le1 (W : tbt R) n : tb_ok W r -> node (ttree W) n -> active W n = true -> (length (exts W n) <= 1)%nat.
  Proof. intros O Hn Ha. apply (proj1 (proj2 (proj2 (proj2 (proj2 O)) n Hn)) Ha). Qed.
  Lemma axes_shape (W : tbt R) n : tb_ok W r -> ttree W = t -> node t n -> is_leaf t n = false -> length (exts W n) = length (exts X n) ->
    shape (core W n) = map (asz W n) (axes n).
  Proof.
    intros O Et Hn Hl HLe. assert (Ha : active W n = true) by (apply (ok_internal W r O); rewrite Et; auto).
    rewrite (ok_shape W n) by (auto; rewrite Et; auto). unfold axes. rewrite map_app. f_equal.
    - rewrite (heads_internal W r O n), Et by (rewrite Et; auto). apply map_ext_in. intros c Hc. unfold asz. apply in_children' in Hc.
      destruct (Nat.eqb_spec c 0); [subst c; destruct Hc as [[]]; lia|auto].
    - rewrite <- HLe. assert (Hle : (length (exts W n) <= 1)%nat) by (apply (exts_le1 W n); auto; rewrite Et; auto).
      unfold asz. destruct (exts W n) as [|x [|y l]]; simpl in *; try lia; auto.
  Qed.
  Lemma add_core_internal n : node t n -> is_leaf t n = false ->
    exists C, tb_add_core X Y n = Some C /\ shape C = map (bsz (afl n) (asz X n) (asz Y n)) (axes n) /\
      forall is, valid (shape C) is -> get C is =
        (if first_block (afl n) (asz X n) (axes n) is then get (core X n) is else r0) +
        (if second_block (afl n) (asz X n) (axes n) is then get (core Y n) (shiftb (afl n) (asz X n) (axes n) is) else r0).
  Proof.
    intros Hn Hl. pose proof (ok_internal X r OX n Hn Hl) as Ha.
    pose proof (axes_shape X n OX eq_refl Hn Hl eq_refl) as SX.
    pose proof (axes_shape Y n OY HT Hn Hl (add_exts_length n Hn Ha)) as SY.
    assert (Hle : (length (exts X n) <= 1)%nat) by (apply (exts_le1 X n); auto).
    assert (LA : length (axes n) = (length (children t n) + length (exts X n))%nat) by (unfold axes; rewrite app_length, repeat_length; auto).
    assert (HndX : ndim (core X n) = length (axes n)) by (unfold ndim; rewrite SX, map_length; auto).
    assert (HndY : ndim (core Y n) = length (axes n)) by (unfold ndim; rewrite SY, map_length; auto).
    assert (Hflag : forall k, (k < length (children t n))%nat -> afl n (nth k (axes n) 0%nat) = active X (nth k (children t n) 0%nat)).
    { intros k Hk. unfold axes. rewrite app_nth1 by auto. unfold afl.
      assert (Hc : In (nth k (children t n) 0%nat) (children t n)) by (apply nth_In; auto). apply in_children' in Hc.
      destruct (Nat.eqb_spec (nth k (children t n) 0%nat) 0) as [E|]; auto. rewrite E in Hc. destruct Hc as [[]]. lia. }
    assert (Hlast : forall k, (length (children t n) <= k)%nat -> (k < length (axes n))%nat -> afl n (nth k (axes n) 0%nat) = negb (n =? r)).
    { intros k Hk Hk'. unfold axes. rewrite app_nth2 by auto. rewrite nth_repeat. unfold afl. rewrite Nat.eqb_refl. auto. }
    assert (Hnal : forall k, (k < length (children t n))%nat ->
       nth k (map (fun c => is_leaf t c && negb (active X c)) (children t n)) false = negb (active X (nth k (children t n) 0%nat))).
    { intros k Hk. rewrite map_nth_in with (da := 0%nat) by auto.
      assert (Hc : In (nth k (children t n) 0%nat) (children t n)) by (apply nth_In; auto). apply in_children' in Hc.
      destruct (is_leaf t (nth k (children t n) 0%nat)) eqn:E; auto. rewrite (ok_internal X r OX _ (proj1 Hc) E). auto. }
    set (ind := filter (fun k => negb (nth k (map (fun c => is_leaf t c && negb (active X c)) (children t n)) false)) (seq 0 (length (children t n)))).
    assert (Hind : forall k, (k < length (children t n))%nat -> inb k ind = active X (nth k (children t n) 0%nat)).
    { intros k Hk. apply Bool.eq_iff_eq_true. rewrite inb_spec. unfold ind. rewrite filter_In, in_seq, Hnal, negb_involutive by auto. intuition lia. }
    assert (Hindlt : forall k, In k ind -> (k < length (children t n))%nat).
    { intros k Hk. apply filter_In in Hk. destruct Hk as [Hk _]. apply in_seq in Hk. lia. }
    assert (Hcat : forall D, (forall k, (k < length (axes n))%nat -> inb k D = afl n (nth k (axes n) 0%nat)) -> Forall (fun k => (k < length (axes n))%nat) D ->
      exists C, ft_cat (core X n) (core Y n) (Some D) = Some C /\ shape C = map (bsz (afl n) (asz X n) (asz Y n)) (axes n) /\
      forall is, valid (shape C) is -> get C is =
        (if first_block (afl n) (asz X n) (axes n) is then get (core X n) is else r0) +
        (if second_block (afl n) (asz X n) (axes n) is then get (core Y n) (shiftb (afl n) (asz X n) (axes n) is) else r0)).
    { intros D HD1 HD2. destruct (ft_cat_spec (core X n) (core Y n) D) as (C & HC & HsC & HgC).
      - congruence.
      - rewrite HndX. auto.
      - rewrite HndX. intros k Hk Hni. assert (Hf : inb k D = false) by (destruct (inb k D) eqn:E; auto; exfalso; apply Hni, inb_spec; auto).
        rewrite HD1 in Hf by auto. rewrite SX, SY, !map_nth_in with (da := 0%nat) by auto. unfold asz.
        destruct (le_lt_dec (length (children t n)) k) as [Hge|Hlt].
        + rewrite Hlast in Hf by auto. apply negb_false_iff, Nat.eqb_eq in Hf. unfold axes. rewrite app_nth2, nth_repeat by auto. cbn. subst n. rewrite HE. auto.
        + rewrite Hflag in Hf by auto. unfold axes. rewrite app_nth1 by auto. destruct (Nat.eqb_spec (nth k (children t n) 0%nat) 0) as [E0|_].
          * assert (Hc : In (nth k (children t n) 0%nat) (children t n)) by (apply nth_In; auto). apply in_children' in Hc. rewrite E0 in Hc. destruct Hc as [[]]; lia.
          * symmetry. apply add_csize_inactive; auto. assert (Hc : In (nth k (children t n) 0%nat) (children t n)) by (apply nth_In; auto). apply (in_children' _ _ _ Hc).
      - exists C. split; auto. rewrite (cat_shape_block (afl n) (asz X n) (asz Y n) _ _ _ _ SX SY HD1) in HsC, HgC. split; auto. intros is Hv. rewrite HsC in Hv.
        rewrite HgC by auto. apply (cat_entry_block (afl n) (asz X n) _ _ _ _ SX HD1 HD2). rewrite (valid_length _ _ Hv), map_length. auto. }
    unfold tb_add_core. fold t. rewrite Hl. cbn [negb andb]. cbv zeta. fold ind.
    rewrite (root_eq t r T). destruct (Nat.eqb_spec n r) as [Er|Hr].
    - apply Hcat.
      + intros k Hk. destruct (le_lt_dec (length (children t n)) k) as [Hge|Hlt].
        * rewrite Hlast by auto. cbn [negb]. destruct (inb k ind) eqn:E; auto. apply inb_spec, Hindlt in E. lia.
        * rewrite Hflag, Hind; auto.
      + apply Forall_forall. intros k Hk. apply Hindlt in Hk. lia.
    - assert (HL1 : length (exts X n) = 1%nat) by (apply (ok_exts X r OX n Hn Ha Hr)).
      assert (HlastE : (ndim (core X n) - 1)%nat = length (children t n)) by lia.
      destruct (existsb (fun b => b) (map (fun c => is_leaf t c && negb (active X c)) (children t n))) eqn:Eex.
      + apply Hcat.
        * intros k Hk. rewrite HlastE. destruct (le_lt_dec (length (children t n)) k) as [Hge|Hlt].
          -- assert (k = length (children t n)) by lia. rewrite Hlast by auto. destruct (Nat.eqb_spec n r); [contradiction|]. cbn [negb]. apply inb_spec, in_or_app. right. simpl. auto.
          -- rewrite Hflag, <- Hind by auto. apply Bool.eq_iff_eq_true. rewrite !inb_spec, in_app_iff. split; auto. intros [|[E|[]]]; auto. lia.
        * apply Forall_forall. intros k Hk. apply in_app_iff in Hk. destruct Hk as [Hk|[<-|[]]]; [apply Hindlt in Hk; lia|lia].
      + change (ft_cat (core X n) (core Y n) None) with (ft_cat (core X n) (core Y n) (Some (seq 0 (ndim (core X n))))). rewrite HndX. apply Hcat.
        * intros k Hk. replace (inb k (seq 0 (length (axes n)))) with true by (symmetry; apply inb_spec, in_seq; lia). symmetry.
          destruct (le_lt_dec (length (children t n)) k) as [Hge|Hlt].
          -- rewrite Hlast by auto. destruct (Nat.eqb_spec n r); [contradiction|]. auto.
          -- rewrite Hflag by auto. destruct (active X (nth k (children t n) 0%nat)) eqn:E; auto. exfalso.
             assert (Hex : existsb (fun b => b) (map (fun c => is_leaf t c && negb (active X c)) (children t n)) = true); [|congruence].
             apply existsb_exists. exists true. split; auto.
             assert (Hb : nth k (map (fun c => is_leaf t c && negb (active X c)) (children t n)) false = true) by (rewrite Hnal, E by auto; auto).
             rewrite <- Hb. apply nth_In. rewrite map_length. auto.
        * apply Forall_forall. intros k Hk. apply in_seq in Hk. lia.
  Qed.

  Lemma add_core_leaf n : is_leaf t n = true -> active X n = true ->
    exists C, tb_add_core X Y n = Some C /\ shape C = [tb_size X n; (csize X n + csize Y n)%nat] /\
      forall i k, (i < tb_size X n)%nat -> (k < csize X n + csize Y n)%nat ->
        get C [i; k] = if k <? csize X n then get (core X n) [i; k] else get (core Y n) [i; (k - csize X n)%nat].
  Proof.
    intros Hl Ha. pose proof (leaf_node t r V n Hl) as Hn. assert (Hne : n <> r) by (intros E; pose proof (root_not_leaf X r OX H2) as E'; rewrite <- E in E'; fold t in E'; congruence).
    assert (SX : shape (core X n) = [tb_size X n; csize X n]).
    { rewrite (ok_shape X n), (heads_leaf X r OX n Hl Ha), (ok_exts_rank X r OX n Hn Ha Hne) by auto. unfold tb_size, csize. rewrite Ha. auto. }
    assert (HaY : active Y n = true) by (rewrite HA; auto). assert (HlY : is_leaf (ttree Y) n = true) by (rewrite HT; auto).
    assert (HnY : node (ttree Y) n) by (rewrite HT; auto).
    assert (SY : shape (core Y n) = [tb_size X n; csize Y n]).
    { rewrite (ok_shape Y n), (heads_leaf Y r OY n HlY HaY), (ok_exts_rank Y r OY n HnY HaY Hne) by auto.
      rewrite <- (add_inactive_size n Hl). unfold tb_size, csize. rewrite HaY. auto. }
    unfold tb_add_core. fold t. rewrite Hl, Ha. cbn [andb].
    destruct (ft_cat_spec (core X n) (core Y n) [1%nat]) as (C & HC & HsC & HgC).
    - unfold ndim. rewrite SX, SY. auto.
    - unfold ndim. rewrite SX. constructor; [cbn; lia|constructor].
    - unfold ndim. rewrite SX, SY. intros k Hk Hni. destruct k as [|[|k]]; cbn in *; auto; try lia; exfalso; apply Hni; auto.
    - exists C. split; auto. rewrite SX, SY in HsC. cbn in HsC. split; auto. intros i k Hi Hk. rewrite HgC.
      + unfold cat_entry. rewrite SX. cbn -[Nat.ltb]. destruct (Nat.ltb_spec k (csize X n)), (Nat.leb_spec (csize X n) k); try lia; cbn; ring.
      + rewrite SX, SY. cbn. repeat constructor; auto.
  Qed.

  Definition add_sz (c : nat) : nat := if active X c then (csize X c + csize Y c)%nat else csize X c.
  Lemma child_pos n c : node t n -> In c (children t n) -> c <> 0%nat /\ edge t n c /\ c <> r.
  Proof.
    intros Hn' Hc. apply in_children' in Hc. destruct Hc as [Hn He]. split; [intros ->; unfold node in Hn; lia|].
    assert (He' : edge t n c) by (split; auto). split; auto. intros ->. apply (rt_no_edge t r T n He').
  Qed.
  Lemma add_axes_sz n : node t n -> is_leaf t n = false ->
    map (bsz (afl n) (asz X n) (asz Y n)) (axes n) = map add_sz (children t n) ++ (if n =? r then exts X r else [add_sz n]).
  Proof.
    intros Hn Hl. pose proof (ok_internal X r OX n Hn Hl) as Ha. unfold axes. rewrite map_app. f_equal.
    - apply map_ext_in. intros c Hc. destruct (child_pos n c Hn Hc) as (H0 & _ & _). unfold bsz, afl, asz, add_sz. destruct (Nat.eqb_spec c 0); [contradiction|auto].
    - destruct (Nat.eqb_spec n r) as [E|Hne].
      + rewrite E. pose proof (ok_exts_root X r OX) as Hle. unfold bsz, afl, asz. rewrite Nat.eqb_refl. cbn [negb Nat.eqb].
        destruct (exts X r) as [|x [|y l]]; cbn in *; try lia; auto.
      + assert (HaY : active Y n = true) by (rewrite HA; auto).
        rewrite (ok_exts X r OX n Hn Ha Hne). cbn [repeat map]. unfold bsz, afl, asz, add_sz. cbn [Nat.eqb].
        destruct (Nat.eqb_spec n r); [contradiction|]. cbn [negb]. rewrite Ha. rewrite (ok_exts_rank X r OX n Hn Ha Hne).
        rewrite (ok_exts_rank Y r OY n) by (rewrite ?HT; auto). cbn. unfold csize. rewrite Ha, HaY. auto.
  Qed.

  Variable Z : tbt R.
  Hypothesis ZT : ttree Z = t.
  Hypothesis ZL : length (cores Z) = nbn t.
  Hypothesis ZC : forall n, node t n -> tb_add_core X Y n = Some (core Z n).

  Lemma add_build_HI n : node t n -> is_leaf t n = false ->
    shape (core Z n) = map add_sz (children t n) ++ (if n =? r then exts X r else [add_sz n]) /\ active Z n = true.
  Proof.
    intros Hn Hl. destruct (add_core_internal n Hn Hl) as (C & HC & HsC & _). rewrite ZC in HC by auto. injection HC as HC.
    rewrite HC. rewrite HsC, (add_axes_sz n Hn Hl). split; auto. apply active_prod. rewrite HC, HsC.
    intros E. apply prodn_zero in E. apply in_map_iff in E. destruct E as (c & E & Hc).
    pose proof (ok_internal X r OX n Hn Hl) as Ha. apply (active_prod X n) in Ha. apply Ha. apply prodn_zero.
    rewrite (axes_shape X n OX eq_refl Hn Hl eq_refl). apply in_map_iff. exists c. split; auto. unfold bsz in E. destruct (afl n c); lia.
  Qed.
  Lemma add_build_leaf n : is_leaf t n = true ->
    (active X n = true -> shape (core Z n) = [tb_size X n; add_sz n] /\ active Z n = true) /\
    (active X n = false -> core Z n = core X n /\ active Z n = false /\ add_sz n = tb_size X n).
  Proof.
    intros Hl. pose proof (leaf_node t r V n Hl) as Hn. split; intros Ha.
    - destruct (add_core_leaf n Hl Ha) as (C & HC & HsC & _). rewrite ZC in HC by auto. injection HC as HC.
      unfold add_sz. rewrite HC, HsC, Ha. split; auto. apply active_prod. rewrite HC, HsC. cbn.
      assert (Hne : n <> r) by (intros E; pose proof (root_not_leaf X r OX H2) as E'; rewrite <- E in E'; fold t in E'; congruence).
      apply (active_prod X n) in Ha as Hp.
      rewrite (ok_shape X n), (heads_leaf X r OX n Hl Ha), (ok_exts_rank X r OX n Hn Ha Hne) in Hp by auto. cbn in Hp.
      unfold tb_size, csize. rewrite Ha. nia.
    - pose proof (ZC n Hn) as HC. unfold tb_add_core in HC. fold t in HC. rewrite Hl, Ha in HC. cbn [andb negb] in HC. injection HC as HC.
      split; auto. split; [rewrite <- Ha; apply active_shape_eq; rewrite HC; auto|]. unfold add_sz, csize. rewrite Ha. auto.
  Qed.
  Lemma add_active n : node t n -> active Z n = active X n.
  Proof.
    intros Hn. destruct (is_leaf t n) eqn:Hl.
    - destruct (add_build_leaf n Hl) as [H1 H3]. destruct (active X n); [apply H1|apply H3]; auto.
    - rewrite (ok_internal X r OX n Hn Hl). apply (add_build_HI n Hn Hl).
  Qed.
  Lemma add_facts : tb_ok Z r /\ tb_shape Z = tb_shape X /\ exts Z r = exts X r /\
    (forall n, node t n -> is_leaf t n = false -> heads Z n = map add_sz (children t n)) /\
    (forall n, node t n -> is_leaf t n = false -> exts Z n = if n =? r then exts X r else [add_sz n]).
  Proof.
    assert (P1 : dim_tree (ttree Z) r) by (rewrite ZT; exact V).
    assert (P2 : length (cores Z) = nbn (ttree Z)) by (rewrite ZT; exact ZL).
    assert (P3 : is_leaf (ttree Z) r = false) by (rewrite ZT; apply (root_not_leaf X r OX H2)).
    assert (P4 : (length (exts X r) <= 1)%nat) by (apply (ok_exts_root X r OX)).
    assert (P5 : forall n, node (ttree Z) n -> is_leaf (ttree Z) n = false ->
      shape (core Z n) = map add_sz (children (ttree Z) n) ++ (if n =? r then exts X r else [add_sz n]) /\ active Z n = true).
    { rewrite ZT. apply add_build_HI. }
    assert (P6 : forall n, is_leaf (ttree Z) n = true -> active Z n = true -> shape (core Z n) = [tb_size X n; add_sz n]).
    { rewrite ZT. intros n Hl Ha. destruct (add_build_leaf n Hl) as [H1 _]. rewrite add_active in Ha by (apply (leaf_node t r V n Hl)). apply H1; auto. }
    assert (P7 : forall n, is_leaf (ttree Z) n = true -> active Z n = false -> add_sz n = tb_size X n).
    { rewrite ZT. intros n Hl Ha. destruct (add_build_leaf n Hl) as [_ H1]. rewrite add_active in Ha by (apply (leaf_node t r V n Hl)). apply H1; auto. }
    assert (Hr : node (ttree Z) r) by (rewrite ZT; apply T).
    split; [exact (build_ok Z r add_sz (tb_size X) (exts X r) P1 P2 P3 P4 P5 P6)|].
    split; [rewrite (build_shape Z r add_sz (tb_size X) (exts X r) P1 P2 P3 P4 P5 P6 P7), ZT; auto|].
    split; [rewrite (build_exts Z r add_sz (exts X r) P5 r Hr P3), Nat.eqb_refl; auto|].
    split; intros n Hn Hl.
    - rewrite (build_heads Z r add_sz (exts X r) P5 n) by (rewrite ZT; auto). rewrite ZT. auto.
    - rewrite (build_exts Z r add_sz (exts X r) P5 n) by (rewrite ZT; auto). auto.
  Qed.

  Lemma first_block_app fl a l1 l2 k1 k2 : length l1 = length k1 ->
    first_block fl a (l1 ++ l2) (k1 ++ k2) = first_block fl a l1 k1 && first_block fl a l2 k2.
  Proof. intros L. unfold first_block. rewrite combine_app, forallb_app by auto. auto. Qed.
  Lemma second_block_app fl a l1 l2 k1 k2 : length l1 = length k1 ->
    second_block fl a (l1 ++ l2) (k1 ++ k2) = second_block fl a l1 k1 && second_block fl a l2 k2.
  Proof. intros L. unfold second_block. rewrite combine_app, forallb_app by auto. auto. Qed.
  Lemma shiftb_app fl a l1 l2 k1 k2 : length l1 = length k1 -> shiftb fl a (l1 ++ l2) (k1 ++ k2) = shiftb fl a l1 k1 ++ shiftb fl a l2 k2.
  Proof. intros L. unfold shiftb. rewrite combine_app, map_app by auto. auto. Qed.

  Lemma add_tval_internal n is e : node t n -> is_leaf t n = false ->
    Forall (block_ok (afl n) (asz X n) (asz Y n) (fun c k => tval X c is [k]) (fun c k => tval Y c is [k]) (fun c k => tval Z c is [k])) (children t n) ->
    valid (exts Z n) e ->
    tval Z n is e =
      (if first_block (afl n) (asz X n) (repeat 0%nat (length (exts X n))) e then tval X n is e else r0) +
      (if second_block (afl n) (asz X n) (repeat 0%nat (length (exts X n))) e then tval Y n is (shiftb (afl n) (asz X n) (repeat 0%nat (length (exts X n))) e) else r0).
  Proof.
    intros Hn Hl HB He. destruct add_facts as (OZ & SZ & EZ & HZh & HZe).
    assert (VZ : dim_tree (ttree Z) r) by (rewrite ZT; exact V). assert (VY : dim_tree (ttree Y) r) by (rewrite HT; exact V).
    rewrite (tval_internal Z r VZ n is e) by (rewrite ZT; auto). rewrite (tval_internal X r V n is e) by auto.
    rewrite (tval_internal Y r VY n is) by (rewrite HT; auto).
    destruct (add_heads n Hn Hl) as [HhX HhY]. rewrite (HZh n Hn Hl), HhX, HhY, HT, ZT. fold t.
    assert (EmX : map (csize X) (children t n) = map (asz X n) (children t n)).
    { apply map_ext_in. intros c Hc. destruct (child_pos n c Hn Hc) as (H0 & _ & _). unfold asz. destruct (Nat.eqb_spec c 0); [contradiction|auto]. }
    assert (EmY : map (csize Y) (children t n) = map (asz Y n) (children t n)).
    { apply map_ext_in. intros c Hc. destruct (child_pos n c Hn Hc) as (H0 & _ & _). unfold asz. destruct (Nat.eqb_spec c 0); [contradiction|auto]. }
    assert (EmZ : map add_sz (children t n) = map (bsz (afl n) (asz X n) (asz Y n)) (children t n)).
    { apply map_ext_in. intros c Hc. destruct (child_pos n c Hn Hc) as (H0 & _ & _). unfold add_sz, bsz, afl, asz. destruct (Nat.eqb_spec c 0); [contradiction|auto]. }
    destruct (add_core_internal n Hn Hl) as (C & HC & HsC & HgC). rewrite ZC in HC by auto. injection HC as HC. rewrite HC.
    pose proof (proj1 (add_build_HI n Hn Hl)) as HsZ. rewrite HC in HsZ.
    pose proof (bsum_first (afl n) (asz X n) (asz Y n) _ _ _ _ HB (fun ks => get (core X n) (ks ++ e))) as B1.
    pose proof (bsum_second (afl n) (asz X n) (asz Y n) _ _ _ _ HB (fun ks => get (core Y n) (ks ++ shiftb (afl n) (asz X n) (repeat 0%nat (length (exts X n))) e))) as B2.
    unfold prodv in B1, B2. rewrite EmX, EmY, EmZ. rewrite <- B1, <- B2.
    set (fe := first_block (afl n) (asz X n) (repeat 0%nat (length (exts X n))) e).
    set (se := second_block (afl n) (asz X n) (repeat 0%nat (length (exts X n))) e).
    transitivity (bsum (map (bsz (afl n) (asz X n) (asz Y n)) (children t n)) (fun ks =>
       (if fe then (if first_block (afl n) (asz X n) (children t n) ks then get (core X n) (ks ++ e) else r0) * lprod (combine (children t n) ks) (fun p => tval Z (fst p) is [snd p]) else r0) +
       (if se then (if second_block (afl n) (asz X n) (children t n) ks then get (core Y n) (shiftb (afl n) (asz X n) (children t n) ks ++ shiftb (afl n) (asz X n) (repeat 0%nat (length (exts X n))) e) else r0) * lprod (combine (children t n) ks) (fun p => tval Z (fst p) is [snd p]) else r0))).
    - apply bsum_ext. intros ks Hks. assert (Lks : length (children t n) = length ks) by (rewrite (valid_length _ _ Hks), map_length; auto).
      rewrite HgC.
      + unfold axes. rewrite first_block_app, second_block_app, shiftb_app by auto. fold fe se.
        destruct fe, se, (first_block (afl n) (asz X n) (children t n) ks), (second_block (afl n) (asz X n) (children t n) ks); cbn [andb]; ring.
      + rewrite HsZ. apply valid_app; [rewrite EmZ; auto|]. rewrite <- (HZe n Hn Hl). auto.
    - rewrite bsum_plus. f_equal; [destruct fe|destruct se]; auto; apply bsum_zero; auto.
  Qed.
  Lemma add_tval n : node t n -> n <> r -> forall is, valid (tb_shape X) is ->
    block_ok (active X) (csize X) (csize Y) (fun c k => tval X c is [k]) (fun c k => tval Y c is [k]) (fun c k => tval Z c is [k]) n.
  Proof.
    revert n. apply (tree_up_ind t r T (fun n => n <> r -> forall is, valid (tb_shape X) is ->
      block_ok (active X) (csize X) (csize Y) (fun c k => tval X c is [k]) (fun c k => tval Y c is [k]) (fun c k => tval Z c is [k]) n)).
    intros n Hn IH Hne is Hi. destruct add_facts as (OZ & SZ & EZ & HZh & HZe).
    assert (VZ : dim_tree (ttree Z) r) by (rewrite ZT; exact V). assert (VY : dim_tree (ttree Y) r) by (rewrite HT; exact V).
    unfold block_ok. destruct (is_leaf t n) eqn:Hl.
    - destruct (active X n) eqn:Ha.
      + assert (HaZ : active Z n = true) by (rewrite add_active; auto). assert (HaY : active Y n = true) by (rewrite HA; auto).
        destruct (add_core_leaf n Hl Ha) as (C & HC & HsC & HgC). rewrite ZC in HC by auto. injection HC as HC.
        pose proof (valid_leaf_index X is n Hi Hl) as Hlt. fold t in Hlt.
        split; intros k Hk.
        * rewrite (tval_leaf Z r VZ) by (rewrite ?ZT; auto). rewrite (tval_leaf X r V) by auto. rewrite ZT, HC. fold t. rewrite HgC by (auto; lia).
          destruct (Nat.ltb_spec k (csize X n)); [auto|lia].
        * rewrite (tval_leaf Z r VZ) by (rewrite ?ZT; auto). rewrite (tval_leaf Y r VY) by (rewrite ?HT; auto). rewrite ZT, HT, HC. fold t. rewrite HgC by (auto; lia).
          destruct (Nat.ltb_spec (csize X n + k) (csize X n)); [lia|]. replace (csize X n + k - csize X n)%nat with k by lia. auto.
      + assert (HaZ : active Z n = false) by (rewrite add_active; auto). assert (HaY : active Y n = false) by (rewrite HA; auto).
        split; [apply add_csize_inactive; auto|]. intros k Hk.
        rewrite (tval_inactive Z r VZ) by (rewrite ?ZT; auto). rewrite (tval_inactive X r V) by auto. rewrite (tval_inactive Y r VY) by (rewrite ?HT; auto).
        rewrite ZT, HT. fold t. auto.
    - rewrite (ok_internal X r OX n Hn Hl). pose proof (ok_internal X r OX n Hn Hl) as Ha. assert (HaY : active Y n = true) by (rewrite HA; auto).
      assert (HB : Forall (block_ok (afl n) (asz X n) (asz Y n) (fun c k => tval X c is [k]) (fun c k => tval Y c is [k]) (fun c k => tval Z c is [k])) (children t n)).
      { apply Forall_forall. intros c Hc. destruct (child_pos n c Hn Hc) as (H0 & Hce & Hcr). pose proof (IH c Hce Hcr is Hi) as HB.
        unfold block_ok, afl, asz in *. destruct (Nat.eqb_spec c 0); [contradiction|]. exact HB. }
      assert (Eb : exts X n = [csize X n]) by (unfold csize; rewrite Ha; apply (ok_exts_rank X r OX n Hn Ha Hne)).
      split; intros k Hk.
      + rewrite (add_tval_internal n is [k] Hn Hl HB).
        * rewrite Eb. cbn [length repeat]. unfold first_block, second_block, afl, asz. cbn -[Nat.ltb]. destruct (Nat.eqb_spec n r); [contradiction|]. cbn [negb orb].
          rewrite Eb. cbn -[Nat.ltb]. destruct (Nat.ltb_spec k (csize X n)), (Nat.leb_spec (csize X n) k); try lia. cbn. ring.
        * rewrite (HZe n Hn Hl). destruct (Nat.eqb_spec n r); [contradiction|]. unfold add_sz. rewrite Ha. constructor; [lia|constructor].
      + rewrite (add_tval_internal n is [(csize X n + k)%nat] Hn Hl HB).
        * rewrite Eb. cbn [length repeat]. unfold first_block, second_block, shiftb, afl, asz. cbn -[Nat.ltb]. destruct (Nat.eqb_spec n r); [contradiction|]. cbn [negb orb].
          rewrite Eb. cbn -[Nat.ltb]. destruct (Nat.ltb_spec (csize X n + k) (csize X n)), (Nat.leb_spec (csize X n) (csize X n + k)); try lia. cbn.
          replace (csize X n + k - csize X n)%nat with k by lia. ring.
        * rewrite (HZe n Hn Hl). destruct (Nat.eqb_spec n r); [contradiction|]. unfold add_sz. rewrite Ha. constructor; [lia|constructor].
  Qed.
  Lemma add_tval_root is e : valid (tb_shape X) is -> valid (exts X r) e -> tval Z r is e = tval X r is e + tval Y r is e.
  Proof.
    intros Hi He. destruct add_facts as (OZ & SZ & EZ & HZh & HZe). assert (Hr : node t r) by apply T. pose proof (root_not_leaf X r OX H2) as Hl.
    rewrite (add_tval_internal r is e Hr Hl).
    - pose proof (ok_exts_root X r OX) as Hle. pose proof (valid_length _ _ He) as Le.
      unfold first_block, second_block, shiftb, afl, asz. rewrite Nat.eqb_refl. cbn [negb].
      destruct e as [|x [|y e']], (exts X r) as [|u [|v w]]; cbn in *; try lia; auto.
    - apply Forall_forall. intros c Hc. destruct (child_pos r c Hr Hc) as (H0 & Hce & Hcr). pose proof (add_tval c (proj1 (proj2 Hce)) Hcr is Hi) as HB.
      unfold block_ok, afl, asz in *. destruct (Nat.eqb_spec c 0); [contradiction|]. exact HB.
    - rewrite EZ. auto.
  Qed.
End Add.
