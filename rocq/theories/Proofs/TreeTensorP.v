(** Tree-based tensors: the value, its unfolding equations, full(). *)
From Coq Require Import List Arith Lia Bool ZArith Ring Permutation.
From Verif.Base Require Import ListAux CRing Index.
From Verif.Model Require Import Sorting Numpy FullTensor DimensionTree TreeBased.
From Verif.Spec Require Import TensorSpec TreeSpec TreeTensorSpec.
From Verif.Proofs Require Import NumpyP FullTensorP FullTensorP2 FullTensorP3 DimTreeP DimTreeP2.
Import ListNotations.

Section Val.
  Context {R : Type} {CR : CRing R}.
  Add Ring Rr : rth.
  Local Open Scope cr_scope.

  Lemma tval_fuel_stable (X : tbt R) r : dim_tree (ttree X) r -> forall f1 n f2 is e,
    node (ttree X) n -> (nbn (ttree X) - level (ttree X) n <= f1)%nat -> (nbn (ttree X) - level (ttree X) n <= f2)%nat ->
    tval_fuel f1 X n is e = tval_fuel f2 X n is e.
  Proof.
    intros V. pose proof (proj1 V) as T. induction f1 as [|f1 IH]; intros n f2 is e Hn H1 H2.
    - pose proof (level_lt (ttree X) r T n Hn). lia.
    - pose proof (level_lt (ttree X) r T n Hn). destruct f2 as [|f2]; [lia|]. cbn [tval_fuel].
      destruct (is_leaf (ttree X) n); auto. apply bsum_ext. intros ks Hks. f_equal. apply lprod_ext.
      intros [c k] Hi. apply in_combine_l in Hi. apply in_children in Hi; auto. cbn [fst snd].
      pose proof (level_edge (ttree X) r T n c Hi). apply IH; [apply Hi|lia|lia].
  Qed.

  Section Ok.
    Variables (X : tbt R) (r : nat).
    Hypothesis V : dim_tree (ttree X) r.
    Let t := ttree X.
    Let T : rooted_tree t r := proj1 V.

    Lemma tval_leaf n is e : is_leaf t n = true -> active X n = true ->
      tval X n is e = get (core X n) (nth (index_of n (d2i t)) is 0%nat :: e).
    Proof.
      intros Hl Ha. unfold tval. pose proof (leaf_node t r V n Hl) as Hn. fold t. unfold node in Hn.
      destruct (nbn t) as [|m] eqn:E; [lia|]. cbn [tval_fuel]. fold t. rewrite Hl, Ha. auto.
    Qed.
    Lemma tval_inactive n is e : is_leaf t n = true -> active X n = false ->
      tval X n is e = if list_eqb e [nth (index_of n (d2i t)) is 0%nat] then r1 else r0.
    Proof.
      intros Hl Ha. unfold tval. pose proof (leaf_node t r V n Hl) as Hn. fold t. unfold node in Hn.
      destruct (nbn t) as [|m] eqn:E; [lia|]. cbn [tval_fuel]. fold t. rewrite Hl, Ha. auto.
    Qed.
    Lemma tval_internal n is e : node t n -> is_leaf t n = false ->
      tval X n is e = bsum (heads X n) (fun ks => get (core X n) (ks ++ e) *
         lprod (combine (children t n) ks) (fun p => tval X (fst p) is [snd p])).
    Proof.
      intros Hn Hl. unfold tval at 1. fold t. pose proof (level_lt t r T n Hn) as HL.
      destruct (nbn t) as [|m] eqn:E; [lia|]. cbn [tval_fuel]. fold t. rewrite Hl.
      apply bsum_ext. intros ks Hks. f_equal. apply lprod_ext. intros [c k] Hi. apply in_combine_l in Hi.
      apply in_children in Hi; auto. cbn [fst snd]. unfold tval. fold t. rewrite E.
      pose proof (level_edge t r T n c Hi). apply (tval_fuel_stable X r V); fold t; [apply Hi|lia|lia].
    Qed.
    (** the value at n only depends on the dimensions of n *)
    Lemma tval_local n : node t n -> forall is is' e,
      (forall mu, In mu (dims t n) -> nth mu is 0%nat = nth mu is' 0%nat) -> tval X n is e = tval X n is' e.
    Proof.
      revert n. apply (tree_up_ind t r T (fun n => forall is is' e,
        (forall mu, In mu (dims t n) -> nth mu is 0%nat = nth mu is' 0%nat) -> tval X n is e = tval X n is' e)).
      intros n Hn IH is is' e Hd. destruct (is_leaf t n) eqn:Hl.
      - rewrite (dims_leaf t r V n Hl) in Hd. specialize (Hd _ (or_introl eq_refl)).
        destruct (active X n) eqn:Ha; [rewrite !tval_leaf by auto|rewrite !tval_inactive by auto]; rewrite Hd; auto.
      - rewrite !tval_internal by auto. apply bsum_ext. intros ks Hks. f_equal. apply lprod_ext. intros [c k] Hi.
        apply in_combine_l in Hi. cbn [fst snd]. apply IH; [apply in_children; auto|].
        intros mu Hm. apply Hd. rewrite (dims_internal t r V n Hn Hl). apply in_flat_map. exists c. auto.
    Qed.
  End Ok.


  (** what well-formedness says *)
  Section Wf.
    Variables (X : tbt R) (r : nat).
    Hypothesis O : tb_ok X r.
    Let t := ttree X.
    Let V : dim_tree t r := proj1 O.
    Let T : rooted_tree t r := proj1 V.

    Lemma ok_cores_length : length (cores X) = nbn t.
    Proof. apply O. Qed.
    Lemma ok_internal n : node t n -> is_leaf t n = false -> active X n = true.
    Proof. intros Hn. apply (proj2 (proj2 (proj2 O)) n Hn). Qed.
    Lemma ok_root : active X r = true.
    Proof. exact (proj1 (proj2 (proj2 O))). Qed.
    Lemma ok_arity n : node t n -> active X n = true -> (arity_at t n <= ndim (core X n))%nat.
    Proof. intros Hn Ha. apply (proj2 (proj2 (proj2 O)) n Hn); auto. Qed.
    Lemma ok_exts n : node t n -> active X n = true -> n <> r -> length (exts X n) = 1%nat.
    Proof.
      intros Hn Ha Hr. destruct (proj1 (proj2 (proj2 (proj2 (proj2 O)) n Hn)) Ha) as (_ & H & _).
      destruct (Nat.eqb_spec n r); [contradiction|auto].
    Qed.
    Lemma ok_exts_root : (length (exts X r) <= 1)%nat.
    Proof. apply (proj1 (proj2 (proj2 (proj2 (proj2 O)) r (proj1 T))) ok_root). Qed.
    Lemma ok_child n c : edge t n c -> active X c = true ->
      nth (index_of c (children t n)) (shape (core X n)) 0%nat = last (shape (core X c)) 0%nat.
    Proof. intros He Ha. apply (proj2 (proj2 (proj2 (proj2 (proj2 O)) n (proj1 He)))); auto. Qed.
    Lemma ok_shape n : node t n -> active X n = true -> shape (core X n) = heads X n ++ exts X n.
    Proof. intros. unfold heads, exts. rewrite firstn_skipn. auto. Qed.
    Lemma ok_heads_length n : node t n -> active X n = true -> length (heads X n) = arity_at t n.
    Proof. intros Hn Ha. unfold heads. rewrite firstn_length. pose proof (ok_arity n Hn Ha). unfold ndim in *. fold t. lia. Qed.
    (** rank of an active non-root node *)
    Lemma ok_exts_rank n : node t n -> active X n = true -> n <> r -> exts X n = [last (shape (core X n)) 0%nat].
    Proof.
      intros Hn Ha Hr. pose proof (ok_exts n Hn Ha Hr) as L. rewrite (ok_shape n Hn Ha).
      destruct (exts X n) as [|a [|b l]]; simpl in L; try lia. rewrite last_last. auto.
    Qed.
    Lemma heads_leaf n : is_leaf t n = true -> active X n = true -> heads X n = [nth 0 (shape (core X n)) 0%nat].
    Proof.
      intros Hl Ha. pose proof (ok_heads_length n (leaf_node t r V n Hl) Ha) as L. unfold arity_at in L. rewrite Hl in L.
      unfold heads in *. unfold arity_at in *. fold t. fold t in L. rewrite Hl in *. destruct (shape (core X n)); simpl in *; [lia|auto].
    Qed.
    (** the size of the axis of child c in the core of its parent *)
    Definition csize (c : nat) : nat := if active X c then last (shape (core X c)) 0%nat else tb_size X c.
    Lemma child_index n c : edge t n c -> (child_number t c - 1)%nat = index_of c (children t n).
    Proof.
      intros He. unfold child_number. rewrite (parent_edge t r T n c He). destruct He as (Hn & Hc & Ha).
      destruct (Nat.eqb_spec n 0); [unfold node in Hn; lia|].
      assert (Hi : inb c (children t n) = true) by (apply inb_spec, in_children; auto; split; auto). rewrite Hi. lia.
    Qed.
    Lemma csize_nth n c : edge t n c -> nth (index_of c (children t n)) (shape (core X n)) 0%nat = csize c.
    Proof.
      intros He. unfold csize. destruct (active X c) eqn:Ha; [apply ok_child; auto|].
      unfold tb_size. rewrite Ha. fold t. rewrite (child_index n c He), (parent_edge t r T n c He). auto.
    Qed.
    Lemma heads_internal n : node t n -> is_leaf t n = false -> heads X n = map csize (children t n).
    Proof.
      intros Hn Hl. pose proof (ok_heads_length n Hn (ok_internal n Hn Hl)) as L. unfold arity_at in L. rewrite Hl in L.
      apply nth_ext' with (d := 0%nat); [rewrite map_length; auto|]. intros j Hj.
      rewrite map_nth_in with (da := 0%nat) by lia.
      set (c := nth j (children t n) 0%nat). assert (Hc : In c (children t n)) by (apply nth_In; lia).
      rewrite <- (csize_nth n c) by (apply in_children; auto). unfold c at 1.
      rewrite index_of_NoDup by (apply NoDup_children || lia).
      unfold heads, arity_at. fold t. rewrite Hl. 
      rewrite <- (firstn_skipn (length (children t n)) (shape (core X n))) at 2. rewrite app_nth1; auto.
      unfold heads, arity_at in Hj. fold t in Hj. rewrite Hl in Hj. auto.
    Qed.
    Lemma tb_shape_length : length (tb_shape X) = length (d2i t).
    Proof. unfold tb_shape. rewrite map_length. auto. Qed.
    Lemma tb_shape_leaf n : is_leaf t n = true -> nth (index_of n (d2i t)) (tb_shape X) 0%nat = tb_size X n.
    Proof.
      intros Hl. destruct (leaf_index t n Hl) as [H1 H2]. unfold tb_shape. fold t.
      rewrite map_nth_in with (da := 0%nat) by auto. rewrite H2. auto.
    Qed.
    Lemma active_pos n k : active X n = true -> (k < ndim (core X n))%nat -> (0 < nth k (shape (core X n)) 0)%nat.
    Proof.
      intros Ha Hk. unfold active, activec in Ha. rewrite negb_true_iff, Nat.eqb_neq in Ha.
      destruct (nth k (shape (core X n)) 0%nat) eqn:E; [|lia]. exfalso. apply Ha. unfold ft_storage, np_size.
      apply prodn_zero. rewrite <- E. apply nth_In. auto.
    Qed.
    Lemma valid_leaf_index is n : valid (tb_shape X) is -> is_leaf t n = true -> (nth (index_of n (d2i t)) is 0 < tb_size X n)%nat.
    Proof.
      intros Hv Hl. rewrite <- (tb_shape_leaf n Hl). apply valid_nth; auto. rewrite tb_shape_length. apply leaf_index; auto.
    Qed.
  End Wf.
End Val.
