(** Tree-based tensors: storage; a boolean test for well-formedness. *)
From Coq Require Import List Arith Lia Bool ZArith Ring Permutation.
From Verif.Base Require Import ListAux CRing Index.
From Verif.Model Require Import Sorting Numpy FullTensor DimensionTree TreeBased.
From Verif.Spec Require Import TensorSpec TreeSpec TreeTensorSpec.
From Verif.Proofs Require Import NumpyP FullTensorP FullTensorP2 FullTensorP3 FullTensorP4 DimTreeP DimTreeP2 DimTreeP3 TreeTensorP TreeTensorP2 TreeTensorP3 TreeTensorP4 TreeTensorP5 TreeTensorP6 TreeTensorP7 TreeTensorP8 TreeTensorP9 TreeTensorP10 TreeTensorP11.
From Verif.Proofs Require DimTreeP5.
Import ListNotations.

Section Storage.
  Context {R : Type} {CR : CRing R}.
  Definition tb_okb (X : tbt R) (r : nat) : bool :=
    (length (cores X) =? nbn (ttree X)) && active X r &&
    forallb (fun n => (is_leaf (ttree X) n || active X n) &&
      (negb (active X n) || ((arity_at (ttree X) n <=? ndim (core X n)) && (length (exts X n) <=? 1) && ((n =? r) || (length (exts X n) =? 1)))) &&
      forallb (fun c => negb (active X c) || (nth (index_of c (children (ttree X) n)) (shape (core X n)) 0 =? last (shape (core X c)) 0)) (children (ttree X) n))
      (nodes (ttree X)).
  Lemma tb_okb_ok X r : dim_tree (ttree X) r -> tb_okb X r = true -> tb_ok X r.
  Proof.
    intros V H. unfold tb_okb in H. apply andb_true_iff in H. destruct H as [H HF]. apply andb_true_iff in H. destruct H as [HL HA].
    apply Nat.eqb_eq in HL. split; auto. split; auto. split; auto. rewrite forallb_forall in HF. intros n Hn.
    assert (Hi : In n (nodes (ttree X))) by (unfold nodes; apply in_seq; unfold node in Hn; lia).
    specialize (HF n Hi). apply andb_true_iff in HF. destruct HF as [HF H3]. apply andb_true_iff in HF. destruct HF as [H1 H2].
    split; [|split].
    - intros El. rewrite El in H1. auto.
    - intros Ha. rewrite Ha in H2. cbn [negb orb] in H2. apply andb_true_iff in H2. destruct H2 as [H2 H5]. apply andb_true_iff in H2. destruct H2 as [H2 H4].
      apply Nat.leb_le in H2, H4. split; auto. split; auto. destruct (n =? r); auto. cbn [orb] in H5. apply Nat.eqb_eq in H5. auto.
    - intros c He Ha. rewrite forallb_forall in H3. assert (Hc : In c (children (ttree X) n)) by (apply in_children; auto). specialize (H3 c Hc).
      rewrite Ha in H3. cbn [negb orb] in H3. apply Nat.eqb_eq in H3. auto.
  Qed.

  (** size of the axis facing a child: its rank if it is active, else its size *)
  Lemma csize_rank X r c : tb_ok X r -> node (ttree X) c -> c <> r -> csize X c = if active X c then tb_rank X c else tb_size X c.
  Proof.
    intros O Hc Hr. unfold csize, tb_rank. pose proof (proj1 (proj1 O)) as T. destruct (is_leaf (ttree X) c) eqn:El; destruct (active X c) eqn:Ha; auto.
    - assert (Hp : parent (ttree X) c <> 0).
      { destruct (parent_is_edge _ r T c Hc Hr) as [Hp _]. unfold node in Hp. lia. }
      apply Nat.eqb_neq in Hp. rewrite Hp. auto.
  Qed.
  Lemma tb_storage_spec X r : tb_ok X r -> 2 <= tb_order X ->
    tb_storage X = sumn (map (fun n => if active X n then
       (if is_leaf (ttree X) n then tb_size X n
        else prodn (map (fun c => if active X c then tb_rank X c else tb_size X c) (children (ttree X) n))) * tb_rank X n else 0) (nodes (ttree X))).
  Proof.
    intros O H2. pose proof (proj1 O) as V. pose proof (proj1 V) as T. unfold tb_storage. f_equal.
    apply nth_ext' with (d := 0); [rewrite !map_length; unfold nodes; rewrite seq_length; apply (ok_cores_length X r O)|].
    rewrite map_length, (ok_cores_length X r O). intros k Hk.
    assert (Hn : node (ttree X) (S k)) by (unfold node; lia).
    rewrite map_nth_in with (da := no_core) by (rewrite (ok_cores_length X r O); auto).
    rewrite map_nth_in with (da := 0) by (unfold nodes; rewrite seq_length; auto).
    unfold nodes. rewrite seq_nth by auto. cbn [plus].
    replace (nth k (cores X) no_core) with (core X (S k)) by (unfold core, nthc; rewrite Nat.sub_succ, Nat.sub_0_r; auto).
    set (n := S k) in *. destruct (active X n) eqn:Ha.
    - unfold ft_storage, np_size. rewrite (ok_shape X n Hn Ha), prodn_app. pose proof (root_not_leaf X r O H2) as Hr.
      destruct (is_leaf (ttree X) n) eqn:El.
      + rewrite (heads_leaf X r O n El Ha). assert (Hne : n <> r) by (intros E; rewrite E in El; congruence).
        rewrite (ok_exts_rank X r O n Hn Ha Hne). unfold tb_size, tb_rank. rewrite Ha, El. cbn. lia.
      + rewrite (heads_internal X r O n Hn El). f_equal.
        * f_equal. apply map_ext_in. intros c Hc. apply in_children in Hc; auto. apply (csize_rank X r); auto; [apply Hc|].
          intros E. rewrite E in Hc. apply (rt_no_edge _ r T n Hc).
        * unfold tb_rank. rewrite El. destruct (Nat.eq_dec n r) as [E|Hne].
          -- assert (Hp : parent (ttree X) n = 0) by (rewrite E; apply (parent_root _ r T)). rewrite Hp. cbn [Nat.eqb negb orb].
             assert (Hnd : ndim (core X n) = length (children (ttree X) n) + length (exts X n)).
             { unfold ndim. rewrite (ok_shape X n Hn Ha) at 1. rewrite app_length, (heads_internal X r O n Hn El), map_length. auto. }
             rewrite Hnd. destruct (O) as (_ & _ & _ & O4). destruct (O4 n Hn) as (_ & Ho & _). destruct (Ho Ha) as (_ & _ & HL1).
             destruct (exts X n) as [|a [|b l]] eqn:Ee; cbn [length] in *; try lia.
             ++ destruct (Nat.eqb_spec (length (children (ttree X) n) + 0) (length (children (ttree X) n) + 1)); [lia|]. auto.
             ++ rewrite Nat.eqb_refl. rewrite (ok_shape X n Hn Ha), Ee, last_last. cbn. lia.
          -- assert (Hp : parent (ttree X) n <> 0).
             { destruct (parent_is_edge _ r T n Hn Hne) as [Hp _]. unfold node in Hp. lia. }
             apply Nat.eqb_neq in Hp. rewrite Hp. cbn [negb orb]. rewrite (ok_exts_rank X r O n Hn Ha Hne). cbn. lia.
    - unfold active, activec in Ha. apply negb_false_iff in Ha. apply Nat.eqb_eq in Ha. exact Ha.
  Qed.
  Lemma sumn_le l l' : Forall2 le l l' -> sumn l <= sumn l'.
  Proof. induction 1; simpl; lia. Qed.
  Lemma sumn_map_le {A} (f g : A -> nat) l : (forall a, In a l -> f a <= g a) -> sumn (map f l) <= sumn (map g l).
  Proof. intros H. apply sumn_le. induction l as [|a l IH]; simpl; constructor; auto; [apply H; simpl; auto|]. apply IH. intros; apply H; simpl; auto. Qed.
  Lemma ft_sparse_le z (A : nd R) : ft_sparse_storage z A <= ft_storage A.
  Proof.
    unfold ft_sparse_storage, ft_storage, np_size. eapply Nat.le_trans; [apply filter_length_le|]. rewrite boxF_length. auto.
  Qed.
  Lemma tb_sparse_le z (X : tbt R) : tb_sparse_storage z X <= tb_storage X.
  Proof. apply sumn_map_le. intros. apply ft_sparse_le. Qed.
  Lemma sumn_perm l l' : Permutation l l' -> sumn l = sumn l'.
  Proof. induction 1; simpl; lia. Qed.
  Lemma sumn_app l l' : sumn (l ++ l') = sumn l + sumn l'.
  Proof. induction l; simpl; lia. Qed.
  Lemma cores_map (X : tbt R) r : tb_ok X r -> cores X = map (core X) (nodes (ttree X)).
  Proof.
    intros O. pose proof (ok_cores_length X r O) as L. apply nth_ext' with (d := no_core); [rewrite map_length; unfold nodes; rewrite seq_length; auto|].
    intros k Hk. rewrite map_nth_in with (da := 0) by (unfold nodes; rewrite seq_length; lia). unfold nodes. rewrite seq_nth by lia.
    unfold core, nthc. cbn [plus]. rewrite Nat.sub_succ, Nat.sub_0_r. auto.
  Qed.
  Lemma tb_sparse_leaves_between z (X : tbt R) r : tb_ok X r ->
    tb_sparse_storage z X <= tb_sparse_leaves_storage z X <= tb_storage X.
  Proof.
    intros O. pose proof (DimTreeP5.internal_leaves _ r (proj1 O)) as P.
    assert (E1 : forall f, sumn (map f (cores X)) = sumn (map (fun n => f (core X n)) (internal_nodes (ttree X))) + sumn (map (fun n => f (core X n)) (d2i (ttree X)))).
    { intros f. rewrite (cores_map X r O), map_map, <- sumn_app, <- map_app. apply sumn_perm. apply Permutation_map. apply Permutation_sym. auto. }
    unfold tb_sparse_storage, tb_storage, tb_sparse_leaves_storage. rewrite !E1. split.
    - apply Nat.add_le_mono; [|lia]. apply sumn_map_le. intros. apply ft_sparse_le.
    - apply Nat.add_le_mono; [lia|]. apply sumn_map_le. intros. apply ft_sparse_le.
  Qed.
End Storage.
