(** The ranks of a tensor whose cores have full rank are admissible. *)
From Coq Require Import List Arith Lia Bool Permutation Sorted Reals.
From Verif.Base Require Import ListAux CRing Index RealAux LinAlg.
From Verif.Model Require Import Sorting Utils Numpy FullTensor DimensionTree TreeBased RankAdapt.
From Verif.Spec Require Import TensorSpec TreeSpec TreeTensorSpec RankSpec.
From Verif.Proofs Require Import NumpyP DimTreeP TreeTensorP TreeTensorP3 TreeTensorP4 TreeTensorP14 TreeTensorP15 FunctionsP PolyP5 RankP1 RankP2.
Import ListNotations.

Lemma nth_skipn (n : nat) : forall j (l : list nat), nth j (skipn n l) 0 = nth (n + j) l 0.
Proof. induction n as [|n IH]; intros j [|a l]; auto; cbn; [destruct j; auto|apply IH]. Qed.
Lemma rsum_extend n d (f g : nat -> R) : (forall j, j < n -> f j = g j) -> (forall j, n <= j < n + d -> f j = 0%R) -> rsum (n + d) f = rsum n g.
Proof.
  intros H1. induction d as [|d IH]; intros H2.
  - rewrite Nat.add_0_r. apply rsum_ext_R. auto.
  - rewrite Nat.add_succ_r, rsum_S_R, IH by (intros; apply H2; lia). rewrite H2 by lia. apply Rplus_0_r.
Qed.
Lemma indep_bound (A : nd R) k : k < ndim A -> independent_slices A k -> nth k (shape A) 0 <= prodn (firstn k (shape A) ++ skipn (S k) (shape A)).
Proof.
  intros Hk HI. unfold ndim in Hk. set (s := shape A) in *. set (o := firstn k s ++ skipn (S k) s). set (P := prodn o).
  destruct (le_lt_dec (nth k s 0) P) as [|LT]; auto. exfalso.
  destruct (dependent P (fun j i => get A (firstn k (nth i (boxF o) []) ++ j :: skipn k (nth i (boxF o) [])))) as (c & (k0 & Hk0 & Nz) & HD).
  apply Nz. set (x := fun j => if j <=? P then c j else 0%R). replace (c k0) with (x k0) by (unfold x; destruct (Nat.leb_spec k0 P); [auto|lia]).
  apply HI; [|fold s; lia]. intros is Hv. fold s in Hv |- *. pose proof (valid_length _ _ Hv) as Lv.
  assert (HO : valid o (firstn k is ++ skipn (S k) is)).
  { rewrite <- (firstn_skipn k s), <- (firstn_skipn k is) in Hv. apply valid_intro.
    - unfold o. rewrite !app_length, !firstn_length, !skipn_length. lia.
    - intros i Hi. unfold o in *. rewrite app_length, firstn_length, skipn_length in Hi. rewrite firstn_skipn in Hv. rewrite firstn_skipn in Hv.
      destruct (le_lt_dec k i) as [G|G].
      + rewrite !app_nth2 by (rewrite firstn_length; lia). rewrite !firstn_length. replace (Nat.min k (length is)) with k by lia. replace (Nat.min k (length s)) with k by lia. rewrite !nth_skipn. apply (valid_nth s is _ Hv). lia.
      + rewrite !app_nth1 by (rewrite firstn_length; lia). rewrite !nth_firstn_lt by lia. apply (valid_nth s is _ Hv). lia. }
  apply in_boxF in HO. destruct (In_nth _ _ [] HO) as (i & Hi & Ei). rewrite boxF_length in Hi. specialize (HD i Hi).
  replace (nth k s 0) with (S P + (nth k s 0 - S P)) by lia. rewrite <- HD. apply rsum_extend.
  - intros j Hj. rewrite Ei. unfold x. destruct (Nat.leb_spec j P); [|lia]. rewrite Rmult_comm. f_equal. f_equal. rewrite (upd_split k j 0) by lia.
    rewrite firstn_app, firstn_firstn, firstn_length, skipn_app, skipn_firstn_comm, firstn_length. replace (k - Nat.min k (length is)) with 0 by lia. rewrite Nat.min_id, Nat.sub_diag. cbn [firstn skipn app]. rewrite app_nil_r. auto.
  - intros j Hj. unfold x. destruct (Nat.leb_spec j P); [lia|]. apply Rmult_0_r.
Qed.

Section Necessary.
  Variables (X : tbt R) (r : nat).
  Hypothesis O : tb_ok X r.
  Hypothesis FR : full_rank_cores X r.
  Local Notation t := (ttree X).
  Local Notation ax := (axis_size X r (tb_ranks X)).
  Lemma ax_child c : node t c -> c <> r -> ax c = csize X c.
  Proof.
    intros Hc NE. unfold axis_size. rewrite (proj2 (Nat.eqb_neq c r) NE). rewrite (csize_rank X r c O Hc NE). destruct (active X c) eqn:Ha; [apply ranks_nth; auto|].
    unfold leaf_size. rewrite tb_shape_leaf; auto. apply (inactive_leaf X r O); auto.
  Qed.
  Lemma ax_node n : node t n -> active X n = true -> ax n = prodn (exts X n).
  Proof.
    intros Hn Ha. destruct (Nat.eq_dec n r) as [-> | NE]; [unfold axis_size; rewrite Nat.eqb_refl; auto|]. rewrite ax_child by auto. rewrite (ok_exts_rank X r O n Hn Ha NE). unfold csize. rewrite Ha. cbn. lia.
  Qed.
  Lemma ax_children n : node t n -> is_leaf t n = false -> heads X n = map ax (children t n).
  Proof.
    intros Hn Hl. rewrite (heads_internal X r O n Hn Hl). apply map_ext_in. intros c Hc. apply (proj1 (in_children t n c Hn)) in Hc. symmetry. apply ax_child; [apply Hc|]. intros ->.
    apply (rt_no_edge t r (proj1 (proj1 O)) n Hc).
  Qed.
  Lemma exts_bound n : node t n -> active X n = true -> 0 < prodn (heads X n) -> ax n <= prodn (heads X n).
  Proof.
    intros Hn Ha Hp. rewrite ax_node by auto. destruct (FR n Hn Ha) as [F1 _]. pose proof (ok_shape X n Hn Ha) as SH.
    destruct (exts X n) as [|e [|e' l]] eqn:E; [cbn; lia| |].
    - specialize (F1 ltac:(discriminate)). apply indep_bound in F1; [|unfold ndim; rewrite SH, app_length; cbn; lia].
      unfold ndim in F1. rewrite SH, app_length in F1. cbn [length] in F1. replace (length (heads X n) + 1 - 1) with (length (heads X n)) in F1 by lia.
      rewrite app_nth2, Nat.sub_diag in F1 by lia. cbn [nth] in F1. rewrite firstn_app, Nat.sub_diag, firstn_all in F1. cbn [firstn] in F1. rewrite app_nil_r in F1.
      rewrite skipn_all2 in F1 by (rewrite app_length; cbn; lia). rewrite app_nil_r in F1. cbn [prodn fold_right]. lia.
    - exfalso. destruct O as (_ & _ & _ & HN). destruct (HN n Hn) as (_ & A & _). destruct (A Ha) as (_ & _ & L). rewrite E in L. cbn in L. lia.
  Qed.
  Lemma ranks_admissible : admissible X r (tb_ranks X).
  Proof.
    pose proof (proj1 (proj1 O)) as T.
    assert (PH : forall n, node t n -> active X n = true -> 0 < prodn (heads X n)).
    { intros n Hn Ha. pose proof (proj1 (active_prod X n) Ha) as K. rewrite (ok_shape X n Hn Ha), prodn_app in K. nia. }
    split; [|split; [|split]].
    - intros n Hn Ha. rewrite ranks_nth by auto. unfold tb_rank. rewrite (inactive_leaf X r O n Hn Ha), Ha. auto.
    - intros n Hn Ha Hl. pose proof (exts_bound n Hn Ha (PH n Hn Ha)) as K. rewrite (heads_leaf X r O n Hl Ha) in K. cbn [prodn fold_right] in K. rewrite (act_leaf_size X n Hn Hl Ha). lia.
    - intros n Hn Hl. pose proof (ok_internal X r O n Hn Hl) as Ha. rewrite <- ax_children by auto. apply exts_bound; auto.
    - intros n c He Hac. assert (Hn : node t n) by apply He. assert (Hl : is_leaf t n = false).
      { destruct (is_leaf t n) eqn:E; auto. exfalso. apply (proj1 (leaf_iff t r (proj1 O) n)) in E. destruct E as [_ E]. apply (E c He). }
      pose proof (ok_internal X r O n Hn Hl) as Ha. destruct (FR n Hn Ha) as [_ F2]. specialize (F2 c He Hac). pose proof (ok_shape X n Hn Ha) as SH. rewrite (ax_children n Hn Hl) in SH.
      set (ch := children t n) in *. assert (Hc : In c ch) by (apply in_children; auto). pose proof (NoDup_children t n) as ND. fold ch in ND. destruct (index_of_nth ch c Hc) as [Hi Ei]. set (k := index_of c ch) in *.
      apply indep_bound in F2; [|unfold ndim; rewrite SH, app_length, map_length; lia]. rewrite SH in F2. rewrite app_nth1 in F2 by (rewrite map_length; auto). rewrite (map_nth_in _ _ _ 0) in F2 by auto. rewrite Ei in F2.
      assert (EF : firstn k (map ax ch ++ exts X n) ++ skipn (S k) (map ax ch ++ exts X n) = map ax (filter (fun c' => negb (c' =? c)) ch) ++ exts X n).
      { rewrite firstn_app, skipn_app, map_length. replace (k - length ch) with 0 by lia. replace (S k - length ch) with 0 by lia. rewrite firstn_O, skipn_O. rewrite app_nil_r, app_assoc. f_equal. rewrite firstn_map, skipn_map, <- map_app. f_equal.
        assert (EC : ch = firstn k ch ++ c :: skipn (S k) ch).
        { rewrite <- (firstn_skipn k ch) at 1. rewrite (skipn_nth_cons 0) by auto. rewrite Ei. auto. }
        assert (ND' : ~ In c (firstn k ch ++ skipn (S k) ch)) by (apply NoDup_remove_2; rewrite <- EC; auto). transitivity (filter (fun c' => negb (c' =? c)) (firstn k ch ++ c :: skipn (S k) ch)); [|rewrite <- EC; auto].
        rewrite filter_app. cbn [filter]. rewrite Nat.eqb_refl. cbn [negb].
        rewrite !filter_true; auto; intros c' Hc'; apply negb_true_iff, Nat.eqb_neq; intros ->; apply ND'; apply in_or_app; auto. }
      rewrite EF, prodn_app in F2. rewrite (ax_node n Hn Ha). lia.
  Qed.
End Necessary.
