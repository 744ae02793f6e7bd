(** Property C41: converting a tensor between formats preserves its entries
    (FullTensor, SparseTensor, DiagonalTensor, CanonicalTensor, TreeBasedTensor).
    [full] is the common ground: each theorem says that the dense form of the converted tensor is the
    dense form of the original one.  Vocabulary: Spec/TensorSpec.v, Spec/TreeSpec.v, Spec/TreeTensorSpec.v. *)
From Coq Require Import List Arith ZArith Lia Bool Permutation.
From Verif.Base Require Import ListAux CRing Index.
From Verif.Model Require Import MultiIndices Numpy FullTensor Canonical Sparse DimensionTree TreeBased Conversions.
From Verif.Model Require Diagonal.
From Verif.Spec Require Import TensorSpec TreeSpec TreeTensorSpec.
From Verif.Proofs Require DiagonalP CanonicalP SparseP DimTreeP2 ConversionsP.
From Verif.Props Require P04_Formats P06_TreeBased.
Import ListNotations.

(** dense -> sparse -> dense *)
Theorem c41_full_sparse_full : forall R (CR : CRing R) (ZT : ZeroTest R) (A : nd R),
  exists x, ft_sparse A = Some x /\ returns (sp_full x) (shape A) (get A).
Proof.
  intros R CR ZT A. destruct (SparseP.ft_sparse_spec A) as (x & H1 & H2 & H3 & H4 & _). exists x. split; auto.
  destruct (SparseP.sp_full_spec x H2) as (B & HB & Hs & Hg). exists B. split; auto. split; [congruence|].
  intros is Hv. rewrite Hg by congruence. auto.
Qed.
Print Assumptions c41_full_sparse_full.
(** sparse -> dense -> sparse: the stored multi-indices are those of the nonzero entries *)
Theorem c41_sparse_full_sparse : forall R (CR : CRing R) (ZT : ZeroTest R) (x : sp R), P04_Formats.wf x ->
  exists A y, sp_full x = Some A /\ ft_sparse A = Some y /\ P04_Formats.wf y /\ sp_shape y = sp_shape x /\
    (forall is, valid (sp_shape x) is -> P04_Formats.val y is = P04_Formats.val x is) /\
    (forall is, valid (sp_shape x) is -> (In (map Z.of_nat is) (sp_rows y) <-> P04_Formats.val x is <> r0)).
Proof.
  intros R CR ZT x Hx. destruct (SparseP.sp_full_spec x Hx) as (A & HA & Hs & Hg).
  destruct (SparseP.ft_sparse_spec A) as (y & H1 & H2 & H3 & H4 & H5 & _). exists A, y. rewrite Hs in *.
  split; auto. split; auto. split; auto. split; auto. split; intros is Hv.
  - unfold P04_Formats.val at 1. rewrite H4 by auto. apply Hg; auto.
  - rewrite H5 by auto. rewrite Hg by auto. reflexivity.
Qed.
Print Assumptions c41_sparse_full_sparse.
(** diagonal -> sparse -> dense is diagonal -> dense *)
Theorem c41_diagonal_sparse : forall R (CR : CRing R) (ZT : ZeroTest R) (v : list R) order, 0 < order ->
  let x := Diagonal.dt_make v order in
  exists y, dt_sparse x = Some y /\ returns (sp_full y) (shape (Diagonal.dt_full x)) (get (Diagonal.dt_full x)).
Proof.
  intros R CR ZT v order Ho x. destruct (SparseP.dt_sparse_spec v order Ho) as (y & H1 & H2 & H3 & H4 & _). exists y. split; auto.
  destruct (SparseP.sp_full_spec y H2) as (B & HB & Hs & Hg). exists B. split; auto.
  pose proof (DiagonalP.ft_diag_spec v order Ho) as [Es Eg]. unfold x, Diagonal.dt_full. cbn [Diagonal.dt_data Diagonal.dt_order Diagonal.dt_make].
  rewrite Es. split; [congruence|]. intros is Hv. rewrite Hg by congruence. rewrite Eg by auto. apply H4. congruence.
Qed.
Print Assumptions c41_diagonal_sparse.
(** dense -> tree-based, on the trivial tree, any order *)
Theorem c41_full_tree : forall R (CR : CRing R) (A : nd R), 1 <= ndim A -> Forall (fun n => 0 < n) (shape A) ->
  exists X, ft_tree_based_tensor A = Some X /\ ttree X = dt_trivial (ndim A) /\ returns (tb_full X) (shape A) (get A).
Proof. exact (fun R CR => ConversionsP.ft_tbt_spec). Qed.
Print Assumptions c41_full_tree.
(** diagonal -> tree-based, for any tree and any choice of active leaves (the internal nodes being active) *)
Theorem c41_diagonal_tree : forall R (CR : CRing R) (v : list R) order t r act, dim_tree t r -> length (d2i t) = order -> 2 <= order -> 0 < length v ->
  (forall n, node t n -> is_leaf t n = false -> n <> r -> nth (n - 1) act false = true) ->
  let x := Diagonal.dt_make v order in
  exists X, dg_tree_based_tensor x (Some t) (Some act) = Some X /\ ttree X = t /\ tb_ok X r /\
    (forall n, node t n -> (active X n = true <-> n = r \/ nth (n - 1) act false = true)) /\
    returns (tb_full X) (shape (Diagonal.dt_full x)) (get (Diagonal.dt_full x)).
Proof.
  intros R CR v order t r act V HO H2 Hv Ha x. destruct (ConversionsP.dg_tbt_spec v order t r act V HO H2 Hv Ha) as (X & HX & HT & Hok & HA & A & HF & Hs & Hg).
  exists X. split; auto. split; auto. split; auto. split; auto. exists A. split; auto.
  assert (Ho : 0 < order) by lia. pose proof (DiagonalP.ft_diag_spec v order Ho) as [Es Eg].
  unfold x, Diagonal.dt_full. cbn [Diagonal.dt_data Diagonal.dt_order Diagonal.dt_make]. rewrite Es. split; auto. intros is Hi. rewrite Hg, Eg; auto.
Qed.
Print Assumptions c41_diagonal_tree.
(** ... without arguments: linear tree, inactive leaves *)
Theorem c41_diagonal_tree_default : forall R (CR : CRing R) (v : list R) order, 2 <= order -> 0 < length v ->
  let x := Diagonal.dt_make v order in
  exists X, dg_tree_based_tensor x None None = Some X /\ ttree X = dt_linear order (seq 0 order) /\
    (forall n, node (ttree X) n -> (active X n = true <-> is_leaf (ttree X) n = false)) /\
    returns (tb_full X) (shape (Diagonal.dt_full x)) (get (Diagonal.dt_full x)).
Proof.
  intros R CR v order H2 Hv x. destruct (ConversionsP.dg_tbt_default v order H2 Hv) as (X & HX & HT & HA & A & HF & Hs & Hg).
  exists X. split; auto. split; auto. split; auto. exists A. split; auto.
  assert (Ho : 0 < order) by lia. pose proof (DiagonalP.ft_diag_spec v order Ho) as [Es Eg].
  unfold x, Diagonal.dt_full. cbn [Diagonal.dt_data Diagonal.dt_order Diagonal.dt_make]. rewrite Es. split; auto. intros is Hi. rewrite Hg, Eg; auto.
Qed.
Print Assumptions c41_diagonal_tree_default.
(** ... an inactive internal node raises *)
Theorem c41_diagonal_tree_raises : forall R (CR : CRing R) (v : list R) order t r act n, dim_tree t r ->
  node t n -> n <> r -> is_leaf t n = false -> nth (n - 1) act false = false ->
  dg_tree_based_tensor (Diagonal.dt_make v order) (Some t) (Some act) = None.
Proof. exact (fun R CR => ConversionsP.dg_tbt_raises). Qed.
Print Assumptions c41_diagonal_tree_raises.
(** canonical -> tree-based, for any tree and any choice of active leaves *)
Theorem c41_canonical_tree : forall R (CR : CRing R) (x : cp R) t r act, cp_ok (cp_core x) (cp_space x) -> dim_tree t r ->
  length (d2i t) = length (cp_space x) -> 2 <= length (cp_space x) -> 0 < length (cp_core x) -> Forall (fun n => 0 < n) (cp_dims (cp_space x)) ->
  (forall a n, act = Some a -> node t n -> is_leaf t n = false -> nth (n - 1) a false = true) ->
  exists A X, cp_full x = Some A /\ cp_tree_based_tensor x t act = Some X /\ ttree X = t /\ tb_ok X r /\
    (forall n, node t n -> (active X n = true <-> match act with None => True | Some a => nth (n - 1) a false = true end)) /\
    returns (tb_full X) (shape A) (get A).
Proof.
  intros R CR x t r act Hx V HO H2 Hc HP Ha. rewrite <- HO in H2.
  destruct (ConversionsP.cp_tbt_spec x t r act Hx V HO H2 Hc HP Ha) as (X & HX & HT & Hok & HA & B & HF & Hs & Hg).
  destruct (CanonicalP.cp_full_spec x Hx) as (A & EA & As & Ag). change (cp_shape x) with (cp_dims (cp_space x)) in *.
  exists A, X. split; auto. split; auto. split; auto. split; auto. split; auto. exists B. split; auto. split; [congruence|].
  intros is Hi. rewrite As in Hi. rewrite Hg, Ag; auto.
Qed.
Print Assumptions c41_canonical_tree.

(** a canonical tensor of rank 2 on the balanced tree of order 4, leaves 4 and 6 inactive; a diagonal
    tensor on the same tree; a dense tensor of order 3 *)
Definition ex41C : cp Z := CP [3; -2]%Z (map (fun s => P06_TreeBased.ex_core s 3) [[2;2];[3;2];[1;2];[2;2]])%nat.
Definition ex41a : list bool := [true; true; true; false; true; false; true].
Example c41_ex :
  cp_ok (cp_core ex41C) (cp_space ex41C) /\ Forall (fun n => 0 < n) (cp_dims (cp_space ex41C)) /\
  (let* X := cp_tree_based_tensor ex41C (dt_balanced 4 [0;1;2;3]) (Some ex41a) in let* A := tb_full X in Some (active_nodes X, to_list A)) =
  (let* A := cp_full ex41C in Some ([1;2;3;5;7], to_list A)) /\
  (let* X := dg_tree_based_tensor (Diagonal.dt_make [4;-1;5]%Z 4) (Some (dt_balanced 4 [0;1;2;3])) (Some ex41a) in let* A := tb_full X in Some (active_nodes X, to_list A)) =
  Some ([1;2;3;5;7], to_list (Diagonal.dt_full (Diagonal.dt_make [4;-1;5]%Z 4))) /\
  (let* X := ft_tree_based_tensor (P06_TreeBased.ex_core [2;3;2] 4) in let* A := tb_full X in Some (to_list A)) =
  Some (to_list (P06_TreeBased.ex_core [2;3;2] 4)).
Proof.
  split; [split; [discriminate|]; repeat constructor; eexists; reflexivity|]. split; [repeat constructor|]. vm_compute. auto.
Qed.
