(** Vocabulary for tree-based ranks (no code of tensap is modelled here). *)
From Coq Require Import List Arith Bool Reals.
From Verif.Base Require Import ListAux CRing Index RealAux.
From Verif.Model Require Import Numpy FullTensor DimensionTree TreeBased.
From Verif.Spec Require Import TensorSpec TreeSpec TreeTensorSpec.
Import ListNotations.

Section RankSpec.
  Context {R : Type} {CR : CRing R}.
  (** size of the dimension of the leaf n of X *)
  Definition leaf_size (X : tbt R) (n : nat) : nat := nth (index_of n (d2i (ttree X))) (tb_shape X) 0.
  (** the entry of the node n in a tree-based rank v (nodes are numbered from 1) *)
  Definition rk (v : list nat) (n : nat) : nat := nth (n - 1) v 0.
  (** the size of the axis of the node n in the core of its parent, in a tensor with the tree, the shape and the active nodes of X and with
      tree-based rank v; at the root, the number of outputs *)
  Definition axis_size (X : tbt R) (r : nat) (v : list nat) (n : nat) : nat :=
    if n =? r then prodn (exts X r) else if active X n then rk v n else leaf_size X n.
  (** v is an admissible tree-based rank: zero at the inactive nodes; in each core, the size of the axis of the node does not exceed the product of the
      sizes of the other axes, nor does the size of the axis of an active child *)
  Definition admissible (X : tbt R) (r : nat) (v : list nat) : Prop :=
    (forall n, node (ttree X) n -> active X n = false -> rk v n = 0) /\
    (forall n, node (ttree X) n -> active X n = true -> is_leaf (ttree X) n = true -> axis_size X r v n <= leaf_size X n) /\
    (forall n, node (ttree X) n -> is_leaf (ttree X) n = false -> axis_size X r v n <= prodn (map (axis_size X r v) (children (ttree X) n))) /\
    (forall n c, edge (ttree X) n c -> active X c = true ->
       axis_size X r v c <= axis_size X r v n * prodn (map (axis_size X r v) (filter (fun c' => negb (c' =? c)) (children (ttree X) n)))).
  (** the inactive leaves come in the order of their dimensions, or all have the same size *)
  Definition inactive_sorted (X : tbt R) : Prop :=
    (forall mu nu, mu < nu < tb_order X -> active X (nth mu (d2i (ttree X)) 0) = false -> active X (nth nu (d2i (ttree X)) 0) = false ->
       nth mu (d2i (ttree X)) 0 < nth nu (d2i (ttree X)) 0) \/
    (forall n m, node (ttree X) n -> node (ttree X) m -> active X n = false -> active X m = false -> leaf_size X n = leaf_size X m).
  (** the rank asked for at the node n, when the caller asks for [rank]: not more than the size of the dimension at a leaf, 0 at an inactive node *)
  Definition wanted (X : tbt R) (rank : list nat) (n : nat) : nat :=
    if active X n then if is_leaf (ttree X) n then Nat.min (rk rank n) (leaf_size X n) else rk rank n else 0.
  (** at each node, the rank v is the current rank of X or the one asked for *)
  Definition between (X : tbt R) (rank v : list nat) : Prop :=
    length v = nbn (ttree X) /\ forall n, node (ttree X) n -> rk v n = tb_rank X n \/ rk v n = wanted X rank n.
  (** number of the nodes at which v is not the rank asked for *)
  Definition refused (X : tbt R) (rank v : list nat) : nat :=
    length (filter (fun n => negb (rk v n =? wanted X rank n)) (nodes (ttree X))).
End RankSpec.
(** the slices of A along its k-th axis are linearly independent: the unfolding of A along this axis has full rank *)
Definition independent_slices (A : nd R) (k : nat) : Prop :=
  forall x : nat -> R, (forall is, valid (shape A) is -> rsum (nth k (shape A) 0) (fun j => get A (upd k j is) * x j)%R = 0%R) ->
  forall j, j < nth k (shape A) 0 -> x j = 0%R.
(** the cores of X have full rank: along the axis of each active child, and along the last axis (that of the node; at the root, the outputs, if any) *)
Definition full_rank_cores (X : tbt R) (r : nat) : Prop :=
  forall n, node (ttree X) n -> active X n = true ->
    (exts X n <> [] -> independent_slices (core X n) (ndim (core X n) - 1)) /\
    (forall c, edge (ttree X) n c -> active X c = true -> independent_slices (core X n) (index_of c (children (ttree X) n))).
(** *** The nodes whose rank is increased.  [sv]: the smallest singular value at each node, None when there is none *)
Definition sval (sv : list (option R)) (n : nat) : option R := nth (n - 1) sv None.
Section NewRankSpec.
  Context {K : Type} {CR : CRing K}.
  (** the nodes that cannot be increased: the root, the leaves without singular value, and the nodes whose children all are such nodes and whose rank is
      the product of the ranks of the children *)
  Inductive stuck (X : tbt K) (r : nat) (sv : list (option R)) : nat -> Prop :=
  | stuck_root : stuck X r sv r
  | stuck_leaf n : node (ttree X) n -> is_leaf (ttree X) n = true -> sval sv n = None -> stuck X r sv n
  | stuck_node n : node (ttree X) n -> is_leaf (ttree X) n = false -> (forall c, edge (ttree X) n c -> stuck X r sv c) ->
      tb_rank X n = prodn (map (tb_rank X) (children (ttree X) n)) -> stuck X r sv n.
  (** the node n may be increased; its singular value is x *)
  Definition candidate (X : tbt K) (r : nat) (sv : list (option R)) (n : nat) (x : R) : Prop :=
    node (ttree X) n /\ ~ stuck X r sv n /\ sval sv n = Some x.
  (** v is the rank of X, increased by one at the nodes of E *)
  Definition increased (X : tbt K) (E v : list nat) : Prop :=
    length v = nbn (ttree X) /\ forall n, node (ttree X) n -> (In n E -> rk v n = S (tb_rank X n)) /\ (~ In n E -> rk v n = tb_rank X n).
End NewRankSpec.
