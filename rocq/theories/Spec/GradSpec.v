(** Vocabulary for the evaluation of diagonals and gradients of tree-based tensors (no code is modelled here). *)
From Coq Require Import List Arith Bool.
From Verif.Base Require Import ListAux CRing Index.
From Verif.Model Require Import Numpy FullTensor DimensionTree TreeBased.
From Verif.Spec Require Import TensorSpec TreeSpec TreeTensorSpec.
Import ListNotations.

Section GradSpec.
  Context {R : Type} {CR : CRing R}.
  Local Open Scope cr_scope.

  (** the nodes for which no diagonal is computed: those of [except] and, if a node a other than the root is given, a and
      its ascendants *)
  Definition excluded (X : tbt R) (r : nat) (alpha : option nat) (except : list nat) (n : nat) : Prop :=
    In n except \/ exists a, alpha = Some a /\ a <> r /\ node (ttree X) n /\ below (ttree X) n a.
  (** [Y] differs from [X] at most in the sub-tree of n *)
  Definition differs_below (X Y : tbt R) (r n : nat) : Prop :=
    tb_ok Y r /\ ttree Y = ttree X /\ forall m, node (ttree X) m -> ~ below (ttree X) n m -> core Y m = core X m.
  (** [Y] differs from [X] at most by the entries of the core of node n *)
  Definition differs_at (X Y : tbt R) (r n : nat) : Prop :=
    tb_ok Y r /\ ttree Y = ttree X /\ shape (core Y n) = shape (core X n) /\ forall m, node (ttree X) m -> m <> n -> core Y m = core X m.
  (** every node on the path from the root to n (the root excepted) has a sibling *)
  Definition siblings_above (t : dtree) (n : nat) : Prop :=
    forall p c, edge t p c -> below t c n -> exists c', edge t p c' /\ c' <> c.
  (** the leaves whose index is an index of the core of n: n itself if it is a leaf, its inactive children otherwise;
      and the corresponding dimensions *)
  Definition own_leaves (X : tbt R) (n : nat) : list nat :=
    if is_leaf (ttree X) n then [n] else filter (fun c => negb (active X c)) (children (ttree X) n).
  Definition own_dims (X : tbt R) (n : nat) : list nat := map (fun c => index_of c (d2i (ttree X))) (own_leaves X n).
  (** the axes of the core of n that correspond to active (b = true) or inactive (b = false) children *)
  Definition kid_axes (X : tbt R) (n : nat) (b : bool) : list nat :=
    filter (fun j => Bool.eqb (active X (nth j (children (ttree X) n) 0%nat)) b) (seq 0 (length (children (ttree X) n))).
  (** the entry of X at the diagonal multi-index (i, ..., i), where the own dimensions of n are evaluated with the matrices
      [Ms] (one per dimension, with one row per i): the sum over the indices js of these dimensions of the product of the
      entries (i, j) of the matrices and of the entry of X *)
  Definition diag_with (X : tbt R) (r n : nat) (Ms : nat -> nd R) (i : nat) (e : list nat) : R :=
    bsum (map (fun d => nth d (tb_shape X) 0%nat) (own_dims X n)) (fun js =>
      lprod (combine (own_dims X n) js) (fun p => get (Ms (fst p)) [i; snd p]) *
      tval X r (put (own_dims X n) js (repeat i (tb_order X))) e).
End GradSpec.
(** j_1, k_1, j_2, k_2, ...; and s_1, s_1, s_2, s_2, ... *)
Definition interleave (js ks : list nat) : list nat := flat_map (fun p => [fst p; snd p]) (combine js ks).
Definition dup (s : list nat) : list nat := flat_map (fun n => [n; n]) s.
