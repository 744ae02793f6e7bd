(** Vocabulary for the empirical risk of functions in tree-based tensor format (no code of tensap is modelled here). *)
From Coq Require Import List Arith Bool Reals.
From Verif.Base Require Import ListAux CRing Index RealAux.
From Verif.Model Require Import Numpy FullTensor DimensionTree TreeBased Learning.
From Verif.Spec Require Import TensorSpec TreeSpec TreeTensorSpec GradSpec FuncGradSpec.
Import ListNotations.
Local Open Scope R_scope.

(** the values to be learned: one per sample point and output; for a function with one output (no output axis in the tensor) the
    array of values has shape [q] or [q; 1] *)
Definition outputs_ok (X : tbt R) (r : nat) (y : nd R) (q : nat) : Prop :=
  shape y = q :: exts X r \/ exts X r = [] /\ shape y = [q; 1%nat].
Definition datum (y : nd R) (i : nat) (e : list nat) : R :=
  match e, shape y with [], [_; _] => get y [i; 0%nat] | _, _ => get y (i :: e) end.
(** the sum over the sample points and the outputs of the squared errors of the function with tensor X *)
Definition risk (X : tbt R) (r : nat) (Bs : list (nd R)) (y : nd R) (q : nat) : R :=
  rsum q (fun i => bsum (exts X r) (fun e => (datum y i e - value_at X r Bs i e) ^ 2)).
(** the error of the zero function *)
Definition risk0 (X : tbt R) (r : nat) (y : nd R) (q : nat) : R := rsum q (fun i => bsum (exts X r) (fun e => datum y i e ^ 2)).
(** numpy.linalg.lstsq returns the solution of minimal norm: here, what is needed of it (the system with the zero matrix) *)
Definition lstsq_zero (L : lapack) : Prop := forall M b, (forall i j, (i < mrows M)%nat -> (j < mcols M)%nat -> ment M i j = 0) ->
  forall j, (j < mcols M)%nat -> l_lstsq L M b j = 0.
(** the flag of the tensor is right: when it is set, the cores other than that of the root have orthonormal columns *)
Definition flag_right (X : tbt R) (r : nat) (fl : bool) : Prop :=
  fl = true -> forall m, node (ttree X) m -> active X m = true -> m <> r -> orth_cols (core X m).
(** Y is a tensor with the tree, the shape and the active nodes of X, and ranks that do not exceed those of X *)
Definition same_format (X Y : tbt R) (r : nat) : Prop :=
  tb_ok Y r /\ ttree Y = ttree X /\ tb_shape Y = tb_shape X /\ exts Y r = exts X r /\ (forall m, node (ttree X) m -> active Y m = active X m) /\
  (forall m, node (ttree X) m -> active X m = true -> m <> r -> (last (shape (core Y m)) 0 <= last (shape (core X m)) 0)%nat).
(** no change of the core of n alone gives a smaller error *)
Definition core_min (X : tbt R) (r : nat) (Bs : list (nd R)) (y : nd R) (q n : nat) : Prop :=
  forall Y, differs_at X Y r n -> risk X r Bs y q <= risk Y r Bs y q.
(** among the functions obtained by changing the core of n, none is better than the zero function *)
Definition zero_min (X : tbt R) (r : nat) (Bs : list (nd R)) (y : nd R) (q n : nat) : Prop :=
  forall Y, differs_at X Y r n -> risk0 X r y q <= risk Y r Bs y q.
(** the same function (values at every sample point and output), whatever the bases *)
Definition same_function (X Y : tbt R) (r : nat) : Prop :=
  exts Y r = exts X r /\ forall Bs i e, valid (exts X r) e -> value_at Y r Bs i e = value_at X r Bs i e.
(** the situation in which alternating minimisation is run: a valid tensor of order at least 2, no two children of a node inactive (all
    the nodes may be active, or as in the tensor train format), every node but the root with a sibling, an output axis of size other than 1, bases and values with the right shapes, and a right flag *)
Definition learning_ready (X : tbt R) (r : nat) (Bs : list (nd R)) (y : nd R) (q : nat) (fl : bool) : Prop :=
  tb_ok X r /\ (2 <= tb_order X)%nat /\ few_inactive X /\ siblings (ttree X) /\
  bases_ok X Bs q /\ outputs_ok X r y q /\ exts X r <> [1%nat] /\ flag_right X r fl.
