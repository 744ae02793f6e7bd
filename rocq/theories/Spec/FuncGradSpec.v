(** Vocabulary for functions given by a tree-based tensor and evaluations of bases (no code is modelled here). *)
From Coq Require Import List Arith Bool.
From Verif.Base Require Import ListAux CRing Index.
From Verif.Model Require Import Numpy FullTensor DimensionTree TreeBased.
From Verif.Spec Require Import TensorSpec TreeSpec TreeTensorSpec.
Import ListNotations.

Section FuncGradSpec.
  Context {R : Type} {CR : CRing R}.
  Local Open Scope cr_scope.
  (** [Bs] holds one matrix per dimension, with one row per sample point (q of them) and one column per index of the tensor *)
  Definition bases_ok (X : tbt R) (Bs : list (nd R)) (q : nat) : Prop :=
    length Bs = tb_order X /\ forall mu, (mu < tb_order X)%nat -> shape (nth mu Bs (scalar r0)) = [q; nth mu (tb_shape X) 0%nat].
  (** the value at the sample point i (output e) of the function with tensor X in these bases:
      the sum over j_1, ..., j_d of X[j_1, ..., j_d, e] * B_1[i, j_1] * ... * B_d[i, j_d] *)
  Definition value_at (X : tbt R) (r : nat) (Bs : list (nd R)) (i : nat) (e : list nat) : R :=
    bsum (tb_shape X) (fun js => tval X r js e * lprod (seq 0 (tb_order X)) (fun mu => get (nth mu Bs (scalar r0)) [i; nth mu js 0%nat])).
  (** no two children of a node are inactive (as in the tensor train format); no node is an only child *)
  Definition few_inactive (X : tbt R) : Prop :=
    forall p c c', edge (ttree X) p c -> edge (ttree X) p c' -> active X c = false -> active X c' = false -> c = c'.
  Definition siblings (t : dtree) : Prop := forall p c, edge t p c -> exists c', edge t p c' /\ c' <> c.
  (** the formats for which the gradient is proved: all the nodes are active, or no two children of a node are inactive and no node is
      an only child *)
  Definition grad_format (X : tbt R) : Prop :=
    (forall m, node (ttree X) m -> active X m = true) \/ few_inactive X /\ siblings (ttree X).
End FuncGradSpec.
