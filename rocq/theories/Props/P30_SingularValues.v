(** C67: the higher-order singular values (FullTensor.singular_values, TreeBasedTensor.singular_values). *)
From Coq Require Import List Arith Lia Bool Reals Lra.
From Verif.Base Require Import ListAux CRing Index RealAux.
From Verif.Model Require Import Sorting Numpy FullTensor Diagonal Canonical DimensionTree TreeBased Truncator HsvdTree SingularValues.
From Verif.Spec Require Import TensorSpec TreeSpec TreeTensorSpec TruncatorSpec GramSpec SingularSpec.
From Verif.Proofs Require Import HsvdTreeP12 SingularP2 SingularP3 SingularP4.
Import ListNotations.
Local Open Scope R_scope.

(** A dense tensor: for an order different from 2, one list per dimension d, the singular values of the d-matricization;
    for a matrix one list, the singular values of both matricizations. *)
Theorem c67_dense : forall svd, svd_contract svd -> forall A : nd R, exists v, ft_singular_values svd A = Some v /\
  match v with
  | inl sv => ndim A = 2%nat /\ singular_values_of A [0%nat] sv /\ singular_values_of A [1%nat] sv
  | inr l => ndim A <> 2%nat /\ length l = ndim A /\ forall d, (d < ndim A)%nat -> singular_values_of A [d] (nth d l [])
  end.
Proof. exact ft_sv_main. Qed.
Print Assumptions c67_dense.
(** A tree-based tensor: for every active node n other than the root, the singular values of the matricization of the
    represented tensor A for the dimensions of n, at most as many as the rank of n; None for an inactive leaf. The value at the
    root is [1] for every tensor: see c67_root_refuted. *)
Theorem c67_tree_partial : forall svd qr, svd_contract svd -> qr_contract qr -> forall (X : tbt R) r A,
  tb_ok X r -> (2 <= tb_order X)%nat -> tb_full X = Some A ->
  exists L, tb_singular_values svd qr X = Some L /\ length L = nbn (ttree X) /\ forall n, node (ttree X) n ->
    (n = r -> nth (n - 1) L None = Some [1]) /\
    (n <> r -> active X n = false -> nth (n - 1) L None = None) /\
    (n <> r -> active X n = true -> exists sv, nth (n - 1) L None = Some sv /\ singular_values_of A (dims (ttree X) n) sv /\
                                               (length sv <= last (shape (core X n)) 0)%nat).
Proof. exact tb_sv_nth. Qed.
Print Assumptions c67_tree_partial.
(** The root: its matricization has the norm of the tensor as singular value, and the method returns 1. *)
Theorem c67_root_refuted : forall svd qr, svd_contract svd -> qr_contract qr -> exists X r A L,
  tb_ok X r /\ tb_full X = Some A /\ tb_singular_values svd qr X = Some L /\ (2 <= tb_order X)%nat /\ dims (ttree X) r = seq 0 (ndim A) /\
  nth (r - 1) L None = Some [1] /\ ~ singular_values_of A (dims (ttree X) r) [1] /\ sumsq [1] <> frob2 A.
Proof. exact root_wrong. Qed.
Print Assumptions c67_root_refuted.
(** The singular values are a function of the tensor and of the axes (up to zeros at the end), whatever the representation
    they are computed from; the sum of their squares is the squared norm of the tensor. *)
Theorem c67_unique : forall (A : nd R) D sv sv', NoDup D -> Forall (fun d => (d < ndim A)%nat) D -> Forall (fun n => (0 < n)%nat) (shape A) ->
  singular_values_of A D sv -> singular_values_of A D sv' -> (forall k, nth k sv 0 = nth k sv' 0) /\ sumsq sv = frob2 A.
Proof. intros A D sv sv' H1 H2 H3 H4 H5. split; [exact (sv_unique A D H1 H2 H3 sv sv' H4 H5)|exact (sv_frob A D H1 H2 H3 sv H4)]. Qed.
Print Assumptions c67_unique.
(** At an active leaf of a tree-based tensor of the dimension d, the value is the one of the dense tensor for d. *)
Theorem c67_agree : forall svd qr, svd_contract svd -> qr_contract qr -> forall (X : tbt R) r A L l d,
  tb_ok X r -> (2 <= tb_order X)%nat -> tb_full X = Some A -> Forall (fun n => (0 < n)%nat) (shape A) ->
  tb_singular_values svd qr X = Some L -> ft_singular_values svd A = Some (inr l) ->
  (d < tb_order X)%nat -> active X (nth d (d2i (ttree X)) 0%nat) = true ->
  exists sv, nth (nth d (d2i (ttree X)) 0%nat - 1) L None = Some sv /\ forall k, nth k sv 0 = nth k (nth d l []) 0.
Proof. exact sv_agree. Qed.
Print Assumptions c67_agree.
(** the hypotheses are met: a tensor of shape (2, 2, 1) on a linear tree, all the nodes active; diag(4, 3) has the singular
    values 4 and 3 *)
Example c67_ex : tb_ok flag_X 1 /\ (2 <= tb_order flag_X)%nat /\ (forall n, node (ttree flag_X) n -> active flag_X n = true) /\
  singular_values_of (ND [2; 2]%nat (fun is => if (nth 0 is 0 =? nth 1 is 0)%nat then if (nth 0 is 0 =? 0)%nat then 4 else 3 else 0)) [0%nat] [4; 3].
Proof.
  split; [exact flag_ok|]. split; [cbn; lia|]. split.
  - intros n Hn. unfold node in Hn. cbn in Hn. destruct n as [|[|[|[|[|[|n]]]]]]; try lia; reflexivity.
  - split; [repeat (apply Forall_cons; [lra|]); apply Forall_nil|]. split.
    + intros i j Hij Hj. cbn in Hj. destruct j as [|[|j]]; try lia; destruct i as [|[|i]]; try lia; cbn; lra.
    + exists (fun k x => if (nth 0 x 0 =? k)%nat then 1 else 0). split.
      * intros a b Ha Hb. cbn in Ha, Hb. destruct a as [|[|a]]; try lia; destruct b as [|[|b]]; try lia; cbn; lra.
      * intros is js Hi Hj. inversion Hi as [|i0 ? ? ? Hi0 Hi1]; subst. inversion Hi1 as [|i1 ? ? ? Hi2 Hi3]; subst. inversion Hi3; subst.
        inversion Hj as [|j0 ? ? ? Hj0 Hj1]; subst. inversion Hj1 as [|j1 ? ? ? Hj2 Hj3]; subst. inversion Hj3; subst.
        destruct i0 as [|[|i0]]; try lia; destruct j0 as [|[|j0]]; try lia; cbn; lra.
Qed.
