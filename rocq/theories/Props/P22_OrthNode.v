(** C59: orthonormalisation of a tree-based tensor with respect to a node (TreeBasedTensor.orth_at_node). *)
From Coq Require Import List Arith Lia Bool Reals Lra Permutation.
From Verif.Base Require Import ListAux CRing Index RealAux.
From Verif.Model Require Import Sorting Numpy FullTensor Diagonal Canonical DimensionTree TreeBased Truncator HSVD HsvdTree OrthNode.
From Verif.Spec Require Import TensorSpec TreeSpec TreeTensorSpec TruncatorSpec FunctionalSpec OrthNodeSpec.
From Verif.Proofs Require Import HsvdTreeP12 OrthNodeP5 OrthNodeP6.
Import ListNotations.
Local Open Scope R_scope.

(** * C59 *)
(** For every active node n, orth_at_node returns a well-formed tensor with the same tree, active nodes and entries, whose ranks
    do not exceed those of the tensor; the cores of the other nodes than n, its parent and the root (all but the root if n is the
    root) have orthonormal columns; the Frobenius norm of the core of n is that of the tensor; for n other than the root and a
    non-zero tensor, the tensor is written in an orthonormal frame seen from n and the rank of n is the smallest possible. *)
Theorem c59_orth_at_node : forall svd qr mrank pinv inv, svd_contract svd -> qr_contract qr -> rank_contract mrank -> pinv_contract pinv -> inv_contract inv -> inv_complete inv ->
  forall is_orth (X : tbt R) r A n, tb_ok X r -> (2 <= tb_order X)%nat -> tb_full X = Some A ->
  (is_orth = true -> forall m, node (ttree X) m -> active X m = true -> m <> r -> orth_cols (core X m)) -> node (ttree X) n -> active X n = true ->
  exists Y B, orth_at_node svd qr mrank pinv inv is_orth X n = Some Y /\ tb_ok Y r /\ ttree Y = ttree X /\
    (forall m, node (ttree X) m -> active Y m = active X m) /\
    (forall m, node (ttree X) m -> active X m = true -> m <> r -> (last (shape (core Y m)) 0 <= last (shape (core X m)) 0)%nat) /\
    tb_full Y = Some B /\ shape B = shape A /\ (forall is, valid (shape A) is -> get B is = get A is) /\
    (forall m, node (ttree X) m -> active X m = true -> m <> r -> (n <> r -> m <> n /\ m <> parent (ttree X) n) -> orth_cols (core Y m)) /\
    (n = r -> frob2 (core Y n) = frob2 A) /\
    (n <> r -> (exists is, valid (shape A) is /\ get A is <> 0) ->
       frame_at Y r A n /\ frob2 (core Y n) = frob2 A /\ (forall k, rank_at_most (shape A) (dims (ttree X) n) k (get A) -> (last (shape (core Y n)) 0 <= k)%nat)).
Proof. exact orth_at_node_spec. Qed.
Print Assumptions c59_orth_at_node.
(** on an inactive node it raises an error *)
Theorem c59_orth_at_node_inactive : forall svd qr mrank pinv inv is_orth (X : tbt R) r n,
  tb_ok X r -> node (ttree X) n -> active X n = false -> orth_at_node svd qr mrank pinv inv is_orth X n = None.
Proof. exact orth_at_node_inactive. Qed.
Print Assumptions c59_orth_at_node_inactive.
(** the contracts of matrix_rank, pinv and inv can be met (those of svd and qr: c28_svd_exists, c26) *)
Theorem c59_contracts : (exists f, rank_contract f) /\ (exists f, pinv_contract f) /\ (exists f, inv_contract f /\ inv_complete f).
Proof. split; [exact rank_exists|]. split; [exact pinv_exists|exact inv_exists]. Qed.
Print Assumptions c59_contracts.
(** the hypotheses are met *)
Example c59_ex : tb_ok flag_X 1 /\ (2 <= tb_order flag_X)%nat /\ node (ttree flag_X) 2 /\ active flag_X 2 = true /\ 2%nat <> 1%nat /\
  exists A is, tb_full flag_X = Some A /\ valid (shape A) is /\ get A is <> 0.
Proof.
  split; [exact flag_ok|]. split; [cbn; lia|]. split; [cbv; lia|]. split; [reflexivity|]. split; [discriminate|].
  destruct (tb_full flag_X) as [A|] eqn:E; [|vm_compute in E; discriminate]. exists A, [0; 0; 0]%nat.
  destruct (TreeTensorP4.full_inv flag_X 1 A flag_ok ltac:(cbn; lia) E) as [S V]. split; auto. split.
  - rewrite S. cbn. repeat (apply Forall2_cons; [lia|]). apply Forall2_nil.
  - change [0; 0; 0]%nat with ([0; 0; 0]%nat ++ []). rewrite V; [|cbn; repeat (apply Forall2_cons; [lia|]); apply Forall2_nil|cbn; apply Forall2_nil].
    cbv -[Rmult Rplus IZR]. lra.
Qed.
