(** Property C23, continued: operations that remove dimensions of a tree-based tensor
    (tensap/tensor_algebra/tensors/tree_based_tensor.py: squeeze, remove_unique_children, tensor_vector_product,
    eval_diag, eval_at_indices).  In the results, [inl] is an array and [inr] a tree-based tensor.
    [compl n ds]: the dimensions 0..n-1 that are not in ds, in increasing order; [sel 0 l ks]: the entries of l at the
    positions ks; [asm n ds js is]: the multi-index whose entries at the positions ds are js, and is elsewhere. *)
From Coq Require Import List Arith Lia Bool ZArith Permutation.
From Verif.Base Require Import ListAux CRing Index.
From Verif.Model Require Import Sorting Numpy FullTensor DimensionTree TreeBased TreeEval TreeReduce.
From Verif.Spec Require Import TensorSpec TreeSpec TreeTensorSpec.
From Verif.Proofs Require DimTreeP2 DimTreeP5 TreeTensorP15 TreeTensorP24 TreeTensorP25 TreeTensorP26 TreeTensorP28 TreeTensorP29.
From Verif.Props Require Import P06_TreeBased.
Import ListNotations.
Local Open Scope cr_scope.

(** examples on the balanced tree of order 4: shapes 2 x 1 x 1 x 2, 2 x 2 x 2 x 2 and 3 x 2 x 2 x 2 *)
Definition exS : tbt Z := TB (dt_balanced 4 [0;1;2;3]%nat)
  [ex_core [2;2] 3; ex_core [2;1;2] 5; ex_core [1;2;2] 2; ex_core [2;2] 3; no_core; ex_core [1;1] 4; ex_core [2;2] 1]%nat.
Definition exQ : tbt Z := TB (dt_balanced 4 [0;1;2;3]%nat)
  [ex_core [2;2] 3; ex_core [2;2;2] 5; ex_core [1;2;2] 2; ex_core [2;2] 3; no_core; ex_core [2;1] 4; ex_core [2;2] 1]%nat.
Definition exQ3 : tbt Z := TB (dt_balanced 4 [0;1;2;3]%nat)
  [ex_core [2;2] 3; ex_core [2;2;2] 5; ex_core [1;2;2] 2; ex_core [3;2] 3; no_core; ex_core [2;1] 4; ex_core [2;2] 1]%nat.
Example c23_ex_ok : tb_ok exS 1 /\ tb_ok exQ 1 /\ tb_ok exQ3 1 /\ tb_shape exS = [2;1;1;2]%nat /\ tb_shape exQ = [2;2;2;2]%nat /\ tb_shape exQ3 = [3;2;2;2]%nat.
Proof.
  split; [apply TreeTensorP15.tb_okb_ok; [exact ex_tree|vm_compute; reflexivity]|].
  split; [apply TreeTensorP15.tb_okb_ok; [exact ex_tree|vm_compute; reflexivity]|].
  split; [apply TreeTensorP15.tb_okb_ok; [exact ex_tree|vm_compute; reflexivity]|]. vm_compute. auto.
Qed.

(** squeeze(ds): ds are dimensions of size 1, not all of them; the result is a tree-based tensor on a tree without
    one-child nodes (the last hypothesis excludes the case of a single remaining dimension together with a root of
    larger order) *)
Theorem c23_squeeze : forall R (CR : CRing R) (X : tbt R) r A ds, tb_ok X r -> (2 <= tb_order X)%nat -> tb_full X = Some A ->
  NoDup ds -> Forall (fun k => (k < tb_order X)%nat) ds -> (forall k, In k ds -> nth k (shape A) 0%nat = 1%nat) ->
  (length ds < tb_order X)%nat -> (ndim A = tb_order X \/ (length ds + 2 <= tb_order X)%nat) ->
  exists Z r' F, tb_squeeze X (Some ds) = Some (inr Z) /\ tb_ok Z r' /\ tb_order Z = (tb_order X - length ds)%nat /\
    (forall n, node (ttree Z) n -> length (children (ttree Z) n) <> 1%nat) /\ tb_full Z = Some F /\
    shape F = sel 0%nat (shape A) (compl (ndim A) ds) /\
    forall js, valid (shape A) js -> get F (sel 0%nat js (compl (ndim A) ds)) = get A js.
Proof. intros R CR X r A ds O H2 HA. exact (TreeTensorP25.squeeze_full X r A O H2 HA ds). Qed.
Print Assumptions c23_squeeze.
(** all the dimensions: a scalar *)
Theorem c23_squeeze_all : forall R (CR : CRing R) (X : tbt R) A ds, (2 <= tb_order X)%nat -> tb_full X = Some A ->
  (forall k, (k < tb_order X)%nat -> In k ds) -> shape A = repeat 1%nat (tb_order X) ->
  exists B, tb_squeeze X (Some ds) = Some (inl B) /\ shape B = [] /\ get B [] = get A (repeat 0%nat (tb_order X)).
Proof. intros R CR X A ds H2 HA. exact (TreeTensorP25.squeeze_all X A H2 HA ds). Qed.
Print Assumptions c23_squeeze_all.
(** default: all the dimensions of size 1 *)
Theorem c23_squeeze_default : forall R (CR : CRing R) (X : tbt R) r A, tb_ok X r -> (2 <= tb_order X)%nat -> tb_full X = Some A ->
  tb_squeeze X None = tb_squeeze X (Some (filter (fun k => nth k (shape A) 0 =? 1)%nat (seq 0 (tb_order X)))).
Proof. exact (fun R CR => TreeTensorP25.squeeze_none). Qed.
Print Assumptions c23_squeeze_default.
Example c23_ex_squeeze : (match tb_squeeze exS None with Some (inr Z) => let* F := tb_full Z in Some (nbn (ttree Z), to_list F) | _ => None end) =
  (let* A := tb_full exS in let* F := ft_squeeze A None in Some (3%nat, to_list F)) /\
  (match tb_squeeze exS (Some [2]%nat) with Some (inr Z) => let* F := tb_full Z in Some (nbn (ttree Z), to_list F) | _ => None end) =
  (let* A := tb_full exS in let* F := ft_squeeze A (Some [2]%nat) in Some (5%nat, to_list F)).
Proof. repeat split; vm_compute; reflexivity. Qed.

(** remove_unique_children: the same tensor on a tree without one-child nodes ([tval]: the value of the network) *)
Theorem c23_remove_unique_children : forall R (CR : CRing R) (X : tbt R) r, tb_ok X r -> arity (ttree X) <> 0%nat ->
  exists Z r', tb_remove_unique X = Some Z /\ tb_ok Z r' /\ tb_shape Z = tb_shape X /\ exts Z r' = exts X r /\
    (forall is e, valid (tb_shape X) is -> valid (exts X r) e -> tval Z r' is e = tval X r is e) /\
    (forall n, node (ttree Z) n -> length (children (ttree Z) n) <> 1%nat).
Proof. exact (fun R CR => TreeTensorP24.ruc_ok). Qed.
Print Assumptions c23_remove_unique_children.

(** tensor_vector_product over some of the dimensions (as c11_tensor_vector_product for dense tensors) *)
Theorem c23_tensor_vector_product : forall R (CR : CRing R) (X : tbt R) r A vs ds, tb_ok X r -> (2 <= tb_order X)%nat -> tb_full X = Some A ->
  NoDup ds -> Forall (fun k => (k < tb_order X)%nat) ds -> length vs = length ds ->
  (forall k, (k < length ds)%nat -> shape (nth k vs (scalar r0)) = [nth (nth k ds 0%nat) (shape A) 0%nat]) ->
  (length ds < tb_order X)%nat -> (ndim A = tb_order X \/ (length ds + 2 <= tb_order X)%nat) ->
  exists Z r', tb_tensor_vector_product X vs (Some ds) = Some (inr Z) /\ tb_ok Z r' /\ tb_order Z = (tb_order X - length ds)%nat /\
    returns (tb_full Z) (sel 0%nat (shape A) (compl (ndim A) ds))
      (fun is => bsum (sel 0%nat (shape A) ds) (fun js => get A (asm (ndim A) ds js is) * vfactors vs js)).
Proof. exact (fun R CR => TreeTensorP26.tvp_some). Qed.
Print Assumptions c23_tensor_vector_product.
Theorem c23_tensor_vector_product_all : forall R (CR : CRing R) (X : tbt R) r A vs ds, tb_ok X r -> (2 <= tb_order X)%nat -> tb_full X = Some A ->
  NoDup ds -> Forall (fun k => (k < tb_order X)%nat) ds -> length vs = length ds ->
  (forall k, (k < length ds)%nat -> shape (nth k vs (scalar r0)) = [nth (nth k ds 0%nat) (shape A) 0%nat]) ->
  length ds = tb_order X -> ndim A = tb_order X ->
  exists B, tb_tensor_vector_product X vs (Some ds) = Some (inl B) /\ shape B = [] /\
    get B [] = bsum (sel 0%nat (shape A) ds) (fun js => get A (asm (ndim A) ds js []) * vfactors vs js).
Proof. exact (fun R CR => TreeTensorP26.tvp_all). Qed.
Print Assumptions c23_tensor_vector_product_all.
Example c23_ex_tvp : (match tb_tensor_vector_product exX [ex_core [2] 3; ex_core [3] 2]%nat (Some [2;1]%nat) with Some (inr Z) => let* F := tb_full Z in Some (to_list F) | _ => None end) =
  (let* A := tb_full exX in let* F := ft_tensor_vector_product A [ex_core [2] 3; ex_core [3] 2]%nat (Some [2;1]%nat) in Some (to_list F)) /\
  (match tb_tensor_vector_product exX [ex_core [2] 3; ex_core [3] 2; ex_core [2] 1; ex_core [3] 4]%nat None with Some (inl F) => Some (to_list F) | _ => None end) =
  (let* A := tb_full exX in let* F := ft_tensor_vector_product A [ex_core [2] 3; ex_core [3] 2; ex_core [2] 1; ex_core [3] 4]%nat None in Some (to_list F)).
Proof. repeat split; vm_compute; reflexivity. Qed.

(** eval_diag() *)
Theorem c23_eval_diag : forall R (CR : CRing R) (X : tbt R) r A q, tb_ok X r -> (2 <= tb_order X)%nat -> tb_full X = Some A -> (0 < q)%nat ->
  tb_shape X = repeat q (tb_order X) ->
  returns (tb_eval_diag X) (q :: exts X r) (fun is => get A (repeat (nth 0 is 0%nat) (tb_order X) ++ skipn 1 is)).
Proof. exact (fun R CR => TreeTensorP29.ed_full). Qed.
Print Assumptions c23_eval_diag.
(** eval_diag(ds) when ds are the dimensions of a (non-root) node of the tree: the diagonal index comes FIRST *)
Theorem c23_eval_diag_dims_partial : forall R (CR : CRing R) (X : tbt R) r A q ds, tb_ok X r -> (2 <= tb_order X)%nat -> tb_full X = Some A ->
  (exists n, node (ttree X) n /\ Permutation ds (dims (ttree X) n)) -> (2 <= length ds < tb_order X)%nat -> (0 < q)%nat ->
  (forall k, In k ds -> nth k (shape A) 0%nat = q) ->
  exists Z self r', tb_eval_diag_dims X ds = Some (Z, self) /\ tb_ok Z r' /\
    returns (tb_full Z) (q :: sel 0%nat (shape A) (compl (ndim A) ds))
      (fun is => get A (asm (ndim A) ds (repeat (nth 0 is 0%nat) (length ds)) (skipn 1 is))).
Proof. exact (fun R CR => TreeTensorP29.edd_full). Qed.
Print Assumptions c23_eval_diag_dims_partial.
(** it raises when ds are not the dimensions of a node *)
Theorem c23_eval_diag_dims_unsupported : forall R (CR : CRing R) (X : tbt R) r ds, tb_ok X r ->
  (forall n, node (ttree X) n -> ~ Permutation ds (dims (ttree X) n)) -> tb_eval_diag_dims X ds = None.
Proof.
  intros R CR X r ds O H. unfold tb_eval_diag_dims. pose proof (DimTreeP5.node_with_dims_ok (ttree X) r ds (proj1 O)) as HW.
  destruct (node_with_dims (ttree X) ds) as [|a l]; [reflexivity|]. destruct (proj1 (HW a) (or_introl eq_refl)) as [Hn Hp]. destruct (H a Hn Hp).
Qed.
Print Assumptions c23_eval_diag_dims_unsupported.
(** FINDINGS: FullTensor.eval_diag([2, 3]) of a 3 x 2 x 2 x 2 tensor has shape (3, 2, 2), that of the tree-based tensor
    has shape (2, 3, 2); and after the call full() of the operand raises *)
Lemma edd_Ho : match tb_full exQ3 with Some A => match ft_eval_diag A (Some [2;3]%nat) with Some C => shape A = [3;2;2;2]%nat /\ shape C = [3;2;2]%nat | None => False end | None => False end.
Proof. vm_compute. auto. Qed.
Lemma edd_Hz : match tb_eval_diag_dims exQ3 [2;3]%nat with Some (Z, self) => match tb_full Z with Some B => shape B = [2;3;2]%nat | None => False end /\
      tb_full self = None | None => False end.
Proof. vm_compute. split; reflexivity. Qed.
Theorem c23_eval_diag_dims_refuted : exists (X : tbt Z) r A ds Z self B C, tb_ok X r /\ tb_full X = Some A /\
  tb_eval_diag_dims X ds = Some (Z, self) /\ tb_full Z = Some B /\ ft_eval_diag A (Some ds) = Some C /\ shape B <> shape C /\
  tb_full self = None.
Proof.
  pose proof edd_Ho as Ho.
  pose proof edd_Hz as Hz.
  destruct (tb_full exQ3) as [A|] eqn:EA; [|destruct Ho]. destruct (ft_eval_diag A (Some [2;3]%nat)) as [C|] eqn:EC; [|destruct Ho]. destruct Ho as [SA SC].
  destruct (tb_eval_diag_dims exQ3 [2;3]%nat) as [[Z self]|] eqn:EZ; [|destruct Hz]. destruct Hz as [HB Hself]. destruct (tb_full Z) as [B|] eqn:EB; [|destruct HB].
  exists exQ3, 1%nat, A, [2;3]%nat, Z, self, B, C. split; [exact (proj1 (proj2 (proj2 c23_ex_ok)))|]. split; [exact EA|]. split; [exact EZ|]. split; [exact EB|]. split; [exact EC|].
  split; [rewrite HB, SC; discriminate|]. exact Hself.
Qed.
Print Assumptions c23_eval_diag_dims_refuted.
Example c23_ex_diag : (let* C := tb_eval_diag exQ in Some (to_list C)) = (let* A := tb_full exQ in let* C := ft_eval_diag A None in Some (to_list C)) /\
  (match tb_eval_diag_dims exQ3 [2;3]%nat with Some (Z, _) => let* F := tb_full Z in Some (to_list F) | None => None end) =
  (let* A := tb_full exQ3 in Some ([2;3;2]%nat, map (fun is => get A (match is with [i;a;b] => [a;b;i;i]%nat | _ => [] end)) (boxF [2;3;2]%nat))).
Proof. repeat split; vm_compute; reflexivity. Qed.

(** eval_at_indices(indices): one row per entry *)
Theorem c23_eval_at_indices : forall R (CR : CRing R) (X : tbt R) r A rows, tb_ok X r -> (2 <= tb_order X)%nat -> tb_full X = Some A ->
  rows <> [] -> Forall (valid (tb_shape X)) rows ->
  exists B, tb_eval_at_indices X (tb_order X) rows None = Some (inl B) /\
    tensor_is B (length rows :: exts X r) (fun is => get A (nth (nth 0 is 0%nat) rows [] ++ skipn 1 is)).
Proof. intros R CR X r A rows O H2 HA. exact (TreeTensorP29.eai_all X r A O H2 HA rows). Qed.
Print Assumptions c23_eval_at_indices.
(** an array with one row per dimension (and not order columns) is read by columns *)
Theorem c23_eval_at_indices_transposed : forall R (CR : CRing R) (X : tbt R) r A w cols, tb_ok X r -> (2 <= tb_order X)%nat -> tb_full X = Some A ->
  w <> tb_order X -> w <> 0%nat -> length cols = tb_order X -> Forall (fun c => length c = w) cols ->
  (forall k, (k < tb_order X)%nat -> Forall (fun i => (i < nth k (tb_shape X) 0)%nat) (nth k cols [])) ->
  exists B, tb_eval_at_indices X w cols None = Some (inl B) /\
    tensor_is B (w :: exts X r) (fun is => get A (map (fun c => nth (nth 0 is 0%nat) c 0%nat) cols ++ skipn 1 is)).
Proof. intros R CR X r A w cols O H2 HA. exact (TreeTensorP29.eai_all_transposed X r A O H2 HA w cols). Qed.
Print Assumptions c23_eval_at_indices_transposed.
(** one dimension *)
Theorem c23_eval_at_indices_one_dim : forall R (CR : CRing R) (X : tbt R) r A d ks, tb_ok X r -> (2 <= tb_order X)%nat -> tb_full X = Some A ->
  (d < tb_order X)%nat -> ks <> [] -> Forall (fun k => (k < nth d (shape A) 0)%nat) ks ->
  exists Z, tb_eval_at_indices X 1 (map (fun k => [k]) ks) (Some [d]) = Some (inr Z) /\ tb_ok Z r /\ ttree Z = ttree X /\
    returns (tb_full Z) (upd d (length ks) (shape A)) (fun is => get A (upd d (nth (nth d is 0%nat) ks 0%nat) is)).
Proof. intros R CR X r A d ks O H2 HA. exact (TreeTensorP29.eai_one_dim X r A O H2 HA d ks). Qed.
Print Assumptions c23_eval_at_indices_one_dim.
(** several dimensions, at least two rows: needs a node with these dimensions, the row number comes first *)
Theorem c23_eval_at_indices_rows_partial : forall R (CR : CRing R) (X : tbt R) r A ds rows, tb_ok X r -> (2 <= tb_order X)%nat -> tb_full X = Some A ->
  NoDup ds -> Forall (fun k => (k < tb_order X)%nat) ds -> rows <> [] -> Forall (valid (sel 0%nat (shape A) ds)) rows ->
  (2 <= length ds)%nat -> (length ds < tb_order X)%nat -> length rows <> 1%nat -> (exists n, node (ttree X) n /\ Permutation ds (dims (ttree X) n)) ->
  exists Z r', tb_eval_at_indices X (length ds) rows (Some ds) = Some (inr Z) /\ tb_ok Z r' /\
    returns (tb_full Z) (length rows :: sel 0%nat (shape A) (compl (ndim A) ds)) (fun is => get A (asm (ndim A) ds (nth (nth 0 is 0%nat) rows []) (skipn 1 is))).
Proof. intros R CR X r A ds rows O H2 HA. exact (TreeTensorP29.eai_rows X r A O H2 HA ds rows). Qed.
Print Assumptions c23_eval_at_indices_rows_partial.
(** several dimensions, one row, no other dimension of size 1 *)
Theorem c23_eval_at_indices_one_row_partial : forall R (CR : CRing R) (X : tbt R) r A ds j, tb_ok X r -> (2 <= tb_order X)%nat -> tb_full X = Some A ->
  NoDup ds -> Forall (fun k => (k < tb_order X)%nat) ds -> valid (sel 0%nat (shape A) ds) j ->
  (forall k, (k < tb_order X)%nat -> ~ In k ds -> nth k (shape A) 0%nat <> 1%nat) ->
  (2 <= length ds)%nat -> (length ds < tb_order X)%nat -> (ndim A = tb_order X \/ (length ds + 2 <= tb_order X)%nat) ->
  exists Z r', tb_eval_at_indices X (length ds) [j] (Some ds) = Some (inr Z) /\ tb_ok Z r' /\ tb_order Z = (tb_order X - length ds)%nat /\
    returns (tb_full Z) (sel 0%nat (shape A) (compl (ndim A) ds)) (fun is => get A (asm (ndim A) ds j is)).
Proof.
  intros R CR X r A ds j O H2 HA ND HF Hv H1.
  exact (TreeTensorP29.eai_one_row X r A O H2 HA ds [j] ND HF ltac:(discriminate) (Forall_cons _ Hv (Forall_nil _)) j eq_refl H1).
Qed.
Print Assumptions c23_eval_at_indices_one_row_partial.
Theorem c23_eval_at_indices_one_row_all : forall R (CR : CRing R) (X : tbt R) r A ds j, tb_ok X r -> (2 <= tb_order X)%nat -> tb_full X = Some A ->
  Permutation ds (seq 0 (tb_order X)) -> valid (sel 0%nat (shape A) ds) j -> ndim A = tb_order X ->
  exists B, tb_eval_at_indices X (length ds) [j] (Some ds) = Some (inl B) /\ tensor_is B [] (fun _ => get A (asm (ndim A) ds j [])).
Proof.
  intros R CR X r A ds j O H2 HA HP Hv HN.
  assert (L : length ds = tb_order X) by (rewrite (Permutation_length HP); apply seq_length).
  apply (TreeTensorP29.eai_one_row_all X r A O H2 HA ds [j]).
  - apply (Permutation_NoDup (Permutation_sym HP)), seq_NoDup.
  - apply Forall_forall. intros k Hk. apply (Permutation_in k HP), in_seq in Hk. lia.
  - discriminate.
  - constructor; auto.
  - reflexivity.
  - intros k Hk Hn. destruct Hn. apply (Permutation_in k (Permutation_sym HP)), in_seq. lia.
  - lia.
  - exact L.
  - exact HN.
Qed.
Print Assumptions c23_eval_at_indices_one_row_all.
(** FINDING: with several dimensions and one row, eval_at_indices removes every dimension of size 1, also those that
    were not asked for: for a 2 x 1 x 1 x 2 tensor and ds = [0, 2], the result has 1 dimension (and not 2) *)
Lemma eai_Ho : match tb_full exS with Some A => shape A = [2;1;1;2]%nat | None => False end.
Proof. vm_compute. auto. Qed.
Lemma eai_Hz : match tb_eval_at_indices exS 2 [[1;0]]%nat (Some [0;2]%nat) with Some (inr Z) => match tb_full Z with Some F => shape F = [2]%nat | None => False end | _ => False end.
Proof. vm_compute. auto. Qed.
Theorem c23_eval_at_indices_one_row_refuted : exists (X : tbt Z) r A ds j Z F, tb_ok X r /\ tb_full X = Some A /\ NoDup ds /\
  Forall (fun k => (k < tb_order X)%nat) ds /\ valid (sel 0%nat (shape A) ds) j /\
  tb_eval_at_indices X (length ds) [j] (Some ds) = Some (inr Z) /\ tb_full Z = Some F /\ shape F <> sel 0%nat (shape A) (compl (ndim A) ds).
Proof.
  pose proof eai_Ho as Ho.
  pose proof eai_Hz as Hz.
  destruct (tb_full exS) as [A|] eqn:EA; [|destruct Ho]. destruct (tb_eval_at_indices exS 2 [[1;0]]%nat (Some [0;2]%nat)) as [[?|Z]|] eqn:EZ; [destruct Hz| |destruct Hz]. destruct (tb_full Z) as [F|] eqn:EF; [|destruct Hz].
  exists exS, 1%nat, A, [0;2]%nat, [1;0]%nat, Z, F. split; [exact (proj1 c23_ex_ok)|]. split; [exact EA|].
  split; [repeat constructor; cbn; intuition discriminate|]. split; [repeat constructor|]. unfold ndim. rewrite Ho. split; [repeat constructor|].
  split; [exact EZ|]. split; [exact EF|]. rewrite Hz. vm_compute. discriminate.
Qed.
Print Assumptions c23_eval_at_indices_one_row_refuted.
Example c23_ex_at : (match tb_eval_at_indices exX 4 [[1;2;0;1];[0;0;1;2]]%nat None with Some (inl B) => Some (to_list B) | _ => None end) =
  (let* A := tb_full exX in Some ([2]%nat, [get A [1;2;0;1]%nat; get A [0;0;1;2]%nat])) /\
  (match tb_eval_at_indices exX 2 [[1;2];[0;0];[1;1]]%nat (Some [0;1]%nat) with Some (inr Z) => let* F := tb_full Z in Some (to_list F) | _ => None end) =
  (let* A := tb_full exX in Some ([3;2;3]%nat, map (fun is => get A (match is with [i;a;b] => nth i [[1;2];[0;0];[1;1]]%nat [] ++ [a;b] | _ => [] end)) (boxF [3;2;3]%nat))) /\
  (match tb_eval_at_indices exX 2 [[2;1]]%nat (Some [1;0]%nat) with Some (inr Z) => let* F := tb_full Z in Some (to_list F) | _ => None end) =
  (let* A := tb_full exX in Some ([2;3]%nat, map (fun is => get A ([1;2]%nat ++ is)) (boxF [2;3]%nat))).
Proof. repeat split; vm_compute; reflexivity. Qed.
