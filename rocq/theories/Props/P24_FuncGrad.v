(** C61: gradient of a FunctionalTensor with respect to a core of its tree-based tensor (parameter_gradient_eval). *)
From Coq Require Import List Arith Lia Bool ZArith Permutation.
From Verif.Base Require Import ListAux CRing Index.
From Verif.Model Require Import Numpy FullTensor DimensionTree TreeBased TreeEval TreeGrad FuncGrad.
From Verif.Spec Require Import TensorSpec TreeSpec TreeTensorSpec GradSpec FuncGradSpec.
From Verif.Proofs Require Import TreeTensorP TreeTensorP4 TreeTensorP15 TreeTensorP18 DimTreeP2 TreeGradP11 SparseP FuncGradP3.
From Verif.Props Require Import P06_TreeBased P23_TreeGrad.
Import ListNotations.
Local Open Scope cr_scope.

(** * C61 *)
(** what the code computes as the values of the function (tensor_matrix_product_eval_diag) are its values *)
Theorem c61_values : forall (R : Type) (CR : CRing R) (X : tbt R) r Bs q, tb_ok X r -> (2 <= tb_order X)%nat -> (0 < q)%nat -> bases_ok X Bs q ->
  returns (tb_tmp_eval_diag X Bs) (q :: exts X r) (fun ie => value_at X r Bs (nth 0 ie 0%nat) (skipn 1 ie)).
Proof.
  intros R CR X r Bs q O H2 Hq [LB HB]. destruct (tb_tmp_eval_diag_ok X r Bs q O H2 LB Hq HB) as (C & EC & SC & GC).
  exists C. split; auto. split; auto. intros ie Hv. inversion Hv as [|i ? e ? Hi He]; subst. cbn [nth skipn]. rewrite GC by auto.
  unfold value_at. apply bsum_ext. intros js Hjs. f_equal. rewrite <- LB. apply factors_seq. rewrite (valid_length _ _ Hjs), tb_shape_length. auto.
Qed.
Print Assumptions c61_values.
(** parameter_gradient_eval(a) at an active node a other than the root (all the nodes being active, or no two children of a node
    inactive and no node an only child, as in the tensor train format): for every tensor Y that differs from X in
    the entries of the core of a only, the value at the sample point i of the function with tensor Y is the sum over the entries of
    the core of a of the entry of the gradient and the entry of the core; the axes of the gradient are those of the core of a
    (after the axis of the sample points, before the axis of the outputs). *)
Theorem c61_gradient : forall (R : Type) (CR : CRing R) (X : tbt R) r a q Bs, tb_ok X r -> (2 <= tb_order X)%nat ->
  grad_format X -> node (ttree X) a -> (0 < q)%nat -> bases_ok X Bs q -> siblings_above (ttree X) a ->
  active X a = true -> a <> r -> exts X r <> [1%nat] ->
  exists G, ften_param_grad X Bs a = Some G /\ shape G = q :: shape (core X a) ++ exts X r /\
    forall Y i e, differs_at X Y r a -> (i < q)%nat -> valid (exts X r) e ->
      value_at Y r Bs i e = bsum (shape (core X a)) (fun ks => get G (i :: ks ++ e) * get (core Y a) ks).
Proof. exact (@ften_grad). Qed.
Print Assumptions c61_gradient.
Theorem c61_gradient_root : forall (R : Type) (CR : CRing R) (X : tbt R) r q Bs, tb_ok X r -> (2 <= tb_order X)%nat ->
  grad_format X -> (0 < q)%nat -> bases_ok X Bs q ->
  exists G, ften_param_grad X Bs r = Some G /\ shape G = q :: heads X r /\
    forall Y i e, differs_at X Y r r -> (i < q)%nat -> valid (exts X r) e ->
      value_at Y r Bs i e = bsum (heads X r) (fun ks => get G (i :: ks) * get (core Y r) (ks ++ e)).
Proof. exact (@ften_grad_root). Qed.
Print Assumptions c61_gradient_root.
(** the hypotheses are met *)
Definition exF : list (nd Z) := [ex_core [3;2] 2; ex_core [3;2] 5; ex_core [3;2] 1; ex_core [3;2] 7]%nat.
Example c61_ex : tb_ok exD 1 /\ (2 <= tb_order exD)%nat /\ grad_format exD /\ node (ttree exD) 2 /\ active exD 2 = true /\ is_leaf (ttree exD) 2 = false /\
  bases_ok exD exF 3 /\ siblings_above (ttree exD) 2 /\ exts exD 1 <> [1%nat].
Proof.
  split; [exact exD_ok|]. split; [cbn; lia|]. split; [left; intros m Hm; unfold node in Hm; change (nbn (ttree exD)) with 7%nat in Hm; do 8 (destruct m as [|m]; [try lia; reflexivity|]); lia|].
  split; [cbv; lia|]. split; [reflexivity|]. split; [reflexivity|]. split.
  - split; [reflexivity|]. change (tb_order exD) with 4%nat. intros mu Hmu. do 4 (destruct mu as [|mu]; [reflexivity|]). lia.
  - split; [intros p c He _; exact (sibb_ok (ttree exD) eq_refl p c He)|]. vm_compute. discriminate.
Qed.
(** a tensor train of order 4: the leaves other than the first are inactive *)
Definition exTT : tbt Z := TB (dt_linear 4 [0;1;2;3]%nat)
  [ex_core [2;3] 3; ex_core [3;2;2] 5; no_core; ex_core [2;2;3] 2; no_core; ex_core [3;2] 4; no_core]%nat.
Definition exTB : list (nd Z) := [ex_core [4;3] 2; ex_core [4;2] 5; ex_core [4;2] 1; ex_core [4;3] 7]%nat.
Lemma exTT_ok : tb_ok exTT 1.
Proof. apply tb_okb_ok; [apply dt_linear_ok; [lia|apply Permutation_refl]|vm_compute; reflexivity]. Qed.
Lemma exTT_siblings : siblings (dt_linear 4 [0;1;2;3]%nat).
Proof. exact (sibb_ok (dt_linear 4 [0;1;2;3]%nat) eq_refl). Qed.
Example c61_ex_tt : tb_ok exTT 1 /\ (2 <= tb_order exTT)%nat /\ grad_format exTT /\ tb_shape exTT = [3;2;2;3]%nat /\ node (ttree exTT) 2 /\ is_leaf (ttree exTT) 2 = false /\
  active exTT 2 = true /\ active exTT 5 = false /\ edge (ttree exTT) 2 5 /\ bases_ok exTT exTB 4 /\ siblings_above (ttree exTT) 2 /\ exts exTT 1 <> [1%nat].
Proof.
  split; [exact exTT_ok|]. split; [cbn; lia|]. split; [right; split; [apply fewb_ok; reflexivity|exact exTT_siblings]|]. split; [reflexivity|].
  split; [cbv; lia|]. split; [reflexivity|]. split; [reflexivity|]. split; [reflexivity|]. split; [split; [|split; [|reflexivity]]; cbv; lia|]. split.
  - split; [reflexivity|]. change (tb_order exTT) with 4%nat. intros mu Hmu. do 4 (destruct mu as [|mu]; [reflexivity|]). lia.
  - split; [intros p c He _; exact (exTT_siblings p c He)|]. vm_compute. discriminate.
Qed.
(** a root with a last axis of size 1 (a function with one output): an error at the internal nodes other than the root *)
Definition exD1 : tbt Z := TB (ttree exD) (ex_core [2;2;1]%nat 3 :: skipn 1 (cores exD)).
Theorem c61_one_output_refuted : exists (X : tbt Z) r a q Bs, tb_ok X r /\ (forall m, node (ttree X) m -> active X m = true) /\ node (ttree X) a /\ (0 < q)%nat /\
  bases_ok X Bs q /\ siblings_above (ttree X) a /\ a <> r /\ exts X r = [1%nat] /\ ften_param_grad X Bs a = None.
Proof.
  exists exD1, 1%nat, 2%nat, 3%nat, exF. split; [apply tb_okb_ok; [exact ex_tree|vm_compute; reflexivity]|].
  split; [intros m Hm; unfold node in Hm; change (nbn (ttree exD1)) with 7%nat in Hm; do 8 (destruct m as [|m]; [try lia; reflexivity|]); lia|].
  split; [cbv; lia|]. split; [lia|]. split; [split; [reflexivity|]; change (tb_order exD1) with 4%nat; intros mu Hmu; do 4 (destruct mu as [|mu]; [reflexivity|]); lia|].
  split; [intros p c He _; exact (sibb_ok (ttree exD1) eq_refl p c He)|]. split; [lia|]. split; vm_compute; reflexivity.
Qed.
Print Assumptions c61_one_output_refuted.
