(** C65: changing the root of a tree-based tensor. *)
From Coq Require Import List Arith Lia Bool ZArith Permutation.
From Verif.Base Require Import ListAux CRing Index.
From Verif.Model Require Import Numpy FullTensor DimensionTree TreeBased TreeRoot.
From Verif.Spec Require Import TensorSpec TreeSpec TreeTensorSpec.
From Verif.Proofs Require Import DimTreeP DimTreeP2 TreeTensorP TreeTensorP15 TreeRootP5.
From Verif.Props Require Import P06_TreeBased.
Import ListNotations.

(** * C65 *)
(** change_root: the same tensor, in the format with the tree re-rooted at nod (see c17_change_root for the tree); for tensors without output axis whose
    root has at least two children *)
Theorem c65_change_root_partial : forall {K} {CR : CRing K} (X : tbt K) r nod, tb_ok X r -> exts X r = [] -> node (ttree X) nod -> nod <> r ->
  active X nod = true -> 2 <= length (children (ttree X) r) -> forall A, 2 <= tb_order X -> tb_full X = Some A ->
  exists Z, tb_change_root X nod = Some Z /\ tb_ok Z nod /\ ttree Z = dt_change_root (ttree X) nod /\ tb_shape Z = tb_shape X /\
    (forall n, node (ttree X) n -> active Z n = active X n) /\ returns (tb_full Z) (shape A) (get A).
Proof. exact @change_root_full. Qed.
Print Assumptions c65_change_root_partial.
(** nothing happens at the current root *)
Theorem c65_same_root : forall {K} {CR : CRing K} (X : tbt K) r, tb_ok X r -> tb_change_root X r = Some X.
Proof. intros K CR X r O. unfold tb_change_root. rewrite (root_eq (ttree X) r (proj1 (proj1 O))), Nat.eqb_refl. reflexivity. Qed.
Print Assumptions c65_same_root.
(** an inactive node is refused *)
Theorem c65_inactive : forall {K} {CR : CRing K} (X : tbt K) r nod, tb_ok X r -> nod <> r -> active X nod = false -> tb_change_root X nod = None.
Proof. intros K CR X r nod O Hn Ha. unfold tb_change_root. rewrite (root_eq (ttree X) r (proj1 (proj1 O))), (proj2 (Nat.eqb_neq nod r) Hn), Ha. reflexivity. Qed.
Print Assumptions c65_inactive.

(** * What does not hold *)
(** with several outputs (root rank larger than 1) the root can never be changed: the branch written for that case calls a method that does not exist *)
Theorem c65_outputs_refuted : forall {K} {CR : CRing K} (X : tbt K) r nod, tb_ok X r -> nod <> r -> 1 < tb_rank X r -> tb_change_root X nod = None.
Proof.
  intros K CR X r nod O Hn Hr. unfold tb_change_root. rewrite (root_eq (ttree X) r (proj1 (proj1 O))), (proj2 (Nat.eqb_neq nod r) Hn).
  destruct (active X nod); auto. rewrite (proj2 (Nat.ltb_lt 1 _) Hr). reflexivity.
Qed.
Print Assumptions c65_outputs_refuted.
(** an output axis of size 1 is enough *)
Definition exX1 : tbt Z := TB (dt_balanced 4 [0;1;2;3])
  [ex_core [2;2;1] 3; ex_core [2;3;2] 5; ex_core [1;2;2] 2; ex_core [2;2] 3; no_core; ex_core [2;1] 4; ex_core [3;2] 1].
Definition exX3 : tbt Z := TB (dt_balanced 4 [0;1;2;3])
  [ex_core [2;2;3] 3; ex_core [2;3;2] 5; ex_core [1;2;2] 2; ex_core [2;2] 3; no_core; ex_core [2;1] 4; ex_core [3;2] 1].
Theorem c65_output_axis_refuted : exists (X : tbt Z) r nod A, tb_ok X r /\ exts X r = [1] /\ node (ttree X) nod /\ nod <> r /\ active X nod = true /\
  2 <= length (children (ttree X) r) /\ tb_full X = Some A /\ tb_change_root X nod = None.
Proof.
  assert (E : match tb_full exX1 with Some _ => true | None => false end = true) by (vm_compute; reflexivity).
  destruct (tb_full exX1) as [A|] eqn:EA; [|discriminate]. exists exX1, 1, 2, A. split; [apply tb_okb_ok; [exact ex_tree|vm_compute; reflexivity]|]. split; [reflexivity|].
  split; [unfold node; change (nbn (ttree exX1)) with 7; lia|]. split; [discriminate|]. split; [reflexivity|]. split; [vm_compute; lia|].
  split; [exact EA|]. vm_compute. reflexivity.
Qed.
Print Assumptions c65_output_axis_refuted.

(** * Examples: the hypotheses are satisfied *)
Example c65_ex : tb_ok exX 1 /\ exts exX 1 = [] /\ node (ttree exX) 2 /\ active exX 2 = true /\ active exX 6 = true /\ active exX 5 = false /\ is_leaf (ttree exX) 6 = true /\
  2 <= length (children (ttree exX) 1) /\ (exists A, tb_full exX = Some A /\ get A [1;2;0;1] <> 0%Z /\ get A [1;2;0;1] <> get A [0;0;0;0]).
Proof.
  split; [apply tb_okb_ok; [exact ex_tree|vm_compute; reflexivity]|]. split; [reflexivity|]. split; [unfold node; change (nbn (ttree exX)) with 7; lia|].
  split; [reflexivity|]. split; [reflexivity|]. split; [reflexivity|]. split; [reflexivity|]. split; [vm_compute; lia|].
  assert (E : match tb_full exX with Some A => Z.eqb (get A [1;2;0;1]) 0 || Z.eqb (get A [1;2;0;1]) (get A [0;0;0;0]) | None => true end = false) by (vm_compute; reflexivity).
  destruct (tb_full exX) as [A|]; [|discriminate]. exists A. split; auto. apply orb_false_elim in E. destruct E as [E1 E2].
  apply Z.eqb_neq in E1. apply Z.eqb_neq in E2. auto.
Qed.
Example c65_ex_new : (match tb_change_root exX 2 with Some Z => map shape (cores Z) | None => [] end) = [[2;2]; [2;2;3]; [1;2;2]; [2;2]; [0]; [2;1]; [3;2]] /\
  (match tb_change_root exX 6 with Some Z => map shape (cores Z) | None => [] end) = [[2;2]; [2;3;2]; [2;2;1]; [2;2]; [0]; [1;2]; [3;2]; [0]].
Proof. split; vm_compute; reflexivity. Qed.
Example c65_ex_outputs : tb_ok exX3 1 /\ tb_rank exX3 1 = 3.
Proof. split; [apply tb_okb_ok; [exact ex_tree|vm_compute; reflexivity]|reflexivity]. Qed.
