(** Properties C20-C27: tree-based tensors (tensap/tensor_algebra/tensors/tree_based_tensor.py).
    The vocabulary ([tb_ok], [tval], [exts], [orth_cols]) is in Spec/TreeTensorSpec.v; [returns],
    [factors], [put], [slice_*], [qr_contract] are in Spec/TensorSpec.v.
    [tb_full X = Some A] reads "X.full() returns A". *)
From Coq Require Import List Arith Lia Bool ZArith Permutation.
From Verif.Base Require Import ListAux CRing Index.
From Verif.Model Require Import Sorting Numpy FullTensor DimensionTree TreeBased TreeEval.
From Verif.Spec Require Import TensorSpec TreeSpec TreeTensorSpec.
From Verif.Proofs Require FullTensorP3 DimTreeP2 TreeTensorP TreeTensorP2 TreeTensorP4 TreeTensorP5 TreeTensorP6 TreeTensorP7 TreeTensorP9 TreeTensorP11 TreeTensorP14 TreeTensorP15 TreeTensorP18 NumpyP.
Import ListNotations.
Local Open Scope cr_scope.

(** examples: integer cores on a balanced tree of order 4 (nodes 4..7 are the leaves) *)
Definition ex_core (s : list nat) (k : nat) : nd Z :=
  of_list 0%Z s (map (fun i => (Z.of_nat ((i * k + i * i) mod 5) - 2)%Z) (seq 0 (prodn s))).
Definition exX : tbt Z := TB (dt_balanced 4 [0;1;2;3]%nat)
  [ex_core [2;2] 3; ex_core [2;3;2] 5; ex_core [1;2;2] 2; ex_core [2;2] 3; no_core; ex_core [2;1] 4; ex_core [3;2] 1]%nat.
Definition exY : tbt Z := TB (dt_balanced 4 [0;1;2;3]%nat)
  [ex_core [1;3] 2; ex_core [2;1;1] 3; ex_core [2;2;3] 1; no_core; ex_core [3;1] 5; ex_core [2;2] 2; ex_core [3;2] 6]%nat.
(** as exY, with the active nodes of exX *)
Definition exY' : tbt Z := TB (dt_balanced 4 [0;1;2;3]%nat)
  [ex_core [1;3] 2; ex_core [3;3;1] 3; ex_core [2;2;3] 1; ex_core [2;3] 5; no_core; ex_core [2;2] 2; ex_core [3;2] 6]%nat.
Lemma ex_tree : dim_tree (dt_balanced 4 [0;1;2;3]%nat) 1.
Proof. apply DimTreeP2.dt_balanced_ok; [lia|]. apply Permutation_refl. Qed.
Example c20_ex_ok : tb_ok exX 1 /\ tb_ok exY 1 /\ tb_ok exY' 1 /\ (2 <= tb_order exX)%nat /\
  tb_shape exX = [2;3;2;3]%nat /\ tb_shape exY = tb_shape exX /\ tb_shape exY' = tb_shape exX.
Proof.
  split; [apply TreeTensorP15.tb_okb_ok; [exact ex_tree|vm_compute; reflexivity]|].
  split; [apply TreeTensorP15.tb_okb_ok; [exact ex_tree|vm_compute; reflexivity]|].
  split; [apply TreeTensorP15.tb_okb_ok; [exact ex_tree|vm_compute; reflexivity]|].
  split; [vm_compute; lia|]. vm_compute. auto.
Qed.

(** ** C20: full() is the contraction of the tensor network *)
Theorem c20_full : forall R (CR : CRing R) (X : tbt R) r, tb_ok X r -> (2 <= tb_order X)%nat ->
  returns (tb_full X) (tb_shape X ++ exts X r) (fun is => tval X r (firstn (tb_order X) is) (skipn (tb_order X) is)).
Proof. exact (fun R CR => TreeTensorP2.tb_full_ok). Qed.
Print Assumptions c20_full.
(** the equations of the network *)
Theorem c20_network : forall R (CR : CRing R) (X : tbt R) r, dim_tree (ttree X) r ->
  (forall n is e, is_leaf (ttree X) n = true -> active X n = true ->
     tval X n is e = get (core X n) (nth (index_of n (d2i (ttree X))) is 0%nat :: e)) /\
  (forall n is k, is_leaf (ttree X) n = true -> active X n = false ->
     tval X n is [k] = if k =? nth (index_of n (d2i (ttree X))) is 0%nat then r1 else r0) /\
  (forall n is e, node (ttree X) n -> is_leaf (ttree X) n = false ->
     tval X n is e = bsum (heads X n) (fun ks => get (core X n) (ks ++ e) *
       lprod (combine (children (ttree X) n) ks) (fun p => tval X (fst p) is [snd p]))).
Proof.
  intros R CR X r V. split; [exact (TreeTensorP.tval_leaf X r V)|]. split; [|exact (TreeTensorP.tval_internal X r V)].
  intros n is k Hl Ha. rewrite (TreeTensorP.tval_inactive X r V n) by auto. cbn [list_eqb]. rewrite andb_true_r. reflexivity.
Qed.
Print Assumptions c20_network.
(** order 1: full() ignores the core of an active leaf *)
Theorem c20_order1_refuted : exists (X : tbt Z) A, tb_ok X 1 /\ tb_order X = 1%nat /\ tb_full X = Some A /\
  shape A <> tb_shape X.
Proof.
  exists (TB (dt_trivial 1) [ex_core [2] 3; ex_core [3;2] 1]%nat), (ex_core [2] 3)%nat.
  split; [apply TreeTensorP15.tb_okb_ok; [apply DimTreeP2.dt_trivial_ok; lia|vm_compute; reflexivity]|].
  split; [reflexivity|]. split; [reflexivity|]. vm_compute. discriminate.
Qed.
Print Assumptions c20_order1_refuted.
Example c20_ex : option_map to_list (tb_full exX) = Some ([2;3;2;3]%nat,
  map (fun is => tval exX 1 is []) (boxF [2;3;2;3]%nat)) /\
  map (fun is => tval exX 1 is []) (boxF [2;2;1;1]%nat) = [72; -40; -40; 12]%Z.
Proof. vm_compute. auto. Qed.

(** ** C21: sum and difference of tensors on the same tree, whatever their ranks and active leaves *)
Theorem c21_add : forall R (CR : CRing R) (X Y : tbt R) r A B, tb_ok X r -> tb_ok Y r -> ttree Y = ttree X -> (2 <= tb_order X)%nat ->
  tb_full X = Some A -> tb_full Y = Some B -> shape B = shape A ->
  exists Z, tb_add X Y = Some Z /\ tb_ok Z r /\ ttree Z = ttree X /\
    (forall n, node (ttree X) n -> active Z n = active X n || active Y n) /\
    returns (tb_full Z) (shape A) (fun is => get A is + get B is).
Proof. exact (fun R CR => TreeTensorP9.tb_add_full). Qed.
Print Assumptions c21_add.
Theorem c21_sub : forall R (CR : CRing R) (X Y : tbt R) r A B, tb_ok X r -> tb_ok Y r -> ttree Y = ttree X -> (2 <= tb_order X)%nat ->
  tb_full X = Some A -> tb_full Y = Some B -> shape B = shape A ->
  exists Z, tb_sub X Y = Some Z /\ tb_ok Z r /\ ttree Z = ttree X /\
    returns (tb_full Z) (shape A) (fun is => get A is - get B is).
Proof. exact (fun R CR => TreeTensorP9.tb_sub_full). Qed.
Print Assumptions c21_sub.
Theorem c21_neg : forall R (CR : CRing R) (X : tbt R) r A, tb_ok X r -> (2 <= tb_order X)%nat -> tb_full X = Some A ->
  tb_ok (tb_neg X) r /\ ttree (tb_neg X) = ttree X /\ returns (tb_full (tb_neg X)) (shape A) (fun is => - get A is).
Proof. intros R CR X r A O H HA. destruct (TreeTensorP6.tb_neg_full X r A O H HA). auto. Qed.
Print Assumptions c21_neg.
(** two trees that [==] accepts but whose nodes are numbered differently: the cores are added node by
    node, and the result is wrong *)
Definition ex21X : tbt Z := TB (DT 3 [2;3] (adj (dt_trivial 2)))%nat [of_list 0%Z [2;2] [1;0;0;0]%Z; no_core; no_core]%nat.
Definition ex21Y : tbt Z := TB (DT 3 [3;2] (adj (dt_trivial 2)))%nat [of_list 0%Z [2;2] [0;1;0;0]%Z; no_core; no_core]%nat.
Theorem c21_renumbered_refuted : exists (X Y Z : tbt Z) A B C is, tb_ok X 1 /\ tb_ok Y 1 /\ dt_eqb (ttree X) (ttree Y) = true /\
  same_tree (ttree X) (ttree Y) /\ tb_full X = Some A /\ tb_full Y = Some B /\ shape A = shape B /\
  tb_add X Y = Some Z /\ tb_full Z = Some C /\ valid (shape A) is /\ get C is <> get A is + get B is.
Proof.
  assert (V1 : dim_tree (ttree ex21X) 1) by (apply (DimTreeP2.dt_trivial_ok 2); lia).
  assert (V2 : dim_tree (ttree ex21Y) 1).
  { apply (DimTreeP2.dt_permute_ok (dt_trivial 2) 1 [1;0]%nat); [apply DimTreeP2.dt_trivial_ok; lia|apply perm_swap]. }
  exists ex21X, ex21Y. do 4 eexists. exists [1;0]%nat.
  split; [apply TreeTensorP15.tb_okb_ok; [exact V1|vm_compute; reflexivity]|].
  split; [apply TreeTensorP15.tb_okb_ok; [exact V2|vm_compute; reflexivity]|].
  split; [vm_compute; reflexivity|]. split.
  { split; [reflexivity|]. split; [reflexivity|]. exists (fun n => match n with 2 => 3 | 3 => 2 | k => k end)%nat.
    unfold node, edge; cbn [nbn adj d2i ttree ex21X ex21Y dt_trivial length].
    split; [intros [|[|[|[|n]]]] Hn; lia|]. split; [intros [|[|[|[|n]]]] [|[|[|[|m]]]] Hn Hm; lia|].
    split; [|intros [|[|mu]] H; cbn; auto; lia].
    intros [|[|[|[|p]]]] [|[|[|[|c]]]] Hp Hc; try lia; unfold node; cbn [nbn]; cbn; intuition lia. }
  split; [vm_compute; reflexivity|]. split; [vm_compute; reflexivity|]. split; [vm_compute; reflexivity|].
  split; [vm_compute; reflexivity|]. split; [vm_compute; reflexivity|]. split; [repeat constructor|]. vm_compute. discriminate.
Qed.
Print Assumptions c21_renumbered_refuted.
Example c21_ex : (let* Z := tb_add exX exY in let* F := tb_full Z in Some (tb_ranks Z, to_list F)) =
  (let* A := tb_full exX in let* B := tb_full exY in
   Some ([1;3;5;4;4;3;4]%nat, ([2;3;2;3]%nat, map (fun is => (get A is + get B is)%Z) (boxF [2;3;2;3]%nat)))).
Proof. vm_compute. reflexivity. Qed.

(** ** C22: scaling, Hadamard and Kronecker products *)
Theorem c22_scale : forall R (CR : CRing R) (X : tbt R) r c A, tb_ok X r -> (2 <= tb_order X)%nat -> tb_full X = Some A ->
  exists Z, tb_scale X c = Some Z /\ tb_ok Z r /\ ttree Z = ttree X /\ returns (tb_full Z) (shape A) (fun is => get A is * c).
Proof. exact (fun R CR => TreeTensorP6.tb_scale_full). Qed.
Print Assumptions c22_scale.
Theorem c22_mul_partial : forall R (CR : CRing R) (X Y : tbt R) r A B, tb_ok X r -> tb_ok Y r -> ttree Y = ttree X ->
  (forall n, node (ttree X) n -> active Y n = active X n) ->
  (2 <= tb_order X)%nat -> tb_full X = Some A -> tb_full Y = Some B -> shape B = shape A ->
  exists Z, tb_mul X Y = Some Z /\ tb_ok Z r /\ ttree Z = ttree X /\
    returns (tb_full Z) (shape A) (fun is => get A is * get B is).
Proof. exact (fun R CR => TreeTensorP11.tb_mul_full). Qed.
Print Assumptions c22_mul_partial.
Theorem c22_kron_partial : forall R (CR : CRing R) (X Y : tbt R) r A B, tb_ok X r -> tb_ok Y r -> ttree Y = ttree X ->
  (forall n, node (ttree X) n -> active Y n = active X n) ->
  (2 <= tb_order X)%nat -> tb_full X = Some A -> tb_full Y = Some B -> ndim A = ndim B ->
  exists Z, tb_kron X Y = Some Z /\ tb_ok Z r /\ ttree Z = ttree X /\
    returns (tb_full Z) (map (fun p => (fst p * snd p)%nat) (combine (shape A) (shape B)))
      (fun is => get A (map (fun p => (fst p / snd p)%nat) (combine is (shape B)))
                 * get B (map (fun p => (fst p mod snd p)%nat) (combine is (shape B)))).
Proof. exact (fun R CR => TreeTensorP11.tb_kron_full). Qed.
Print Assumptions c22_kron_partial.
(** unequal active leaves: the core of a leaf that is active in the second tensor only is dropped *)
Definition ex22X : tbt Z := TB (dt_trivial 2) [of_list 0%Z [2;2] [1;1;1;1]%Z; no_core; no_core]%nat.
Definition ex22Y : tbt Z := TB (dt_trivial 2) [of_list 0%Z [2;2] [1;1;1;1]%Z; of_list 0%Z [2;2] [2;0;0;2]%Z; no_core]%nat.
Theorem c22_mul_unequal_refuted : exists (X Y Z : tbt Z) A B C is, tb_ok X 1 /\ tb_ok Y 1 /\ ttree X = ttree Y /\
  tb_full X = Some A /\ tb_full Y = Some B /\ shape A = shape B /\
  tb_mul X Y = Some Z /\ tb_full Z = Some C /\ shape C = shape A /\ valid (shape A) is /\ get C is <> get A is * get B is.
Proof.
  exists ex22X, ex22Y. do 4 eexists. exists [0;0]%nat.
  split; [apply TreeTensorP15.tb_okb_ok; [apply (DimTreeP2.dt_trivial_ok 2); lia|vm_compute; reflexivity]|].
  split; [apply TreeTensorP15.tb_okb_ok; [apply (DimTreeP2.dt_trivial_ok 2); lia|vm_compute; reflexivity]|].
  split; [vm_compute; reflexivity|]. split; [vm_compute; reflexivity|]. split; [vm_compute; reflexivity|]. split; [vm_compute; reflexivity|].
  split; [vm_compute; reflexivity|]. split; [vm_compute; reflexivity|]. split; [vm_compute; reflexivity|]. split; [repeat constructor|]. vm_compute. discriminate.
Qed.
Print Assumptions c22_mul_unequal_refuted.
Example c22_ex : (forall n, node (ttree exX) n -> active exY' n = active exX n) /\
  (let* Z := tb_mul exX exY' in let* F := tb_full Z in Some (to_list F)) =
  (let* A := tb_full exX in let* B := tb_full exY' in
   Some ([2;3;2;3]%nat, map (fun is => (get A is * get B is)%Z) (boxF [2;3;2;3]%nat))).
Proof.
  split; [|vm_compute; reflexivity]. unfold node. cbn [nbn ttree exX]. intros n Hn.
  do 8 (destruct n as [|n]; [try (vm_compute in Hn; lia); vm_compute; reflexivity|]). vm_compute in Hn. lia.
Qed.

(** ** C23: mode products and slicing act as on the full tensor *)
Theorem c23_tensor_matrix_product : forall R (CR : CRing R) (X : tbt R) r Ms mus A, tb_ok X r -> (2 <= tb_order X)%nat -> tb_full X = Some A ->
  NoDup mus -> Forall (fun k => (k < tb_order X)%nat) mus -> length Ms = length mus ->
  (forall k, (k < length mus)%nat -> exists q, (0 < q)%nat /\ shape (nth k Ms (scalar r0)) = [q; nth (nth k mus 0%nat) (shape A) 0%nat]) ->
  exists Z, tb_tmp X Ms (Some mus) = Some Z /\ tb_ok Z r /\ ttree Z = ttree X /\
    returns (tb_full Z) (put mus (map (fun M => nth 0 (shape M) 0%nat) Ms) (shape A))
      (fun is => bsum (sel 0%nat (shape A) mus) (fun js => get A (put mus js is) * factors Ms (sel 0%nat is mus) js)).
Proof. exact (fun R CR => TreeTensorP4.tb_tmp_full). Qed.
Print Assumptions c23_tensor_matrix_product.
Theorem c23_diagonal_matrix_product : forall R (CR : CRing R) (X : tbt R) r vs mus A, tb_ok X r -> (2 <= tb_order X)%nat -> tb_full X = Some A ->
  NoDup mus -> Forall (fun k => (k < tb_order X)%nat) mus -> length vs = length mus ->
  (forall k, (k < length mus)%nat -> shape (nth k vs (scalar r0)) = [nth (nth k mus 0%nat) (shape A) 0%nat]) ->
  exists Z, tb_tdmp X vs (Some mus) = Some Z /\ tb_ok Z r /\ ttree Z = ttree X /\
    returns (tb_full Z) (shape A) (fun is => get A is * vfactors_at vs mus is).
Proof. exact (fun R CR => TreeTensorP5.tb_tdmp_full). Qed.
Print Assumptions c23_diagonal_matrix_product.
(** sub_tensor with non-empty selections *)
Theorem c23_sub_tensor : forall R (CR : CRing R) (X : tbt R) r sl A, tb_ok X r -> (2 <= tb_order X)%nat -> tb_full X = Some A -> length sl = tb_order X ->
  (forall k, (k < tb_order X)%nat -> slice_ok (nth k (shape A) 0%nat) (nth k sl All) /\ (0 < slice_len (nth k (shape A) 0%nat) (nth k sl All))%nat) ->
  exists Z, tb_sub_tensor X sl = Some Z /\ tb_ok Z r /\ ttree Z = ttree X /\
    returns (tb_full Z) (map (fun p => slice_len (fst p) (snd p)) (combine (shape A) sl) ++ skipn (tb_order X) (shape A))
      (fun is => get A (map (fun p => slice_idx (fst p) (snd p)) (combine sl is) ++ skipn (tb_order X) is)).
Proof. exact (fun R CR => TreeTensorP5.tb_sub_tensor_full). Qed.
Print Assumptions c23_sub_tensor.
(** tensor_matrix_product_eval_diag: entry i is the product of the tensor with the i-th rows of the matrices (the
    trailing indices of A, if any, are those of a root of larger order) *)
Theorem c23_tensor_matrix_product_eval_diag : forall R (CR : CRing R) (X : tbt R) r Ms q A, tb_ok X r -> (2 <= tb_order X)%nat -> tb_full X = Some A ->
  length Ms = tb_order X -> (0 < q)%nat -> (forall mu, (mu < tb_order X)%nat -> shape (nth mu Ms (scalar r0)) = [q; nth mu (shape A) 0%nat]) ->
  returns (tb_tmp_eval_diag X Ms) (q :: skipn (tb_order X) (shape A))
    (fun ie => bsum (firstn (tb_order X) (shape A)) (fun js => get A (js ++ skipn 1 ie) * factors Ms (repeat (nth 0%nat ie 0%nat) (tb_order X)) js)).
Proof.
  intros R CR X r Ms q A O H2 HA LM Hq HM. destruct (TreeTensorP2.tb_full_ok X r O H2) as (A' & EA & SA & GA). rewrite HA in EA. injection EA as <-.
  assert (LS : length (tb_shape X) = tb_order X) by (unfold tb_shape; rewrite map_length; reflexivity).
  destruct (TreeTensorP18.tb_tmp_eval_diag_ok X r Ms q O H2 LM Hq) as (C & EC & SC & GC).
  { intros mu Hmu. rewrite HM by auto. rewrite SA, app_nth1 by lia. reflexivity. }
  assert (E1 : firstn (tb_order X) (shape A) = tb_shape X) by (rewrite SA, firstn_app, <- LS, Nat.sub_diag, firstn_all; cbn; apply app_nil_r).
  assert (E2 : skipn (tb_order X) (shape A) = exts X r) by (rewrite SA, skipn_app, <- LS, Nat.sub_diag, skipn_all; reflexivity).
  exists C. split; auto. split; [rewrite E2; auto|]. rewrite E2, E1. intros ie Hv. inversion Hv as [|i ? e ? Hi He]; subst. cbn [skipn nth].
  rewrite GC by auto. apply CRing.bsum_ext. intros js Hj. f_equal. pose proof (Index.valid_length _ _ Hj) as Lj. rewrite LS in Lj.
  rewrite GA by (apply Forall2_app; auto). rewrite firstn_app, skipn_app, Lj, Nat.sub_diag, <- Lj, firstn_all, skipn_all. cbn. rewrite app_nil_r. reflexivity.
Qed.
Print Assumptions c23_tensor_matrix_product_eval_diag.
Example c23_ex_eval_diag : (let* F := tb_tmp_eval_diag exX [ex_core [2;2] 2; ex_core [2;3] 3; ex_core [2;2] 1; ex_core [2;3] 4]%nat in Some (to_list F)) =
  (let* A := tb_full exX in let* F := ft_tmp_eval_diag A [ex_core [2;2] 2; ex_core [2;3] 3; ex_core [2;2] 1; ex_core [2;3] 4]%nat None in Some (to_list F)).
Proof. vm_compute. reflexivity. Qed.
Example c23_ex : (let* Z := tb_tmp exX [ex_core [4;3] 2; ex_core [1;2] 3]%nat (Some [1;0]%nat) in let* F := tb_full Z in Some (to_list F)) =
  (let* A := tb_full exX in let* F := ft_tensor_matrix_product A [ex_core [4;3] 2; ex_core [1;2] 3]%nat (Some [1;0]%nat) in Some (to_list F)) /\
  (let* Z := tb_sub_tensor exX [Pick [1]; Pick [2;0]; All; Pick [1;1;0]]%nat in let* F := tb_full Z in Some (to_list F)) =
  (let* A := tb_full exX in let* F := ft_sub_tensor A [Pick [1]; Pick [2;0]; All; Pick [1;1;0]]%nat in Some (to_list F)).
Proof. vm_compute. auto. Qed.

(** ** C24: (in)activation of nodes *)
Theorem c24_inactivate : forall R (CR : CRing R) (X : tbt R) r ns A, tb_ok X r -> (2 <= tb_order X)%nat -> tb_full X = Some A ->
  (forall n, In n ns -> In n (d2i (ttree X))) ->
  exists Z, tb_inactivate X ns = Some Z /\ tb_ok Z r /\ ttree Z = ttree X /\ returns (tb_full Z) (shape A) (get A) /\
    forall n, node (ttree X) n -> (active Z n = true <-> active X n = true /\ ~ In n ns).
Proof.
  intros R CR X r ns A O H2 HA Hns. destruct (TreeTensorP7.tb_inactivate_spec X r ns O H2 Hns) as (Z & HZ & SV & HAct).
  exists Z. split; auto. pose proof SV as (OZ & TZ & _). split; auto. split; auto. split; [apply (TreeTensorP7.same_val_full X Z r A); auto|].
  intros n Hn. rewrite HAct by auto. rewrite andb_true_iff, negb_true_iff, <- not_true_iff_false, NumpyP.inb_spec. tauto.
Qed.
Print Assumptions c24_inactivate.
Theorem c24_activate : forall R (CR : CRing R) (X : tbt R) r ns A, tb_ok X r -> (2 <= tb_order X)%nat -> tb_full X = Some A ->
  (forall n, In n ns -> node (ttree X) n) ->
  exists Z, tb_activate X ns = Some Z /\ tb_ok Z r /\ ttree Z = ttree X /\ returns (tb_full Z) (shape A) (get A) /\
    forall n, node (ttree X) n -> (active Z n = true <-> active X n = true \/ In n ns).
Proof.
  intros R CR X r ns A O H2 HA Hns. destruct (TreeTensorP7.tb_activate_spec X r ns O H2 Hns) as (Z & HZ & SV & HAct & _).
  exists Z. split; auto. pose proof SV as (OZ & TZ & _). split; auto. split; auto. split; [apply (TreeTensorP7.same_val_full X Z r A); auto|].
  intros n Hn. rewrite HAct by auto. rewrite orb_true_iff, NumpyP.inb_spec. tauto.
Qed.
Print Assumptions c24_activate.
Example c24_ex : (forall n, In n [4;7]%nat -> In n (d2i (ttree exX))) /\
  (let* Z := tb_inactivate exX [4;7]%nat in let* F := tb_full Z in Some (active_nodes Z, to_list F)) =
  (let* A := tb_full exX in Some ([1;2;3;6]%nat, to_list A)) /\
  (let* Z := tb_activate exX [4;5]%nat in let* F := tb_full Z in Some (active_nodes Z, to_list F)) =
  (let* A := tb_full exX in Some ([1;2;3;4;5;6;7]%nat, to_list A)).
Proof. split; [intros n [<-|[<-|[]]]; simpl; auto|]. vm_compute. auto. Qed.

(** ** C25: inner products and norm *)
Theorem c25_dot_partial : forall R (CR : CRing R) (X Y : tbt R) r A B, tb_ok X r -> tb_ok Y r -> ttree Y = ttree X ->
  (forall n, node (ttree X) n -> active Y n = active X n) ->
  (2 <= tb_order X)%nat -> tb_full X = Some A -> tb_full Y = Some B -> shape B = shape A -> ndim A = tb_order X ->
  returns (tb_dot X Y) [] (fun _ => bsum (shape A) (fun is => get A is * get B is)).
Proof. exact (fun R CR => TreeTensorP14.tb_dot_scalar). Qed.
Print Assumptions c25_dot_partial.
(** with metrics, and with a rank axis of size > 1 at the root (one inner product for each pair of
    indices of the rank axes) *)
Theorem c25_dot_metric_partial : forall R (CR : CRing R) (X Y : tbt R) r Ms A B, tb_ok X r -> tb_ok Y r -> ttree Y = ttree X ->
  (forall n, node (ttree X) n -> active Y n = active X n) ->
  (2 <= tb_order X)%nat -> tb_full X = Some A -> tb_full Y = Some B -> ndim A = ndim B ->
  length Ms = tb_order X -> (forall k, (k < tb_order X)%nat -> shape (nth k Ms (scalar r0)) = [nth k (shape A) 0%nat; nth k (shape B) 0%nat]) ->
  (ndim A = tb_order X \/ 1 < nth (tb_order X) (shape A) 0)%nat ->
  returns (tb_dot_metric X Y Ms) (skipn (tb_order X) (shape A) ++ skipn (tb_order X) (shape B))
    (fun es => let e := firstn (ndim A - tb_order X) es in let e' := skipn (ndim A - tb_order X) es in
      bsum (firstn (tb_order X) (shape A)) (fun is => bsum (firstn (tb_order X) (shape B)) (fun js =>
        get A (is ++ e) * factors Ms is js * get B (js ++ e')))).
Proof. exact (fun R CR => TreeTensorP14.tb_dot_metric_full). Qed.
Print Assumptions c25_dot_metric_partial.
(** norm(), for any QR routine; when the flag [is_orth] is set, the cores must be orthonormal *)
Theorem c25_norm : forall R (CR : CRing R) qr (X : tbt R) r A is_orth, qr_contract qr -> tb_ok X r -> (2 <= tb_order X)%nat -> tb_full X = Some A ->
  (is_orth = true -> forall n, node (ttree X) n -> active X n = true -> n <> r -> orth_cols (core X n)) ->
  tb_norm2 qr is_orth X = Some (bsum (shape A) (fun is => get A is * get A is)).
Proof. exact (fun R CR => TreeTensorP14.tb_norm2_full). Qed.
Print Assumptions c25_norm.
(** unequal active leaves: a wrong value, without any error *)
Theorem c25_dot_unequal_refuted : exists (X Y : tbt Z) A B D, tb_ok X 1 /\ tb_ok Y 1 /\ ttree X = ttree Y /\
  tb_full X = Some A /\ tb_full Y = Some B /\ shape A = shape B /\ tb_dot X Y = Some D /\ shape D = [] /\
  get D [] <> bsum (shape A) (fun is => get A is * get B is).
Proof.
  exists ex22X, ex22Y. do 3 eexists.
  split; [apply TreeTensorP15.tb_okb_ok; [apply (DimTreeP2.dt_trivial_ok 2); lia|vm_compute; reflexivity]|].
  split; [apply TreeTensorP15.tb_okb_ok; [apply (DimTreeP2.dt_trivial_ok 2); lia|vm_compute; reflexivity]|].
  split; [vm_compute; reflexivity|]. split; [vm_compute; reflexivity|]. split; [vm_compute; reflexivity|]. split; [vm_compute; reflexivity|].
  split; [vm_compute; reflexivity|]. split; [vm_compute; reflexivity|]. vm_compute. discriminate.
Qed.
Print Assumptions c25_dot_unequal_refuted.
(** a root with a rank axis of size 1: dot fails *)
Theorem c25_dot_rank1_refuted : exists X : tbt Z, tb_ok X 1 /\ (2 <= tb_order X)%nat /\ exts X 1 = [1%nat] /\ tb_dot X X = None.
Proof.
  exists (TB (dt_trivial 2) [of_list 0%Z [2;2;1] [1;1;1;1]%Z; no_core; no_core]%nat).
  split; [apply TreeTensorP15.tb_okb_ok; [apply (DimTreeP2.dt_trivial_ok 2); lia|vm_compute; reflexivity]|].
  split; [vm_compute; lia|]. split; vm_compute; reflexivity.
Qed.
Print Assumptions c25_dot_rank1_refuted.
Example c25_ex : (let* D := tb_dot exX exY' in Some (to_list D)) =
  (let* A := tb_full exX in let* B := tb_full exY' in Some ([], [bsum [2;3;2;3]%nat (fun is => (get A is * get B is)%Z)])).
Proof. vm_compute. auto. Qed.

(** ** C26: orthogonalisation, for any QR routine meeting its contract *)
Theorem c26_orth : forall R (CR : CRing R) qr (X : tbt R) r A, qr_contract qr -> tb_ok X r -> (2 <= tb_order X)%nat -> tb_full X = Some A ->
  exists Z, tb_orth qr X = Some Z /\ tb_ok Z r /\ ttree Z = ttree X /\ returns (tb_full Z) (shape A) (get A) /\
    (forall n, node (ttree X) n -> active Z n = active X n) /\
    (forall n, node (ttree X) n -> active X n = true -> n <> r ->
       orth_cols (core Z n) /\ (last (shape (core Z n)) 0 <= last (shape (core X n)) 0)%nat).
Proof.
  intros R CR qr X r A Hq O H2 HA. destruct (TreeTensorP7.tb_orth_ranks qr X r Hq O) as (Z & HZ & SV & H3 & H4 & H5).
  exists Z. split; auto. pose proof SV as (OZ & TZ & _). split; auto. split; auto. split; [apply (TreeTensorP7.same_val_full X Z r A); auto|]. split; auto.
  intros n Hn Ha NE. split; auto. specialize (H5 n Hn NE). unfold TreeTensorP.csize in H5. rewrite H3, Ha in H5 by auto. exact H5.
Qed.
Print Assumptions c26_orth.
(** orth(dim) of a dense tensor: A = Q x_dim R^T, with Q orthonormal along dim *)
Theorem c26_core_orth : forall R (CR : CRing R) (qr : nd R -> nd R * nd R) A dim, qr_contract qr -> (dim < ndim A)%nat ->
  exists Q Rm k, ft_orth qr A dim = Some (Q, Rm) /\
    k = Nat.min (prodn (sel 0%nat (shape A) (compl (ndim A) [dim]))) (nth dim (shape A) 0%nat) /\
    shape Q = upd dim k (shape A) /\ shape Rm = [k; nth dim (shape A) 0%nat] /\
    (forall is, valid (shape A) is -> get A is = rsum k (fun c => get Q (upd dim c is) * get Rm [c; nth dim is 0%nat])) /\
    (forall a b, (a < k)%nat -> (b < k)%nat ->
       bsum (sel 0%nat (shape A) (compl (ndim A) [dim])) (fun is => get Q (ins dim a is) * get Q (ins dim b is)) = if a =? b then r1 else r0).
Proof. exact (fun R CR => FullTensorP3.ft_orth_spec). Qed.
Print Assumptions c26_core_orth.

(** ** C27: storage *)
Theorem c27_storage : forall R (CR : CRing R) (X : tbt R) r, tb_ok X r -> (2 <= tb_order X)%nat ->
  tb_storage X = sumn (map (fun n => if active X n then
    ((if is_leaf (ttree X) n then tb_size X n
      else prodn (map (fun c => if active X c then tb_rank X c else tb_size X c) (children (ttree X) n))) * tb_rank X n)%nat else 0%nat) (nodes (ttree X))).
Proof. exact (fun R CR => TreeTensorP15.tb_storage_spec). Qed.
Print Assumptions c27_storage.
(** [z] decides whether a scalar is 0 *)
Theorem c27_sparse_storage : forall R (CR : CRing R) (z : R -> bool) (X : tbt R) r, tb_ok X r ->
  tb_sparse_storage z X = sumn (map (fun n => length (filter (fun is => negb (z (get (core X n) is))) (boxF (shape (core X n))))) (nodes (ttree X))) /\
  (tb_sparse_storage z X <= tb_sparse_leaves_storage z X <= tb_storage X)%nat.
Proof.
  intros R CR z X r O. split; [|exact (TreeTensorP15.tb_sparse_leaves_between z X r O)].
  unfold tb_sparse_storage. rewrite (TreeTensorP15.cores_map X r O), map_map. reflexivity.
Qed.
Print Assumptions c27_sparse_storage.
Example c27_ex : (tb_ranks exX, tb_storage exX, tb_sparse_storage (Z.eqb 0) exX, tb_sparse_leaves_storage (Z.eqb 0) exX) = ([1;2;2;2;0;1;2], 32, 30, 30)%nat.
Proof. vm_compute. reflexivity. Qed.
