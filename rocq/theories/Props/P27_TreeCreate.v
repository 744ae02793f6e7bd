(** C64: constructors and direct sums of tree-based tensors. *)
From Coq Require Import List Arith Lia Bool Reals Lra ZArith Permutation.
From Verif.Base Require Import ListAux CRing Index RealAux.
From Verif.Model Require Import Numpy FullTensor DimensionTree TreeBased TreeReduce TreeCreate.
From Verif.Spec Require Import TensorSpec TreeSpec TreeTensorSpec TrainSpec.
From Verif.Proofs Require Import DimTreeP DimTreeP2 TreeTensorP TreeTensorP15 TreeCreateP2 TreeCreateP3 TreeCreateP4 TreeCreateP5.
From Verif.Props Require Import P06_TreeBased.
Import ListNotations.

(** * C64 *)
(** cat: the full tensor of the result is the block-diagonal concatenation of the full tensors along all the axes; for tensors with the same tree and the
    same active nodes *)
Theorem c64_cat_partial : forall {K} {CR : CRing K} (X Y : tbt K) r A B, tb_ok X r -> tb_ok Y r -> ttree Y = ttree X ->
  (forall n, node (ttree X) n -> active Y n = active X n) -> 2 <= tb_order X -> tb_full X = Some A -> tb_full Y = Some B -> ndim A = ndim B ->
  exists Z, tb_cat X Y = Some Z /\ tb_ok Z r /\ ttree Z = ttree X /\ (forall n, node (ttree X) n -> active Z n = active X n) /\
    returns (tb_full Z) (cat_shape (seq 0 (ndim A)) (shape A) (shape B)) (cat_entry (seq 0 (ndim A)) A B).
Proof. exact @tb_cat_full. Qed.
Print Assumptions c64_cat_partial.
(** reduce_sum over some of the dimensions: the sums of the entries of the full tensor *)
Theorem c64_reduce_sum : forall {K} {CR : CRing K} (X : tbt K) r A ds, tb_ok X r -> 2 <= tb_order X -> tb_full X = Some A ->
  NoDup ds -> Forall (fun k => k < tb_order X) ds -> length ds < tb_order X -> ndim A = tb_order X \/ length ds + 2 <= tb_order X ->
  exists Z r', tb_reduce_sum X (Some ds) = Some (inr Z) /\ tb_ok Z r' /\ tb_order Z = tb_order X - length ds /\
    returns (tb_full Z) (sel 0 (shape A) (compl (ndim A) ds)) (fun is => bsum (sel 0 (shape A) ds) (fun js => get A (asm (ndim A) ds js is))).
Proof. exact @tb_reduce_sum_some. Qed.
Print Assumptions c64_reduce_sum.
(** and over all of them: a scalar *)
Theorem c64_reduce_sum_all : forall {K} {CR : CRing K} (X : tbt K) r A, tb_ok X r -> 2 <= tb_order X -> tb_full X = Some A -> ndim A = tb_order X ->
  exists B, tb_reduce_sum X None = Some (inl B) /\ shape B = [] /\ get B [] = bsum (shape A) (get A).
Proof. exact @tb_reduce_sum_all. Qed.
Print Assumptions c64_reduce_sum_all.
(** division by a scalar *)
Theorem c64_truediv : forall (X : tbt R) r c A, tb_ok X r -> 2 <= tb_order X -> tb_full X = Some A -> c <> 0%R ->
  tb_ok (tb_truediv X c) r /\ ttree (tb_truediv X c) = ttree X /\ returns (tb_full (tb_truediv X c)) (shape A) (fun is => get A is / c)%R.
Proof. exact truediv_full. Qed.
Print Assumptions c64_truediv.

(** create: a well-formed tensor with the tree, shape, active nodes and ranks that were asked for; the core of every active node is drawn from the
    generator; the output axis is present if the rank of the root is larger than 1 *)
Theorem c64_create : forall {K} {CR : CRing K} (gen : list nat -> nd K) t r draw ranks sizes act, (forall s, shape (gen s) = s) ->
  dim_tree t r -> 2 <= length (d2i t) -> length ranks = nbn t -> length sizes = length (d2i t) -> length act = nbn t ->
  (forall n, node t n -> nth (n - 1) act false = true -> 1 <= nth (n - 1) ranks 0) -> Forall (fun s => 1 <= s) sizes ->
  (forall n, node t n -> is_leaf t n = false -> nth (n - 1) act false = true) ->
  exists Z, tb_create_args gen t draw (Some ranks) (Some sizes) (Some act) = Some Z /\ tb_ok Z r /\ ttree Z = t /\ tb_shape Z = sizes /\
    exts Z r = (if 1 <? nth (r - 1) ranks 0 then [nth (r - 1) ranks 0] else []) /\
    (forall n, node t n -> active Z n = nth (n - 1) act false) /\
    (forall n, node t n -> tb_rank Z n = if nth (n - 1) act false then nth (n - 1) ranks 0 else 0) /\
    (forall n, node t n -> nth (n - 1) act false = true -> core Z n = gen (shape (core Z n))).
Proof.
  intros K CR gen t r draw ranks sizes act HG V H2 LR LS LA HR HS HI.
  destruct (create_ok gen t r ranks sizes act HG V H2 LR LS LA HR HS HI) as (Z & E & O & T & S & X & A & Rk & C & _).
  exists Z. split; [|auto 10]. rewrite (create_args_some gen t r draw ranks sizes act V H2 LR). exact E.
Qed.
Print Assumptions c64_create.
(** all the arguments left out (or ranks = "random"): the ranks are those drawn, 1 at the root; the size of a dimension is the rank of its leaf; all the nodes are active *)
Theorem c64_create_default : forall {K} {CR : CRing K} (gen : list nat -> nd K) t r draw, (forall s, shape (gen s) = s) ->
  dim_tree t r -> 2 <= length (d2i t) -> length draw = nbn t -> Forall (fun k => 1 <= k) draw ->
  exists Z, tb_create_args gen t draw None None None = Some Z /\ tb_ok Z r /\ ttree Z = t /\ tb_shape Z = map (fun n => nth (n - 1) draw 0) (d2i t) /\
    exts Z r = [] /\ (forall n, node t n -> active Z n = true) /\ (forall n, node t n -> n <> r -> tb_rank Z n = nth (n - 1) draw 0) /\
    (forall n, node t n -> core Z n = gen (shape (core Z n))).
Proof. exact @create_default. Qed.
Print Assumptions c64_create_default.
(** the active nodes drawn for is_active_node = "random" are suitable: all the internal nodes are active *)
Theorem c64_random_active : forall t r choice perm k, dim_tree t r -> Forall (fun mu => mu < length (d2i t)) perm ->
  length (random_active t choice perm k) = nbn t /\ forall n, node t n -> is_leaf t n = false -> nth (n - 1) (random_active t choice perm k) false = true.
Proof. exact random_active_ok. Qed.
Print Assumptions c64_random_active.
(** an inactive internal node is refused *)
Theorem c64_create_inactive : forall {K} {CR : CRing K} (gen : list nat -> nd K) t ranks sizes act n,
  node t n -> is_leaf t n = false -> nth (n - 1) act false = false -> tb_create gen t ranks sizes act = None.
Proof. exact @create_inactive. Qed.
Print Assumptions c64_create_inactive.
(** zeros: the full tensor is zero, whatever the ranks *)
Theorem c64_zeros : forall {K} {CR : CRing K} t r draw ranks sizes act, dim_tree t r -> 2 <= length (d2i t) -> length ranks = nbn t ->
  length sizes = length (d2i t) -> length act = nbn t -> (forall n, node t n -> nth (n - 1) act false = true -> 1 <= nth (n - 1) ranks 0) ->
  Forall (fun s => 1 <= s) sizes -> (forall n, node t n -> is_leaf t n = false -> nth (n - 1) act false = true) ->
  exists Z, tb_zeros t draw (Some ranks) (Some sizes) (Some act) = Some Z /\ tb_ok Z r /\ ttree Z = t /\
    returns (tb_full Z) (sizes ++ (if 1 <? nth (r - 1) ranks 0 then [nth (r - 1) ranks 0] else [])) (fun _ => r0 : K).
Proof.
  intros K CR t r draw ranks sizes act V H2 LR LS LA HR HS HI. unfold tb_zeros. rewrite (create_args_some _ t r draw ranks sizes act V H2 LR).
  exact (zeros_val t r ranks sizes act V H2 LR LS LA HR HS HI).
Qed.
Print Assumptions c64_zeros.
(** ones: it is the *cores* that are filled with ones: the entries of the full tensor are all equal to the product of the ranks of the active nodes other than the root *)
Theorem c64_ones : forall {K} {CR : CRing K} t r draw ranks sizes act, dim_tree t r -> 2 <= length (d2i t) -> length ranks = nbn t ->
  length sizes = length (d2i t) -> length act = nbn t -> (forall n, node t n -> nth (n - 1) act false = true -> 1 <= nth (n - 1) ranks 0) ->
  Forall (fun s => 1 <= s) sizes -> (forall n, node t n -> is_leaf t n = false -> nth (n - 1) act false = true) ->
  exists Z, tb_ones t draw (Some ranks) (Some sizes) (Some act) = Some Z /\ tb_ok Z r /\ ttree Z = t /\
    returns (tb_full Z) (sizes ++ (if 1 <? nth (r - 1) ranks 0 then [nth (r - 1) ranks 0] else []))
      (fun _ => rsum (prodn (map (fun n => nth (n - 1) ranks 0) (filter (fun n => nth (n - 1) act false && negb (n =? r)) (nodes t)))) (fun _ => r1) : K).
Proof.
  intros K CR t r draw ranks sizes act V H2 LR LS LA HR HS HI. unfold tb_ones. rewrite (create_args_some _ t r draw ranks sizes act V H2 LR).
  exact (ones_val t r ranks sizes act V H2 LR LS LA HR HS HI).
Qed.
Print Assumptions c64_ones.
(** tensor_train: the entries of the full tensor are the products of the cores *)
Theorem c64_tensor_train_partial : forall {K} {CR : CRing K} (cs : list (nd K)), 2 <= length cs -> forall (n k : nat -> nat) ext,
  train_shapes (length cs) (fun j => nth j cs no_core) n k ext -> length ext <= 1 -> (forall j, j < length cs -> prodn (shape (nth j cs no_core)) <> 0) ->
  exists W, tb_tensor_train cs None = Some W /\ tb_ok W 1 /\ ttree W = dt_linear (length cs) (seq 0 (length cs)) /\
    returns (tb_full W) (map n (seq 0 (length cs)) ++ ext)
      (fun is => train_prod (fun j => nth j cs no_core) k (firstn (length cs) is) (length cs - 1) (skipn (length cs) is)).
Proof. exact @tt_full. Qed.
Print Assumptions c64_tensor_train_partial.

(** * Examples: the hypotheses are satisfied *)
Example c64_ex_cat : tb_ok exX 1 /\ tb_ok exY' 1 /\ ttree exY' = ttree exX /\ (forall n, node (ttree exX) n -> active exY' n = active exX n) /\
  (exists Z, tb_cat exX exY' = Some Z /\ match tb_full Z with Some A => shape A = [4;6;4;6] | None => False end).
Proof.
  split; [apply tb_okb_ok; [exact ex_tree|vm_compute; reflexivity]|]. split; [apply tb_okb_ok; [exact ex_tree|vm_compute; reflexivity]|]. split; [reflexivity|].
  split; [|eexists; split; [reflexivity|vm_compute; reflexivity]]. intros n [H1 H2]. change (nbn (ttree exX)) with 7 in H2.
  do 8 (destruct n as [|n]; [try lia; vm_compute; reflexivity|]). lia.
Qed.
(** cores of a tensor train of order 3, sizes 2, 3, 2 and ranks 2, 4 *)
Definition exC : list (nd Z) := [ex_core [2;2] 3; ex_core [2;3;4] 2; ex_core [4;2] 1].
Example c64_ex_train : train_shapes 3 (fun j => nth j exC no_core) (fun j => nth j [2;3;2] 0) (fun j => nth j [2;4] 0) [] /\
  (forall j, j < 3 -> prodn (shape (nth j exC no_core)) <> 0) /\
  exists W, tb_tensor_train exC None = Some W /\ match tb_full W with Some A => map (get A) [[0;1;1]; [1;2;0]; [1;0;1]] = map (fun is => train_prod (fun j => nth j exC no_core) (fun j => nth j [2;4] 0) is 2 []) [[0;1;1]; [1;2;0]; [1;0;1]] | None => False end.
Proof.
  split; [split; [reflexivity|split; [|reflexivity]]; intros j Hj; assert (j = 1) as -> by lia; reflexivity|]. split.
  - intros j Hj. do 3 (destruct j as [|j]; [vm_compute; lia|]). lia.
  - eexists. split; [reflexivity|]. vm_compute. reflexivity.
Qed.
Example c64_ex_ones : let t := dt_balanced 4 [0;1;2;3] in exists Z : tbt Z,
  tb_ones t [] (Some [1;2;3;2;2;2;2]) (Some [2;3;2;3]) (Some [true;true;true;true;false;true;true]) = Some Z /\ match tb_full Z with Some A => get A [1;2;1;0] = 48%Z | None => False end.
Proof. eexists. split; [reflexivity|]. vm_compute. reflexivity. Qed.

(** * What does not hold *)
(** the order of the dimensions: with dims, core i should be associated with dimension dims[i] ("the dimension associated with each core").
    The cores are permuted instead, their ranks do not match any more and the tensor cannot be evaluated *)
Theorem c64_train_dims_refuted : exists (cs : list (nd Z)) n k dims, train_shapes (length cs) (fun j => nth j cs no_core) n k [] /\
  (forall j, j < length cs -> prodn (shape (nth j cs no_core)) <> 0) /\ Permutation dims (seq 0 (length cs)) /\
  ~ (exists W A, tb_tensor_train cs (Some dims) = Some W /\ tb_full W = Some A /\ forall j, j < length cs -> nth (nth j dims 0) (shape A) 0 = n j).
Proof.
  exists exC, (fun j => nth j [2;3;2] 0), (fun j => nth j [2;4] 0), [1;0;2].
  split; [exact (proj1 c64_ex_train)|]. split; [exact (proj1 (proj2 c64_ex_train))|]. split; [change (Permutation [1;0;2] [0;1;2]); apply perm_swap|].
  intros (W & A & EW & EA & _). assert (E : (match tb_tensor_train exC (Some [1;0;2]) with Some W => match tb_full W with Some _ => true | None => false end | None => false end) = false) by (vm_compute; reflexivity).
  rewrite EW, EA in E. discriminate.
Qed.
Print Assumptions c64_train_dims_refuted.
(** cat ignores the core of a leaf that is active in the second tensor only: the result is not the direct sum *)
Definition exX2 : tbt Z := TB (dt_balanced 2 [0;1]) [ex_core [2;2] 3; ex_core [2;2] 5; no_core].
Definition exY2 : tbt Z := TB (dt_balanced 2 [0;1]) [ex_core [2;2] 1; ex_core [2;2] 2; ex_core [2;2] 4].
Theorem c64_cat_refuted : exists (X Y : tbt Z) A B, tb_ok X 1 /\ tb_ok Y 1 /\ ttree Y = ttree X /\ 2 <= tb_order X /\
  tb_full X = Some A /\ tb_full Y = Some B /\ ndim A = ndim B /\
  exists Z C, tb_cat X Y = Some Z /\ tb_full Z = Some C /\ shape C = cat_shape (seq 0 (ndim A)) (shape A) (shape B) /\
    exists is, valid (shape C) is /\ get C is <> cat_entry (seq 0 (ndim A)) A B is.
Proof.
  assert (T2 : dim_tree (dt_balanced 2 [0;1]) 1) by (apply dt_balanced_ok; [lia|apply Permutation_refl]).
  exists exX2, exY2. eexists. eexists.
  split; [apply tb_okb_ok; [exact T2|vm_compute; reflexivity]|]. split; [apply tb_okb_ok; [exact T2|vm_compute; reflexivity]|]. split; [reflexivity|].
  split; [vm_compute; lia|]. split; [reflexivity|]. split; [reflexivity|]. split; [reflexivity|].
  eexists. eexists. split; [reflexivity|]. split; [reflexivity|]. split; [vm_compute; reflexivity|].
  exists [2;3]. split; [|vm_compute; discriminate]. apply NumpyP.valid_intro; [reflexivity|].
  intros j. change (match [4;4] with s => j < length s -> nth j [2;3] 0 < nth j s 0 end). cbn [length]. intros Hj. do 2 (destruct j as [|j]; [cbn; lia|]). lia.
Qed.
Print Assumptions c64_cat_refuted.
