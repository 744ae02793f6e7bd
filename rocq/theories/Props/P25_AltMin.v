(** C62: alternating minimisation of the square loss over the cores of a tree-based tensor (TreeBasedTensorLearning). *)
From Coq Require Import List Arith Lia Bool Reals Lra.
From Verif.Base Require Import ListAux CRing Index RealAux LinAlg.
From Verif.Model Require Import Numpy FullTensor DimensionTree TreeBased TreeEval Truncator TreeGrad FuncGrad Learning AltMin.
From Verif.Spec Require Import TensorSpec TreeSpec TreeTensorSpec TruncatorSpec LearningSpec FunctionalSpec OrthNodeSpec GradSpec FuncGradSpec AltMinSpec.
From Verif.Proofs Require Import TreeTensorP15 TreeGradP11 LapackP FuncGradP3 AltMinP5.
From Verif.Props Require Import P06_TreeBased P23_TreeGrad P24_FuncGrad.
Import ListNotations.
Local Open Scope R_scope.

(** * C62 *)
(** every iteration visits every active node exactly once, the nodes closer to the root first *)
Theorem c62_strategy : forall (X : tbt R) r, tb_ok X r ->
  NoDup (am_strategy X) /\ (forall n, In n (am_strategy X) <-> node (ttree X) n /\ active X n = true) /\
  (forall i j a b, (i < j)%nat -> (j < length (am_strategy X))%nat ->
     depth (ttree X) r (nth i (am_strategy X) 0%nat) a -> depth (ttree X) r (nth j (am_strategy X) 0%nat) b -> (a <= b)%nat).
Proof. exact strategy_spec. Qed.
Print Assumptions c62_strategy.
(** the update of the core of the active node mu: it never raises, keeps the tree, the shape, the active nodes and does not increase the ranks,
    does not increase the empirical risk, and leaves a tensor whose core at mu is optimal, the others being fixed;
    unless the solution of the least-squares problem is zero: then the function is unchanged, and no change of that core does better
    than the zero function. *)
Theorem c62_step_partial : forall svd qr mrank pinv inv, svd_contract svd -> qr_contract qr -> rank_contract mrank -> pinv_contract pinv -> inv_contract inv -> inv_complete inv ->
  forall L s, lapack_ok L -> lstsq_zero L -> forall r q Bs y, (0 < q)%nat -> forall (X : tbt R) fl mu, learning_ready X r Bs y q fl -> node (ttree X) mu -> active X mu = true ->
  exists zero Y fl', am_step svd qr mrank pinv inv L s Bs y (X, fl) mu = Some (zero, (Y, fl')) /\
    same_format X Y r /\ learning_ready Y r Bs y q fl' /\ risk Y r Bs y q <= risk X r Bs y q /\
    (zero = false -> core_min Y r Bs y q mu) /\ (zero = true -> same_function X Y r /\ zero_min Y r Bs y q mu).
Proof. exact step_all. Qed.
Print Assumptions c62_step_partial.
(** one pass over the active nodes of a list l: hs are the tensors after each of the updates.  Fewer updates than nodes only when the last
    one met a zero solution. *)
Theorem c62_sweep_partial : forall svd qr mrank pinv inv, svd_contract svd -> qr_contract qr -> rank_contract mrank -> pinv_contract pinv -> inv_contract inv -> inv_complete inv ->
  forall L s, lapack_ok L -> lstsq_zero L -> forall r q Bs y, (0 < q)%nat ->
  forall l (X : tbt R) fl, learning_ready X r Bs y q fl -> (forall n, In n l -> node (ttree X) n /\ active X n = true) ->
  exists Y fl' hs, am_sweep svd qr mrank pinv inv L s Bs y (X, fl) l = Some (Y, fl') /\ learning_ready Y r Bs y q fl' /\ Y = last hs X /\ (length hs <= length l)%nat /\
    Forall (fun h => same_format X h r) hs /\
    (forall j, (j < length hs)%nat -> risk (nth j hs X) r Bs y q <= risk (nth j (X :: hs) X) r Bs y q) /\
    (forall j, (j < length hs)%nat -> core_min (nth j hs X) r Bs y q (nth j l 0%nat) \/
       S j = length hs /\ same_function (nth j (X :: hs) X) (nth j hs X) r /\ zero_min (nth j hs X) r Bs y q (nth j l 0%nat)) /\
    ((length hs < length l)%nat -> exists j, S j = length hs /\ zero_min (nth j hs X) r Bs y q (nth j l 0%nat)).
Proof. exact sweep_all. Qed.
Print Assumptions c62_sweep_partial.
(** the whole algorithm, for every stopping rule: it returns the last iterate; every iterate has the format of the initial tensor
    (ranks not increased) and its empirical risk does not exceed that of the previous one; the number of iterations is at most
    max_iterations, and smaller only when the stopping rule said so at the last iterate, which it did at no earlier one. *)
Theorem c62_solve_partial : forall svd qr mrank pinv inv, svd_contract svd -> qr_contract qr -> rank_contract mrank -> pinv_contract pinv -> inv_contract inv -> inv_complete inv ->
  forall L s, lapack_ok L -> lstsq_zero L -> forall r q Bs y, (0 < q)%nat ->
  forall (stop : nat -> tbt R -> tbt R -> bool) max_iterations (X : tbt R) fl, learning_ready X r Bs y q fl ->
  exists f its, am_solve svd qr mrank pinv inv L s Bs y stop max_iterations (X, fl) = Some (f, its) /\ f = last its X /\
    (length its <= max_iterations)%nat /\ (its = [] -> max_iterations = 0%nat) /\
    (forall j, (j < length its)%nat -> same_format X (nth j its X) r /\ risk (nth j its X) r Bs y q <= risk (nth j (X :: its) X) r Bs y q) /\
    (forall j, (S j < length its)%nat -> stop j (nth j its X) (nth j (X :: its) X) = false) /\
    (forall j, S j = length its -> (S j < max_iterations)%nat -> stop j (nth j its X) (nth j (X :: its) X) = true).
Proof. exact solve_all. Qed.
Print Assumptions c62_solve_partial.
(** the contracts on np.linalg for the least-squares problems can be met together (for the others: c59_contracts, c28, c26) *)
Theorem c62_contracts : exists L, lapack_ok L /\ lstsq_zero L.
Proof. exact lapack_zero_exists. Qed.
Print Assumptions c62_contracts.
(** the hypotheses are met: a function of 4 variables in a balanced tree, 7 active nodes, 3 sample points *)
Definition exr (s : list nat) (k : nat) : nd R := ND s (fun is => IZR (get (ex_core s k) is)).
Definition exA : tbt R := TB (ttree exD) (map (fun C => ND (shape C) (fun is => IZR (get C is))) (cores exD)).
Definition exAB : list (nd R) := [exr [3;2] 2; exr [3;2] 5; exr [3;2] 1; exr [3;2] 7]%nat.
Example c62_ex : learning_ready exA 1 exAB (exr [3]%nat 2) 3 false /\ node (ttree exA) 2 /\ active exA 2 = true /\ is_leaf (ttree exA) 2 = false.
Proof.
  split; [|split; [cbv; lia|split; reflexivity]]. split; [apply tb_okb_ok; [exact ex_tree|vm_compute; reflexivity]|]. split; [cbn; lia|].
  split; [apply fewb_ok; reflexivity|].
  split; [exact (sibb_ok (ttree exD) eq_refl)|]. split.
  - split; [reflexivity|]. change (tb_order exA) with 4%nat. intros mu Hmu. do 4 (destruct mu as [|mu]; [reflexivity|]). lia.
  - split; [left; reflexivity|]. split; [|discriminate]. vm_compute. discriminate.
Qed.
(** a tensor train of order 4 (the leaves other than the first are inactive), 4 sample points *)
Definition exAT : tbt R := TB (ttree exTT) (map (fun C => ND (shape C) (fun is => IZR (get C is))) (cores exTT)).
Definition exATB : list (nd R) := [exr [4;3] 2; exr [4;2] 5; exr [4;2] 1; exr [4;3] 7]%nat.
Example c62_ex_tt : learning_ready exAT 1 exATB (exr [4]%nat 2) 4 false /\ node (ttree exAT) 2 /\ active exAT 2 = true /\ edge (ttree exAT) 2 5 /\ active exAT 5 = false.
Proof.
  split; [|split; [cbv; lia|split; [reflexivity|split; [split; [|split; [|reflexivity]]; cbv; lia|reflexivity]]]]. split; [apply tb_okb_ok; [exact (proj1 exTT_ok)|vm_compute; reflexivity]|]. split; [cbn; lia|].
  split; [apply fewb_ok; reflexivity|].
  split; [exact exTT_siblings|]. split.
  - split; [reflexivity|]. change (tb_order exAT) with 4%nat. intros mu Hmu. do 4 (destruct mu as [|mu]; [reflexivity|]). lia.
  - split; [left; reflexivity|]. split; [|discriminate]. vm_compute. discriminate.
Qed.
