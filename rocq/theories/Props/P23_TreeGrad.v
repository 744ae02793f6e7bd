(** C60: diagonals and gradients of tree-based tensors (eval_diag_below, eval_diag_above, parameter_gradient_eval_diag). *)
From Coq Require Import List Arith Lia Bool ZArith Permutation.
From Verif.Base Require Import ListAux CRing Index.
From Verif.Model Require Import Numpy FullTensor DimensionTree TreeBased TreeGrad.
From Verif.Spec Require Import TensorSpec TreeSpec TreeTensorSpec GradSpec.
From Verif.Proofs Require Import TreeTensorP TreeTensorP15 DimTreeP2 TreeGradP7 TreeGradP10 TreeGradP11.
From Verif.Props Require Import P06_TreeBased.
Import ListNotations.
Local Open Scope cr_scope.

(** * C60 *)
(** eval_diag_below: for every active node n that is not excluded (and, if n is the root, whose children are all active or all
    inactive), the entry of n holds the diagonal of the sub-tree of n: entry (i, e) is the value of the sub-tree at (i, ..., i). *)
Theorem c60_eval_diag_below_partial : forall (R : Type) (CR : CRing R) (X : tbt R) r q, tb_ok X r -> (0 < q)%nat -> forall alpha except,
  (forall a, alpha = Some a -> node (ttree X) a) -> (forall n, In n except -> node (ttree X) n) ->
  (forall p c, edge (ttree X) p c -> In c except -> In p except) -> is_leaf (ttree X) r = false ->
  (forall n mu, node (ttree X) n -> active X n = true -> ~ excluded X r alpha except n -> In mu (dims (ttree X) n) -> nth mu (tb_shape X) 0%nat = q) ->
  exists db, tb_diag_below X alpha except = Some db /\ length db = nbn (ttree X) /\
    forall n, node (ttree X) n -> active X n = true -> ~ excluded X r alpha except n ->
      n <> r \/ (forall c, edge (ttree X) n c -> active X c = true) \/ (forall c, edge (ttree X) n c -> active X c = false) ->
      exists A, nth (n - 1) db None = Some A /\ shape A = q :: exts X n /\
        forall i e, (i < q)%nat -> valid (exts X n) e -> get A (i :: e) = tval X n (repeat i (tb_order X)) e.
Proof. intros R CR X r q O Hq. exact (diag_below_public X r q O Hq). Qed.
Print Assumptions c60_eval_diag_below_partial.
(** eval_diag_above: for every active node n other than the root, the entry of n is the linear form, one per i, that maps the value
    of the sub-tree of n to the entry of the tensor; it is the same for all the tensors Y that differ from X in the sub-tree of n
    only, and for every index that equals i outside the dimensions of n. *)
Theorem c60_eval_diag_above : forall (R : Type) (CR : CRing R) (X : tbt R) r q, tb_ok X r -> (0 < q)%nat -> is_leaf (ttree X) r = false ->
  (forall mu, (mu < tb_order X)%nat -> nth mu (tb_shape X) 0%nat = q) ->
  (forall p c, edge (ttree X) p c -> exists c', edge (ttree X) p c' /\ c' <> c) ->
  exists db da, tb_diag_below X None [] = Some db /\ tb_diag_above X db None = Some da /\
    forall n, node (ttree X) n -> n <> r -> active X n = true ->
      exists A, nth (n - 1) da None = Some A /\ shape A = q :: exts X n ++ exts X r /\
        forall Y i is e, differs_below X Y r n -> (i < q)%nat ->
          (forall mu, (mu < tb_order X)%nat -> ~ In mu (dims (ttree X) n) -> nth mu is 0%nat = i) -> valid (exts X r) e ->
          tval Y r is e = bsum (exts X n) (fun k => tval Y n is k * get A (i :: k ++ e)).
Proof. intros R CR X r q O Hq. exact (diag_above_public X r q O Hq). Qed.
Print Assumptions c60_eval_diag_above.
(** parameter_gradient_eval_diag(a, matrices) at an internal node a other than the root: the tensor G returned is the gradient with
    respect to the core of a of the diagonal evaluated with the matrices: for every tensor Y with the same cores except that of a,
    the evaluation at i is the sum over the entries of the core of a of the entry of G and the entry of the core.  In G the
    indices of the active children come before those of the inactive children. *)
Theorem c60_gradient_internal : forall (R : Type) (CR : CRing R) (X : tbt R) r q a Ms, tb_ok X r -> (0 < q)%nat -> is_leaf (ttree X) r = false ->
  node (ttree X) a -> a <> r -> is_leaf (ttree X) a = false ->
  (forall mu, (mu < tb_order X)%nat -> ~ In mu (own_dims X a) -> nth mu (tb_shape X) 0%nat = q) -> siblings_above (ttree X) a ->
  (forall d, In d (own_dims X a) -> shape (nth d Ms (scalar r0)) = [q; nth d (tb_shape X) 0%nat]) ->
  exists G, tb_param_grad X a (Some Ms) = Some G /\
    shape G = q :: sel 0%nat (heads X a) (kid_axes X a true) ++ sel 0%nat (heads X a) (kid_axes X a false) ++ exts X a ++ exts X r /\
    forall Y i e, differs_at X Y r a -> (i < q)%nat -> valid (exts X r) e ->
      diag_with Y r a (fun d => nth d Ms (scalar r0)) i e = bsum (heads X a) (fun ks => bsum (exts X a) (fun k =>
        get G (i :: sel 0%nat ks (kid_axes X a true) ++ sel 0%nat ks (kid_axes X a false) ++ k ++ e) * get (core Y a) (ks ++ k))).
Proof.
  intros R CR X r q a Ms O Hq Hlr Ha NE Hl Hsz Hsib HM.
  exact (grad_internal X r q a O Hq Hlr Ha (TreeTensorP.ok_internal X r O a Ha Hl) Hsz Hsib Ms HM (fun E => False_ind _ (NE E)) Hl NE).
Qed.
Print Assumptions c60_gradient_internal.
(** at an active leaf *)
Theorem c60_gradient_leaf : forall (R : Type) (CR : CRing R) (X : tbt R) r q a Ms, tb_ok X r -> (0 < q)%nat -> is_leaf (ttree X) r = false ->
  node (ttree X) a -> active X a = true -> is_leaf (ttree X) a = true ->
  (forall mu, (mu < tb_order X)%nat -> ~ In mu (own_dims X a) -> nth mu (tb_shape X) 0%nat = q) -> siblings_above (ttree X) a ->
  (forall d, In d (own_dims X a) -> shape (nth d Ms (scalar r0)) = [q; nth d (tb_shape X) 0%nat]) ->
  exists G, tb_param_grad X a (Some Ms) = Some G /\ shape G = q :: heads X a ++ exts X a ++ exts X r /\
    forall Y i e, differs_at X Y r a -> (i < q)%nat -> valid (exts X r) e ->
      diag_with Y r a (fun d => nth d Ms (scalar r0)) i e =
      bsum (heads X a) (fun ks => bsum (exts X a) (fun k => get G (i :: ks ++ k ++ e) * get (core Y a) (ks ++ k))).
Proof.
  intros R CR X r q a Ms O Hq Hlr Ha Hac Hl Hsz Hsib HM. assert (NE : a <> r) by congruence.
  exact (grad_leaf X r q a O Hq Hlr Ha Hac Hsz Hsib Ms HM (fun E => False_ind _ (NE E)) Hl).
Qed.
Print Assumptions c60_gradient_leaf.
(** at the root, if it has an active child or all the sizes are q (see c60_gradient_root_refuted) *)
Theorem c60_gradient_root_partial : forall (R : Type) (CR : CRing R) (X : tbt R) r q Ms, tb_ok X r -> (0 < q)%nat -> is_leaf (ttree X) r = false ->
  (exists c, edge (ttree X) r c /\ active X c = true) \/ (forall mu, (mu < tb_order X)%nat -> nth mu (tb_shape X) 0%nat = q) ->
  (forall mu, (mu < tb_order X)%nat -> ~ In mu (own_dims X r) -> nth mu (tb_shape X) 0%nat = q) ->
  (forall d, In d (own_dims X r) -> shape (nth d Ms (scalar r0)) = [q; nth d (tb_shape X) 0%nat]) ->
  exists G, tb_param_grad X r (Some Ms) = Some G /\
    shape G = q :: sel 0%nat (heads X r) (kid_axes X r true) ++ sel 0%nat (heads X r) (kid_axes X r false) /\
    forall Y i e, differs_at X Y r r -> (i < q)%nat -> valid (exts X r) e ->
      diag_with Y r r (fun d => nth d Ms (scalar r0)) i e = bsum (heads X r) (fun ks =>
        get G (i :: sel 0%nat ks (kid_axes X r true) ++ sel 0%nat ks (kid_axes X r false)) * get (core Y r) (ks ++ e)).
Proof. exact (@root_public). Qed.
Print Assumptions c60_gradient_root_partial.
(** without matrices at an internal node: the identity is used for each inactive child, which adds an axis: entry (i, .., j, k, ..) *)
Theorem c60_gradient_identity : forall (R : Type) (CR : CRing R) (X : tbt R) r q a, tb_ok X r -> (0 < q)%nat -> is_leaf (ttree X) r = false ->
  node (ttree X) a -> a <> r -> is_leaf (ttree X) a = false ->
  (forall mu, (mu < tb_order X)%nat -> ~ In mu (own_dims X a) -> nth mu (tb_shape X) 0%nat = q) -> siblings_above (ttree X) a ->
  exists G, tb_param_grad X a None = Some G /\
    shape G = q :: sel 0%nat (heads X a) (kid_axes X a true) ++ dup (sel 0%nat (heads X a) (kid_axes X a false)) ++ exts X a ++ exts X r /\
    forall Y i js e, differs_at X Y r a -> (i < q)%nat -> length js = length (own_dims X a) -> valid (exts X r) e ->
      tval Y r (put (own_dims X a) js (repeat i (tb_order X))) e = bsum (heads X a) (fun ks => bsum (exts X a) (fun k =>
        get G (i :: sel 0%nat ks (kid_axes X a true) ++ interleave js (sel 0%nat ks (kid_axes X a false)) ++ k ++ e) * get (core Y a) (ks ++ k))).
Proof.
  intros R CR X r q a O Hq Hlr Ha NE Hl Hsz Hsib.
  exact (gradN_internal X r q a O Hq Hlr Ha Hl Hsz Hsib (fun E => False_ind _ (NE E)) NE).
Qed.
Print Assumptions c60_gradient_identity.
Theorem c60_gradient_identity_root_partial : forall (R : Type) (CR : CRing R) (X : tbt R) r q, tb_ok X r -> (0 < q)%nat -> is_leaf (ttree X) r = false ->
  (exists c, edge (ttree X) r c /\ active X c = true) \/ (forall mu, (mu < tb_order X)%nat -> nth mu (tb_shape X) 0%nat = q) ->
  (forall mu, (mu < tb_order X)%nat -> ~ In mu (own_dims X r) -> nth mu (tb_shape X) 0%nat = q) ->
  exists G, tb_param_grad X r None = Some G /\
    shape G = q :: sel 0%nat (heads X r) (kid_axes X r true) ++ dup (sel 0%nat (heads X r) (kid_axes X r false)) /\
    forall Y i js e, differs_at X Y r r -> (i < q)%nat -> length js = length (own_dims X r) -> valid (exts X r) e ->
      tval Y r (put (own_dims X r) js (repeat i (tb_order X))) e = bsum (heads X r) (fun ks =>
        get G (i :: sel 0%nat ks (kid_axes X r true) ++ interleave js (sel 0%nat ks (kid_axes X r false))) * get (core Y r) (ks ++ e)).
Proof. exact (@rootN_public). Qed.
Print Assumptions c60_gradient_identity_root_partial.

(** the hypotheses are met: node 2 has an active child and an inactive one (dimension 1, of size 3); the other sizes are 2 *)
Definition exG : tbt Z := TB (dt_balanced 4 [0;1;2;3]%nat)
  [ex_core [2;2] 3; ex_core [2;3;2] 5; ex_core [1;2;2] 2; ex_core [2;2] 3; no_core; ex_core [2;1] 4; ex_core [2;2] 1]%nat.
Definition exGM : list (nd Z) := [no_core; ex_core [2;3] 2; no_core; no_core]%nat.
Lemma exG_ok : tb_ok exG 1.
Proof. apply tb_okb_ok; [exact ex_tree|vm_compute; reflexivity]. Qed.
Example c60_ex : tb_ok exG 1 /\ is_leaf (ttree exG) 1 = false /\ node (ttree exG) 2 /\ is_leaf (ttree exG) 2 = false /\ own_dims exG 2 = [1%nat] /\
  kid_axes exG 2 true = [0%nat] /\ kid_axes exG 2 false = [1%nat] /\ tb_shape exG = [2; 3; 2; 2]%nat /\ siblings_above (ttree exG) 2 /\
  (forall d, In d (own_dims exG 2) -> shape (nth d exGM (scalar r0)) = [2%nat; nth d (tb_shape exG) 0%nat]).
Proof.
  split; [exact exG_ok|]. split; [reflexivity|]. split; [cbv; lia|]. split; [reflexivity|]. split; [reflexivity|]. split; [reflexivity|]. split; [reflexivity|]. split; [reflexivity|].
  split; [intros p c He _; exact (sibb_ok (ttree exG) eq_refl p c He)|]. change (own_dims exG 2) with [1%nat]. intros d [<-|[]]. reflexivity.
Qed.
(** all the sizes are 2 and all the nodes active *)
Definition exD : tbt Z := TB (dt_balanced 4 [0;1;2;3]%nat)
  [ex_core [2;2] 3; ex_core [2;3;2] 5; ex_core [1;2;2] 2; ex_core [2;2] 3; ex_core [2;3] 1; ex_core [2;1] 4; ex_core [2;2] 1]%nat.
Lemma exD_ok : tb_ok exD 1.
Proof. apply tb_okb_ok; [exact ex_tree|vm_compute; reflexivity]. Qed.
Example c60_ex_all : tb_ok exD 1 /\ is_leaf (ttree exD) 1 = false /\ tb_shape exD = [2; 2; 2; 2]%nat /\
  (forall p c, edge (ttree exD) p c -> exists c', edge (ttree exD) p c' /\ c' <> c).
Proof. split; [exact exD_ok|]. split; [reflexivity|]. split; [reflexivity|]. exact (sibb_ok (ttree exD) eq_refl). Qed.

(** eval_diag_below at a root with an active and an inactive child: the entry of the root is not the diagonal (it has one more axis) *)
Definition exB : tbt Z := TB (dt_trivial 2) [ex_core [2;2] 1; ex_core [2;2] 3; no_core]%nat.
Theorem c60_eval_diag_below_root_refuted : exists (X : tbt Z) r q db A, tb_ok X r /\ (forall mu, (mu < tb_order X)%nat -> nth mu (tb_shape X) 0%nat = q) /\
  tb_diag_below X None [] = Some db /\ nth (r - 1) db None = Some A /\ exts X r = [] /\ shape A <> [q].
Proof.
  exists exB, 1%nat, 2%nat. do 2 eexists. split; [apply tb_okb_ok; [apply (dt_trivial_ok 2); lia|vm_compute; reflexivity]|].
  split; [intros mu Hmu; change (mu < 2)%nat in Hmu; destruct mu as [|[|mu]]; [reflexivity|reflexivity|lia]|]. split; [vm_compute; reflexivity|]. split; [vm_compute; reflexivity|]. split; [reflexivity|]. vm_compute. discriminate.
Qed.
Print Assumptions c60_eval_diag_below_root_refuted.
(** parameter_gradient_eval_diag(a) without matrices raises an error at a leaf *)
Theorem c60_gradient_identity_leaf_refuted : exists (X : tbt Z) r a, tb_ok X r /\ node (ttree X) a /\ active X a = true /\ is_leaf (ttree X) a = true /\
  (forall mu, (mu < tb_order X)%nat -> nth mu (tb_shape X) 0%nat = 2%nat) /\ siblings_above (ttree X) a /\ tb_param_grad X a None = None.
Proof.
  exists exD, 1%nat, 4%nat. split; [exact exD_ok|]. split; [cbv; lia|]. split; [reflexivity|]. split; [reflexivity|].
  split; [intros mu Hmu; change (mu < 4)%nat in Hmu; destruct mu as [|[|[|[|mu]]]]; try reflexivity; lia|].
  split; [intros p c He _; exact (sibb_ok (ttree exD) eq_refl p c He)|]. vm_compute. reflexivity.
Qed.
Print Assumptions c60_gradient_identity_leaf_refuted.
(** at a root whose children are all inactive, the gradient with matrices of q rows raises an error if the sizes are not q *)
Definition exR : tbt Z := TB (dt_trivial 2) [ex_core [2;3] 1; no_core; no_core]%nat.
Definition exR2 : tbt Z := TB (dt_trivial 2) [ex_core [2;2] 1; no_core; no_core]%nat.
Theorem c60_gradient_root_refuted : exists (X : tbt Z) r q Ms, tb_ok X r /\ is_leaf (ttree X) r = false /\ own_dims X r = seq 0 (tb_order X) /\
  (forall d, In d (own_dims X r) -> shape (nth d Ms (scalar r0)) = [q; nth d (tb_shape X) 0%nat]) /\ tb_param_grad X r (Some Ms) = None.
Proof.
  exists exR, 1%nat, 4%nat, [ex_core [4;2] 1; ex_core [4;3] 1]%nat. split; [apply tb_okb_ok; [apply (dt_trivial_ok 2); lia|vm_compute; reflexivity]|].
  split; [reflexivity|]. split; [reflexivity|]. split; [change (own_dims exR 1) with [0; 1]%nat; intros d [<-|[<-|[]]]; reflexivity|]. vm_compute. reflexivity.
Qed.
Print Assumptions c60_gradient_root_refuted.
(** the hypothesis on the siblings is needed: eval_diag_above raises an error if a node is an only child *)
Definition exU : tbt Z := TB chain_tree [ex_core [2] 1; ex_core [2;2;2] 1; ex_core [2;2] 1; ex_core [2;2] 3]%nat.
Theorem c60_only_child_refuted : exists (X : tbt Z) r db, tb_ok X r /\ is_leaf (ttree X) r = false /\
  (forall mu, (mu < tb_order X)%nat -> nth mu (tb_shape X) 0%nat = 2%nat) /\ tb_diag_below X None [] = Some db /\ tb_diag_above X db None = None.
Proof.
  exists exU, 1%nat. eexists. split; [apply tb_okb_ok; [exact chain_V|vm_compute; reflexivity]|]. split; [reflexivity|].
  split; [intros mu Hmu; change (mu < 2)%nat in Hmu; destruct mu as [|[|mu]]; [reflexivity|reflexivity|lia]|]. split; [vm_compute; reflexivity|]. vm_compute. reflexivity.
Qed.
Print Assumptions c60_only_child_refuted.
