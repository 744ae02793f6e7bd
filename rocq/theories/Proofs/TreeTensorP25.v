(** squeeze and tensor_vector_product of a tree-based tensor. *)
From Coq Require Import List Arith Lia Bool Sorted Ring Permutation.
From Verif.Base Require Import ListAux CRing Index.
From Verif.Model Require Import Utils Numpy FullTensor DimensionTree TreeBased TreeEval TreeReduce.
From Verif.Spec Require Import TensorSpec TreeSpec TreeTensorSpec.
From Verif.Proofs Require Import NumpyP FullTensorP FullTensorP3 FullTensorP4 FunctionsP DimTreeP TreeTensorP TreeTensorP2 TreeTensorP3 TreeTensorP4 TreeTensorP5 TreeTensorP18 TreeTensorP19 TreeTensorP20 TreeTensorP22 TreeTensorP24.
Import ListNotations.

Section Squeeze2.
  Context {R : Type} {CR : CRing R}.
  Add Ring Rrt25 : rth.
  Local Open Scope cr_scope.

  Lemma dims_nonempty t r n : dim_tree t r -> node t n -> dims t n <> [].
  Proof.
    intros V. pose proof (proj1 V) as T. revert n. apply (tree_up_ind t r T (fun n => dims t n <> [])). intros n Hn IH. destruct (is_leaf t n) eqn:El; [rewrite (dims_leaf t r V n El); discriminate|].
    rewrite (dims_internal t r V n Hn El). destruct (children t n) as [|c l] eqn:Ec.
    - assert (is_leaf t n = true); [|congruence]. apply (leaf_iff t r V). split; auto. intros c Hc. apply in_children in Hc; auto. rewrite Ec in Hc. destruct Hc.
    - cbn [flat_map]. intros Q. apply app_eq_nil in Q. destruct Q as [Q _]. revert Q. apply IH. apply in_children; auto. rewrite Ec. simpl; auto.
  Qed.
  Lemma order1_root_leaf (Z : tbt R) r : tb_ok Z r -> tb_order Z = 1%nat -> (forall n, node (ttree Z) n -> length (children (ttree Z) n) <> 1%nat) -> is_leaf (ttree Z) r = true.
  Proof.
    intros O H1 Hu. pose proof (proj1 O) as V. pose proof (proj1 V) as T. assert (Hr : node (ttree Z) r) by apply T. destruct (is_leaf (ttree Z) r) eqn:El; auto. exfalso.
    pose proof (dims_root (ttree Z) r V) as Hp. apply Permutation_length in Hp. rewrite seq_length in Hp. unfold tb_order in H1. rewrite H1 in Hp.
    rewrite (dims_internal _ r V r Hr El) in Hp. specialize (Hu r Hr). pose proof (fun c => in_children (ttree Z) r c Hr) as Hc. destruct (children (ttree Z) r) as [|a [|b l]] eqn:Ec.
    - assert (is_leaf (ttree Z) r = true); [|congruence]. apply (leaf_iff _ r V). split; [exact Hr|]. intros c Hc'. apply Hc in Hc'. destruct Hc'.
    - apply Hu. reflexivity.
    - assert (Na : dims (ttree Z) a <> []) by (apply (dims_nonempty _ r); auto; apply (Hc a); simpl; auto).
      assert (Nb : dims (ttree Z) b <> []) by (apply (dims_nonempty _ r); auto; apply (Hc b); simpl; auto).
      cbn [flat_map] in Hp. rewrite !app_length in Hp. destruct (dims (ttree Z) a); [congruence|]. destruct (dims (ttree Z) b); [congruence|]. cbn in Hp. lia.
  Qed.
  Lemma full_any (Z : tbt R) r : tb_ok Z r -> (1 <= tb_order Z)%nat -> (forall n, node (ttree Z) n -> length (children (ttree Z) n) <> 1%nat) ->
    (exts Z r = [] \/ (2 <= tb_order Z)%nat) -> exists F, tb_full Z = Some F /\ shape F = tb_shape Z ++ exts Z r /\
      forall is e, valid (tb_shape Z) is -> valid (exts Z r) e -> get F (is ++ e) = tval Z r is e.
  Proof.
    intros O H1 Hu He. destruct (Nat.eq_dec (tb_order Z) 1) as [E|E].
    - pose proof (order1_root_leaf Z r O E Hu) as El. pose proof (proj1 O) as V. pose proof (proj1 V) as T. assert (Hr : node (ttree Z) r) by apply T. pose proof (ok_root Z r O) as Ha.
      destruct He as [He|He]; [|lia]. pose proof (ok_shape Z r Hr Ha) as Sr. rewrite (heads_leaf Z r O r El Ha) in Sr. rewrite He, app_nil_r in Sr.
      unfold tb_full. rewrite E. cbn [Nat.eqb]. rewrite (root_eq _ r T). exists (core Z r). unfold ndim. rewrite Sr. cbn [length Nat.eqb andb]. split; auto.
      assert (D1 : d2i (ttree Z) = [r]).
      { destruct (leaf_index _ r El) as [Q1 Q2]. unfold tb_order in E. destruct (d2i (ttree Z)) as [|a [|b l]]; try discriminate. cbn [length] in Q1. destruct (index_of r [a]) as [|k] eqn:Ei; [|lia]. cbn in Q2. subst a. auto. }
      rewrite He, app_nil_r. split; [unfold tb_shape; rewrite D1; cbn [map]; unfold tb_size; rewrite Ha, Sr; auto|].
      intros is e Hi Hee. inversion Hee; subst. rewrite (tval_leaf Z r V r is [] El Ha). rewrite D1. cbn [index_of]. rewrite Nat.eqb_refl. rewrite app_nil_r.
      unfold tb_shape in Hi. rewrite D1 in Hi. cbn [map] in Hi. inversion Hi as [|? i ? l' ? Hl]; subst. inversion Hl; subst. auto.
    - assert (H2 : (2 <= tb_order Z)%nat) by lia. destruct (tb_full_ok Z r O H2) as (F & EF & _). exists F. split; auto. apply (full_inv Z r F O H2 EF).
  Qed.
  Lemma compl_more n m ds : Forall (fun k => (k < n)%nat) ds -> compl (n + m) ds = compl n ds ++ seq n m.
  Proof.
    intros HF. unfold compl. rewrite seq_app, filter_app. f_equal. apply filter_true. intros x Hx. apply in_seq in Hx. apply negb_true_iff, inb_false. intros Q. rewrite Forall_forall in HF. specialize (HF x Q). lia.
  Qed.
  Lemma arity_pos t n c : node t n -> In c (children t n) -> arity t <> 0%nat.
  Proof.
    intros Hn Hc. unfold arity. intros Q. assert (Hle : (length (children t n) <= 0)%nat).
    { rewrite <- Q. pose proof (proj1 (list_max_le (map (fun i => length (children t i)) (nodes t)) _) (le_n _)) as F. rewrite Forall_forall in F. apply F. apply (in_map (fun i => length (children t i))). apply in_nodes; auto. }
    destruct (children t n); [destruct Hc|cbn in Hle; lia].
  Qed.

  Variables (X : tbt R) (r : nat) (A : nd R).
  Hypothesis O : tb_ok X r.
  Hypothesis H2 : (2 <= tb_order X)%nat.
  Hypothesis HA : tb_full X = Some A.

  (** some dimensions remain *)
  Lemma squeeze_some ds : NoDup ds -> Forall (fun k => (k < tb_order X)%nat) ds -> (forall k, In k ds -> nth k (shape A) 0%nat = 1%nat) -> compl (tb_order X) ds <> [] ->
    exists Z r', tb_squeeze X (Some ds) = Some (inr Z) /\ tb_ok Z r' /\ tb_shape Z = sel 0%nat (tb_shape X) (compl (tb_order X) ds) /\ exts Z r' = exts X r /\
      (forall n, node (ttree Z) n -> length (children (ttree Z) n) <> 1%nat) /\
      (forall js e, valid (tb_shape X) js -> valid (exts X r) e -> tval Z r' (sel 0%nat js (compl (tb_order X) ds)) e = get A (js ++ e)).
  Proof.
    intros HN HF H1 Hrem. destruct (full_inv X r A O H2 HA) as [SA GA].
    assert (LS : length (tb_shape X) = tb_order X) by apply tb_shape_length.
    assert (H1' : forall k, In k ds -> nth k (tb_shape X) 0%nat = 1%nat).
    { intros k Hk. rewrite <- (H1 k Hk), SA, app_nth1; auto. rewrite LS. rewrite Forall_forall in HF. auto. }
    destruct (sq_run X r ds O HF H1') as ([ts ind] & ER & Inv). 
    destruct (sq_restrict X r ds O HN HF Hrem ts ind Inv) as (r1' & O1 & S1 & E1 & V1). cbv zeta in O1, S1, E1, V1.
    set (Z1 := TB _ _) in O1, S1, E1, V1.
    assert (Ar : arity (ttree Z1) <> 0%nat).
    { (* the root of X has a kept child *)
      destruct Inv as (_ & HI & _). cbn [snd] in HI. set (K := filter (fun n => negb (inb n ind)) (nodes (ttree X))) in *.
      assert (NK : NoDup K) by (apply NoDup_filter; apply NoDup_nodes).
      pose proof (proj1 O) as V. pose proof (proj1 V) as T. assert (Hr : node (ttree X) r) by apply T.
      pose proof (sqb_root X r ds O Hrem) as Rb. pose proof (root_not_leaf X r O H2) as Rl. pose proof (sqb_int X r ds O r Hr Rl) as Ri. rewrite Rb in Ri.
      assert (Q : exists c, In c (children (ttree X) r) /\ sqb X ds c = false).
      { clear - Ri. induction (children (ttree X) r) as [|c l IH]; cbn [forallb] in Ri; [discriminate|]. destruct (sqb X ds c) eqn:E; [|exists c; simpl; auto]. destruct IH as (x & Q1 & Q2); auto. exists x. simpl; auto. }
      destruct Q as (c & Q1 & Q2). assert (Hc : edge (ttree X) r c) by (apply in_children in Q1; auto).
      assert (Kin : forall n, node (ttree X) n -> sqb X ds n = false -> In n K).
      { intros n Hn Hs. unfold K. apply filter_In. split; [apply in_nodes; auto|]. apply negb_true_iff. destruct (inb n ind) eqn:E; auto. apply HI in E. destruct E as (_ & E & _). congruence. }
      apply (arity_pos _ (S (index_of r K)) (S (index_of c K))).
      - unfold Z1. cbn [ttree]. apply rs_pos_node. apply Kin; auto.
      - unfold Z1. cbn [ttree]. rewrite rs_children by (auto; apply Kin; auto). apply (in_map (fun n => S (index_of n K))). apply filter_In. split; [apply Kin; auto; apply Hc|apply Hc]. }
    destruct (ruc_ok Z1 r1' O1 Ar) as (Z & r' & EZ & OZ & SZ & XZ & VZ & UZ).
    exists Z, r'. split; [|split; [auto|split; [congruence|split; [congruence|split; [auto|]]]]].
    - unfold tb_squeeze. destruct (compl (tb_order X) ds) as [|m l] eqn:Ec; [congruence|]. rewrite ER. rewrite (tb_make_ok _ _ r1') by exact O1. cbn [bind]. unfold Z1 in EZ. rewrite EZ. reflexivity.
    - intros js e Hj He. assert (Hv : valid (sel 0%nat (tb_shape X) (compl (tb_order X) ds)) (sel 0%nat js (compl (tb_order X) ds))).
      { apply sel_valid; auto. apply Forall_forall. intros k Hk. apply in_compl in Hk. rewrite LS. apply Hk. }
      rewrite VZ by (first [rewrite S1; exact Hv | rewrite E1; exact He]). rewrite V1 by auto. rewrite GA by auto. f_equal. unfold sqemb.
      pose proof (valid_length _ _ Hj) as Lj. rewrite LS in Lj. transitivity (asm (tb_order X) ds (sel 0%nat js ds) (sel 0%nat js (compl (tb_order X) ds))); [|apply asm_sel; auto].
      f_equal. apply nth_ext' with (d := 0%nat); [rewrite sel_length, repeat_length; auto|]. intros k Hk. rewrite repeat_length in Hk. rewrite nth_rep by auto. rewrite sel_nth by auto.
      assert (Hk' : In (nth k ds 0%nat) ds) by (apply nth_In; auto). rewrite Forall_forall in HF. specialize (HF _ Hk'). pose proof (valid_nth _ _ (nth k ds 0%nat) Hj) as Hn. rewrite H1', LS in Hn by auto. specialize (Hn HF). lia.
  Qed.
  Theorem squeeze_full ds : NoDup ds -> Forall (fun k => (k < tb_order X)%nat) ds -> (forall k, In k ds -> nth k (shape A) 0%nat = 1%nat) -> (length ds < tb_order X)%nat ->
    (ndim A = tb_order X \/ (length ds + 2 <= tb_order X)%nat) ->
    exists Z r' F, tb_squeeze X (Some ds) = Some (inr Z) /\ tb_ok Z r' /\ tb_order Z = (tb_order X - length ds)%nat /\
      (forall n, node (ttree Z) n -> length (children (ttree Z) n) <> 1%nat) /\
      tb_full Z = Some F /\ shape F = sel 0%nat (shape A) (compl (ndim A) ds) /\
      forall js, valid (shape A) js -> get F (sel 0%nat js (compl (ndim A) ds)) = get A js.
  Proof.
    intros HN HF H1 Hlen Hc. destruct (full_inv X r A O H2 HA) as [SA GA].
    assert (LS : length (tb_shape X) = tb_order X) by apply tb_shape_length.
    assert (Lc : length (compl (tb_order X) ds) = (tb_order X - length ds)%nat).
    { pose proof (Permutation_length (app_compl_perm (tb_order X) ds HN HF)) as P. rewrite app_length, seq_length in P. lia. }
    assert (Hrem : compl (tb_order X) ds <> []) by (intros Q; rewrite Q in Lc; cbn in Lc; lia).
    destruct (squeeze_some ds HN HF H1 Hrem) as (Z & r' & EZ & OZ & SZ & XZ & UZ & VZ).
    assert (OrdZ : tb_order Z = (tb_order X - length ds)%nat) by (pose proof (tb_shape_length Z) as LZ; rewrite SZ, sel_length in LZ; unfold tb_order in *; lia).
    assert (NA : ndim A = (tb_order X + length (exts X r))%nat) by (unfold ndim; rewrite SA, app_length, LS; auto).
    destruct (full_any Z r' OZ) as (F & EF & SF & GF); auto; [lia| |].
    { rewrite XZ. destruct Hc as [Hc|Hc]; [left; destruct (exts X r); auto; cbn in NA; lia|right; lia]. }
    exists Z, r', F. split; auto. split; auto. split; auto. split; auto. split; auto. rewrite NA, compl_more by auto.
    assert (Esel : forall (l1 l2 : list nat), length l1 = tb_order X -> length l2 = length (exts X r) -> sel 0%nat (l1 ++ l2) (compl (tb_order X) ds ++ seq (tb_order X) (length (exts X r))) = sel 0%nat l1 (compl (tb_order X) ds) ++ l2).
    { intros l1 l2 L1 L2. unfold sel at 1. rewrite map_app. f_equal.
      - apply map_ext_in. intros k Hk. apply in_compl in Hk. rewrite app_nth1; auto. lia.
      - rewrite <- L2, <- L1. apply sel_tail. }
    split.
    - rewrite SF, SZ, XZ, SA, Esel; auto.
    - intros js Hj. rewrite SA in Hj. apply valid_app_inv in Hj. destruct Hj as (is & e & -> & Hi & He). rewrite Esel by (first [rewrite (valid_length _ _ Hi); auto | rewrite (valid_length _ _ He); auto]).
      rewrite GF; [apply VZ; auto| |rewrite XZ; auto]. rewrite SZ. apply sel_valid; auto. apply Forall_forall. intros k Hk. apply in_compl in Hk. rewrite LS. apply Hk.
  Qed.
  (** all the dimensions are removed: a scalar array *)
  Theorem squeeze_all ds : (forall k, (k < tb_order X)%nat -> In k ds) -> shape A = repeat 1%nat (tb_order X) ->
    exists B, tb_squeeze X (Some ds) = Some (inl B) /\ shape B = [] /\ get B [] = get A (repeat 0%nat (tb_order X)).
  Proof.
    intros Hall SA1. assert (Ec : compl (tb_order X) ds = []).
    { apply filter_none. intros x Hx. apply in_seq in Hx. rewrite (proj2 (inb_spec x ds)) by (apply Hall; lia). auto. }
    unfold tb_squeeze. rewrite Ec, HA. cbn [bind]. unfold ft_squeeze, np_squeeze_all. assert (NA : ndim A = tb_order X) by (unfold ndim; rewrite SA1, repeat_length; auto).
    assert (Ef : filter (fun k => nth k (shape A) 0%nat =? 1) (seq 0 (ndim A)) = seq 0 (tb_order X)).
    { rewrite NA. apply filter_true. intros k Hk. apply in_seq in Hk. rewrite SA1, nth_rep by lia. auto. }
    rewrite Ef. unfold np_squeeze. replace (forallb _ _ && nodupb _) with true.
    - cbn [bind]. eexists. split; [reflexivity|]. cbn [shape get]. rewrite NA, compl_seq. split; auto. rewrite seq_length, asm_all; auto. rewrite repeat_length; auto.
    - symmetry. apply andb_true_iff. split; [|apply nodupb_spec, seq_NoDup]. apply forallb_forall. intros k Hk. apply in_seq in Hk. apply andb_true_iff. split; [apply Nat.ltb_lt; lia|]. rewrite SA1, nth_rep by lia. auto.
  Qed.
  (** without argument: the dimensions of size one *)
  Lemma squeeze_none : tb_squeeze X None = tb_squeeze X (Some (filter (fun k => nth k (shape A) 0%nat =? 1) (seq 0 (tb_order X)))).
  Proof.
    destruct (full_inv X r A O H2 HA) as [SA _]. assert (E : filter (fun k => nth k (tb_shape X) 0%nat =? 1) (seq 0 (tb_order X)) = filter (fun k => nth k (shape A) 0%nat =? 1) (seq 0 (tb_order X))).
    { apply filter_ext_in. intros k Hk. apply in_seq in Hk. rewrite SA, app_nth1; auto. rewrite tb_shape_length. unfold tb_order in *. lia. }
    unfold tb_squeeze. rewrite E. reflexivity.
  Qed.
End Squeeze2.
