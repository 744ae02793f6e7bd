(** Dimension trees: summary of the attributes; counterexamples. *)
From Coq Require Import List Arith Lia Bool Permutation.
From Verif.Base Require Import ListAux CRing Index.
From Verif.Model Require Import Sorting Numpy DimensionTree.
From Verif.Spec Require Import TreeSpec.
From Verif.Proofs Require Import NumpyP DimTreeP DimTreeP2 DimTreeP3 DimTreeP4.
Import ListNotations.

Lemma attributes t r : dim_tree t r ->
  root_opt t = Some r /\ level t r = 0 /\ parent t r = 0 /\ child_number t r = 0 /\ sibling t r = [] /\
  (forall n, node t n -> depth t r n (level t n)) /\
  (forall n, node t n -> level t n <= max_level t) /\
  (forall n c, node t n -> (In c (children t n) <-> edge t n c)) /\
  (forall n, NoDup (children t n)) /\
  (forall n, is_leaf t n = true <-> node t n /\ children t n = []) /\
  (forall p c, edge t p c -> parent t c = p /\ level t c = S (level t p) /\
     1 <= child_number t c /\ nth (child_number t c - 1) (children t p) 0 = c /\ sibling t c = children t p).
Proof.
  intros V. pose proof (proj1 V) as T. split; [apply root_opt_eq; auto|]. split; [apply level_root; auto|].
  split; [apply parent_root; auto|]. split; [apply (child_number_root t r V)|].
  split; [unfold sibling; rewrite (parent_root t r T); auto|].
  split; [intros n Hn; apply level_depth; auto|]. split; [intros n Hn; eapply level_le_max; eauto|].
  split; [intros n c Hn; apply in_children; auto|]. split; [intros; apply NoDup_children|]. split.
  - intros n. split.
    + intros H. assert (Hn : node t n) by (apply (leaf_node t r V); auto). split; auto. apply (leaf_children t r V); auto.
    + intros [Hn H]. apply (leaf_children t r V); auto.
  - intros p c He. rewrite (parent_edge t r T p c He). split; auto. split; [apply (level_edge t r T); auto|].
    destruct (child_number_spec t r V c p He) as [H1 H2]. split; [lia|]. split; auto.
    unfold sibling. rewrite (parent_edge t r T p c He). destruct He as ((Hp & _) & _).
    destruct (Nat.eqb_spec p 0); auto; lia.
Qed.
Lemma dims_summary t r : dim_tree t r ->
  (forall mu, mu < length (d2i t) -> dims t (nth mu (d2i t) 0) = [mu]) /\
  (forall n, node t n -> is_leaf t n = false -> dims t n = concat (map (dims t) (children t n))) /\
  (forall n, node t n -> NoDup (dims t n) /\ dims t n <> []) /\
  (forall n mu, node t n -> (In mu (dims t n) <-> mu < length (d2i t) /\ below t n (nth mu (d2i t) 0))) /\
  Permutation (dims t r) (seq 0 (length (d2i t))) /\
  (forall n a b mu, edge t n a -> edge t n b -> In mu (dims t a) -> In mu (dims t b) -> a = b).
Proof.
  intros V. pose proof (proj1 V) as T. split; [|split; [|split; [|split; [|split]]]].
  - intros mu Hm. rewrite (dims_leaf t r V) by (apply d2i_leaf; auto).
    rewrite index_of_NoDup; auto. apply (NoDup_d2i t r V).
  - intros n Hn Hl. rewrite (dims_internal t r V) by auto. apply flat_map_concat_map.
  - intros n Hn. split; [apply (NoDup_dims t r V); auto|apply (dims_nonempty t r V); auto].
  - intros n mu Hn. apply (in_dims t r V); auto.
  - apply (dims_root t r V).
  - intros n a b mu Ha Hb Hma Hmb. apply (in_dims t r V) in Hma; [|apply Ha]. apply (in_dims t r V) in Hmb; [|apply Hb].
    eapply (siblings_disjoint t r T n); eauto; [apply Hma|apply Hmb].
Qed.
Lemma node_with_dims_ok t r ds : dim_tree t r -> forall n,
  In n (node_with_dims t ds) <-> node t n /\ Permutation ds (dims t n).
Proof. intros V n. unfold node_with_dims. rewrite filter_In, in_nodes, sort_eqb. tauto. Qed.
Lemma internal_leaves t r : dim_tree t r -> Permutation (internal_nodes t ++ d2i t) (nodes t).
Proof.
  intros V. apply NoDup_Permutation.
  - apply NoDup_app; [apply NoDup_filter', NoDup_nodes|apply (NoDup_d2i t r V)|].
    intros x Hx Hl. unfold internal_nodes in Hx. apply filter_In in Hx. destruct Hx as [_ Hx].
    apply inb_spec in Hl. unfold is_leaf in Hx. rewrite Hl in Hx. discriminate.
  - apply NoDup_nodes.
  - intros x. rewrite in_app_iff. unfold internal_nodes. rewrite filter_In. unfold is_leaf. split.
    + intros [[H _]|H]; auto. apply in_nodes, (leaf_node t r V). apply inb_spec; auto.
    + intros H. destruct (inb x (d2i t)) eqn:E; auto. right. apply inb_spec; auto.
Qed.

Lemma le6 n : 1 <= n <= 6 -> n = 1 \/ n = 2 \/ n = 3 \/ n = 4 \/ n = 5 \/ n = 6.
Proof. lia. Qed.
(** two trees over four dimensions: {0},{1},{2,3} and {0},{1,2,3} below the root *)
Definition dt_ex1 : dtree := DT 6 [2; 3; 5; 6] (fun i j => ((i =? 1) && (2 <=? j) && (j <=? 4)) || ((i =? 4) && (5 <=? j))).
Definition dt_ex2 : dtree := DT 6 [2; 4; 5; 6] (fun i j => ((i =? 1) && (2 <=? j) && (j <=? 3)) || ((i =? 3) && (4 <=? j))).
Lemma dt_ex1_ok : dim_tree dt_ex1 1.
Proof.
  split; [|split].
  - apply rooted_by_parent with (par := fun c => if c <=? 4 then 1 else 4).
    + simpl; lia.
    + intros p c Hp Hc. unfold node in *. simpl nbn in *.
      (destruct (le6 p) as [->|[->|[->|[->|[->| ->]]]]]; [lia| .. ]); (destruct (le6 c) as [->|[->|[->|[->|[->| ->]]]]]; [lia| .. ]); simpl; intuition (try discriminate; try lia).
    + intros c Hc Hne. unfold node in *. simpl nbn in *.
      (destruct (le6 c) as [->|[->|[->|[->|[->| ->]]]]]; [lia| .. ]); simpl; lia.
  - simpl. repeat (constructor; [simpl; intuition discriminate|]). constructor.
  - intros n. split.
    + intros H. simpl in H. split; [unfold node; simpl; lia|]. intros c (_ & Hc & Ha). unfold node in Hc. simpl nbn in *.
      destruct H as [<-|[<-|[<-|[<-|[]]]]]; (destruct (le6 c) as [->|[->|[->|[->|[->| ->]]]]]; [lia| .. ]); discriminate Ha.
    + intros [Hn Hc]. unfold node in Hn. simpl nbn in *.
      (destruct (le6 n) as [->|[->|[->|[->|[->| ->]]]]]; [lia| .. ]); simpl; auto 6.
      * exfalso; apply (Hc 2); unfold edge, node; simpl; lia.
      * exfalso; apply (Hc 5); unfold edge, node; simpl; lia.
Qed.
Lemma dt_ex2_ok : dim_tree dt_ex2 1.
Proof.
  split; [|split].
  - apply rooted_by_parent with (par := fun c => if c <=? 3 then 1 else 3).
    + simpl; lia.
    + intros p c Hp Hc. unfold node in *. simpl nbn in *.
      (destruct (le6 p) as [->|[->|[->|[->|[->| ->]]]]]; [lia| .. ]); (destruct (le6 c) as [->|[->|[->|[->|[->| ->]]]]]; [lia| .. ]); simpl; intuition (try discriminate; try lia).
    + intros c Hc Hne. unfold node in *. simpl nbn in *.
      (destruct (le6 c) as [->|[->|[->|[->|[->| ->]]]]]; [lia| .. ]); simpl; lia.
  - simpl. repeat (constructor; [simpl; intuition discriminate|]). constructor.
  - intros n. split.
    + intros H. simpl in H. split; [unfold node; simpl; lia|]. intros c (_ & Hc & Ha). unfold node in Hc. simpl nbn in *.
      destruct H as [<-|[<-|[<-|[<-|[]]]]]; (destruct (le6 c) as [->|[->|[->|[->|[->| ->]]]]]; [lia| .. ]); discriminate Ha.
    + intros [Hn Hc]. unfold node in Hn. simpl nbn in *.
      (destruct (le6 n) as [->|[->|[->|[->|[->| ->]]]]]; [lia| .. ]); simpl; auto 6.
      * exfalso; apply (Hc 2); unfold edge, node; simpl; lia.
      * exfalso; apply (Hc 4); unfold edge, node; simpl; lia.
Qed.
Lemma same_tree_level_counts a b ra rb : dim_tree a ra -> dim_tree b rb -> same_tree a b ->
  forall l, length (nodes_with_level a l) = length (nodes_with_level b l).
Proof.
  intros Va Vb (Hn & Hd & phi & H1 & H2 & H3 & H4) l.
  assert (HL : forall n, node a n -> level b (phi n) = level a n) by (intros; eapply conv_level with (ra := ra) (rb := rb); eauto).
  assert (P : Permutation (map phi (nodes_with_level a l)) (nodes_with_level b l)).
  { apply NoDup_Permutation.
    - apply NoDup_map_inj; [|apply NoDup_filter', NoDup_nodes]. intros x y Hx Hy.
      apply in_nodes_with_level in Hx, Hy. apply H2; tauto.
    - apply NoDup_filter', NoDup_nodes.
    - intros x. rewrite in_map_iff, in_nodes_with_level. split.
      + intros (i & <- & Hi). apply in_nodes_with_level in Hi. rewrite HL by tauto. split; [apply H1; tauto|tauto].
      + intros [Hx Hl]. destruct (conv_surj a b phi Hn Hd H1 H2 x Hx) as (i & Hi & <-). exists i. split; auto.
        apply in_nodes_with_level. split; auto. rewrite <- HL; auto. }
  apply Permutation_length in P. rewrite map_length in P. auto.
Qed.
Lemma eq_not_same : dt_eqb dt_ex1 dt_ex2 = true /\ ~ same_tree dt_ex1 dt_ex2.
Proof.
  split; [vm_compute; auto|]. intros H.
  pose proof (same_tree_level_counts _ _ _ _ dt_ex1_ok dt_ex2_ok H 1) as E. vm_compute in E. discriminate.
Qed.

(** shapes of the linear and balanced trees *)
Lemma scatter_nth sigma l i : is_perm (length l) sigma -> i < length l -> nth (nth i sigma 0) (scatter sigma l) 0 = nth i l 0.
Proof.
  intros Hp Hi. rewrite scatter_spec by auto.
  rewrite sel_nth by (rewrite inv_perm_length, (is_perm_length _ _ Hp); apply (is_perm_nth _ _ _ Hp); auto).
  rewrite (inv_perm_nth' _ _ _ Hp) by auto. auto.
Qed.
Lemma linear_shape d order : 2 <= d -> is_perm d order -> let t := dt_linear d order in
  length (d2i t) = d /\
  exists f : nat -> nat, f d = 1 /\ f 1 = nth (nth 0 order 0) (d2i t) 0 /\
    forall k, 1 <= k < d -> forall c, edge t (f (S k)) c <-> c = f k \/ c = nth (nth k order 0) (d2i t) 0.
Proof.
  intros Hd Hp t. set (v := (2 * d - 2) :: map (fun k => 2 * k + 1) (rev (seq 1 (d - 1)))).
  assert (Lv : length v = d) by (unfold v; cbn [length]; rewrite map_length, rev_length, seq_length; lia).
  assert (Hs : forall i, i < d -> nth (nth i order 0) (d2i t) 0 = nth i v 0).
  { intros i Hi. unfold t. cbn [d2i dt_linear]. fold v. apply scatter_nth; rewrite Lv; auto. }
  assert (Hv : forall k, 1 <= k < d -> nth k v 0 = 2 * (d - k) + 1).
  { intros k Hk. unfold v. destruct k as [|k]; [lia|]. cbn [nth].
    rewrite map_nth_in with (da := 0) by (rewrite rev_length, seq_length; lia).
    rewrite rev_nth by (rewrite seq_length; lia). rewrite seq_length, seq_nth by lia. lia. }
  split. { unfold t. cbn [d2i dt_linear]. fold v. rewrite (Permutation_length (scatter_perm order v ltac:(rewrite Lv; auto))). auto. }
  exists (fun k => if k =? d then 1 else 2 * (d - k)). rewrite Nat.eqb_refl. split; auto. split.
  { destruct (Nat.eqb_spec 1 d); [lia|]. rewrite Hs by lia. unfold v. cbn [nth]. lia. }
  intros k Hk c. rewrite Hs, Hv by lia. destruct (Nat.eqb_spec k d) as [->|Hkd]; [lia|].
  set (n := if S k =? d then 1 else 2 * (d - S k)).
  assert (Hn : node t n) by (unfold node, n, t; cbn [nbn dt_linear]; destruct (Nat.eqb_spec (S k) d); lia).
  split.
  - intros (_ & Hc & Ha). apply (lin_adj d order) in Ha; auto. destruct Ha as [Hc1 Hc2]. unfold lin_par in Hc2.
    unfold n in Hc2. unfold node, t in Hc; cbn [nbn dt_linear] in Hc.
    destruct (Nat.eqb_spec (S k) d); destruct (Nat.leb_spec c 3); destruct (even_cases c) as (j & [[Hj He]|[Hj He]]); rewrite ?He in Hc2; lia.
  - intros Hc.
    assert (Hnc : node t c) by (unfold node, t; cbn [nbn dt_linear]; lia).
    split; auto. split; auto. apply (lin_adj d order); auto. split; [lia|]. unfold lin_par, n.
    destruct (Nat.eqb_spec (S k) d); destruct (Nat.leb_spec c 3); destruct (even_cases c) as (j & [[Hj He]|[Hj He]]); rewrite ?He; lia.
Qed.
Lemma balanced_shape d order : 1 <= d -> is_perm d order -> let t := dt_balanced d order in
  length (d2i t) = d /\
  (forall n, node t n -> is_leaf t n = false -> length (children t n) = 2) /\
  (forall m n, is_leaf t m = true -> is_leaf t n = true -> level t m <= level t n + 1).
Proof.
  intros Hd Hp t. pose proof (dt_balanced_ok d order Hd Hp) as V. fold t in V. pose proof (proj1 V) as T.
  assert (Hperm : Permutation (d2i t) (seq d d)).
  { unfold t. cbn [d2i dt_balanced]. apply scatter_perm. rewrite seq_length; auto. }
  assert (Hlf : forall n, is_leaf t n = true <-> d <= n < d + d).
  { intros n. unfold is_leaf. rewrite inb_spec. rewrite <- in_seq. split; apply Permutation_in; auto. apply Permutation_sym; auto. }
  assert (Hdiv : forall c, 2 * (c / 2) <= c <= 2 * (c / 2) + 1).
  { intros c. pose proof (Nat.div_mod c 2). pose proof (Nat.mod_upper_bound c 2). lia. }
  split; [rewrite (Permutation_length Hperm), seq_length; auto|]. split.
  - intros n Hn Hl. assert (Hlt : n < d).
    { destruct (le_lt_dec d n); auto. assert (is_leaf t n = true); [|congruence]. apply Hlf. unfold node, t in Hn. cbn [nbn dt_balanced] in Hn. lia. }
    assert (P : Permutation (children t n) [2 * n; 2 * n + 1]).
    { apply NoDup_Permutation; [apply NoDup_children| |].
      - repeat constructor; simpl; intuition lia.
      - intros c. rewrite (in_children t n c Hn). unfold node, t in Hn. cbn [nbn dt_balanced] in Hn. split.
        + intros (_ & Hc & Ha). apply (bal_adj d order) in Ha; auto. specialize (Hdiv c). simpl. lia.
        + intros Hc. assert (Hnc : node t c) by (unfold node, t; cbn [nbn dt_balanced]; simpl in Hc; lia).
          split; auto. split; auto. apply (bal_adj d order); auto. specialize (Hdiv c). simpl in Hc. lia. }
    rewrite (Permutation_length P). auto.
  - assert (HL : forall n, node t n -> level t n = Nat.log2 n).
    { apply (tree_down_ind t 1 T (fun n => level t n = Nat.log2 n)); [apply (level_root t 1 T)|].
      intros p c IH He. rewrite (level_edge t 1 T p c He), IH. destruct He as (Hpn & Hc & Ha). apply (bal_adj d order) in Ha; auto.
      destruct Ha as [Ha1 Ha2]. specialize (Hdiv c). unfold node in Hpn. rewrite <- Ha2 in Hdiv.
      assert (E : c = 2 * p \/ c = 2 * p + 1) by lia.
      destruct E as [E|E]; rewrite E; [rewrite Nat.log2_double by lia|rewrite Nat.log2_succ_double by lia]; auto. }
    intros m n Hm Hn. rewrite !HL by (apply (leaf_node t 1 V); auto). apply Hlf in Hm, Hn.
    transitivity (Nat.log2 (2 * n)); [apply Nat.log2_le_mono; lia|]. rewrite Nat.log2_double by lia. lia.
Qed.
