(** Properties C17-C19: dimension trees (tensap/tensor_algebra/tensors/dimension_tree.py).
    The vocabulary ([node], [edge], [depth], [below], [dim_tree], [same_tree]) is in Spec/TreeSpec.v. *)
From Coq Require Import List Arith Lia Bool Permutation.
From Verif.Base Require Import ListAux CRing Index.
From Verif.Model Require Import Sorting Numpy DimensionTree RandomTree.
From Verif.Spec Require Import TreeSpec.
From Verif.Proofs Require DimTreeP DimTreeP2 DimTreeP3 DimTreeP4 DimTreeP5 RandomTreeP.
Import ListNotations.

(** ** C17: the constructors yield consistent trees *)
Theorem c17_trivial : forall d, 1 <= d ->
  dim_tree (dt_trivial d) 1 /\ length (d2i (dt_trivial d)) = d /\
  forall c, edge (dt_trivial d) 1 c <-> In c (d2i (dt_trivial d)).
Proof.
  intros d Hd. split; [apply DimTreeP2.dt_trivial_ok; auto|]. split; [apply seq_length|].
  intros c. cbn [d2i dt_trivial]. rewrite in_seq. unfold edge, node. cbn [nbn adj dt_trivial].
  rewrite andb_true_iff, Nat.leb_le, Nat.eqb_eq. lia.
Qed.
Print Assumptions c17_trivial.
(** linear(d, order): a caterpillar.  [f k] is the node that gathers the first k dimensions of [order] *)
Theorem c17_linear : forall d order, 2 <= d -> Permutation order (seq 0 d) ->
  let t := dt_linear d order in
  dim_tree t 1 /\ length (d2i t) = d /\
  exists f : nat -> nat, f d = 1 /\ f 1 = nth (nth 0 order 0) (d2i t) 0 /\
    forall k, 1 <= k < d -> forall c, edge t (f (S k)) c <-> c = f k \/ c = nth (nth k order 0) (d2i t) 0.
Proof. intros d order Hd Hp t. split; [apply DimTreeP2.dt_linear_ok; auto|apply DimTreeP5.linear_shape; auto]. Qed.
Print Assumptions c17_linear.
(** balanced(d, order): binary, and the depths of two leaves differ by at most one *)
Theorem c17_balanced : forall d order, 1 <= d -> Permutation order (seq 0 d) ->
  let t := dt_balanced d order in
  dim_tree t 1 /\ length (d2i t) = d /\
  (forall n, node t n -> is_leaf t n = false -> length (children t n) = 2) /\
  (forall m n, is_leaf t m = true -> is_leaf t n = true -> level t m <= level t n + 1).
Proof. intros d order Hd Hp t. split; [apply DimTreeP2.dt_balanced_ok; auto|apply DimTreeP5.balanced_shape; auto]. Qed.
Print Assumptions c17_balanced.
(** permuting the dimensions of a valid tree *)
Theorem c17_permute : forall t r sigma, dim_tree t r -> Permutation sigma (seq 0 (length (d2i t))) ->
  dim_tree (dt_permute t sigma) r /\
  (forall mu, mu < length (d2i t) -> nth (nth mu sigma 0) (d2i (dt_permute t sigma)) 0 = nth mu (d2i t) 0) /\
  dim_tree (dt_ipermute t sigma) r /\
  (forall mu, mu < length (d2i t) -> nth mu (d2i (dt_ipermute t sigma)) 0 = nth (nth mu sigma 0) (d2i t) 0) /\
  d2i (dt_ipermute (dt_permute t sigma) sigma) = d2i t /\ d2i (dt_permute (dt_ipermute t sigma) sigma) = d2i t.
Proof.
  intros t r sigma V Hp. destruct (DimTreeP2.dt_permute_ok t r sigma V Hp) as [H1 H2].
  destruct (DimTreeP2.dt_ipermute_ok t r sigma V Hp) as [H3 H4].
  destruct (DimTreeP2.dt_permute_ipermute t sigma Hp) as [H5 H6]. tauto.
Qed.
Print Assumptions c17_permute.
(** the attributes precomputed by the constructor agree with the edges, for every valid tree *)
Theorem c17_attributes : forall t r, dim_tree t r ->
  root_opt t = Some r /\ level t r = 0 /\ parent t r = 0 /\ child_number t r = 0 /\ sibling t r = [] /\
  (forall n, node t n -> depth t r n (level t n)) /\
  (forall n, node t n -> level t n <= max_level t) /\
  (forall n c, node t n -> (In c (children t n) <-> edge t n c)) /\
  (forall n, NoDup (children t n)) /\
  (forall n, is_leaf t n = true <-> node t n /\ children t n = []) /\
  (forall p c, edge t p c -> parent t c = p /\ level t c = S (level t p) /\
     1 <= child_number t c /\ nth (child_number t c - 1) (children t p) 0 = c /\ sibling t c = children t p).
Proof. exact DimTreeP5.attributes. Qed.
Print Assumptions c17_attributes.
(** internal nodes and leaves together are all the nodes; the double loop over the levels visits each
    node once, children before parents *)
Theorem c17_internal_leaves : forall t r, dim_tree t r -> Permutation (internal_nodes t ++ d2i t) (nodes t).
Proof. exact DimTreeP5.internal_leaves. Qed.
Print Assumptions c17_internal_leaves.
Theorem c17_level_loop : forall t r, dim_tree t r ->
  Permutation (bottom_up t) (seq 1 (nbn t)) /\
  forall l1 n l2 c, bottom_up t = l1 ++ n :: l2 -> edge t n c -> In c l1.
Proof.
  intros t r V. pose proof (proj1 V) as T. split.
  - apply NoDup_Permutation; [apply (DimTreeP.NoDup_bottom_up t)|apply seq_NoDup|].
    intros x. rewrite (DimTreeP.in_bottom_up t r T), in_seq. unfold node. lia.
  - intros l1 n l2 c E He. exact (DimTreeP.topo_bottom_up t r T l1 n l2 c E He).
Qed.
Print Assumptions c17_level_loop.
(** ascendants: the path to the root, nearest first; descendants: the nodes strictly below *)
Theorem c17_ascendants : forall t r, dim_tree t r -> forall n, node t n ->
  length (ascendants t n) = level t n /\
  (forall m, In m (ascendants t n) <-> node t m /\ m <> n /\ below t m n) /\
  (forall k, k < length (ascendants t n) -> edge t (nth k (ascendants t n) 0) (nth k (n :: ascendants t n) 0)).
Proof. exact (fun t r V => DimTreeP2.ascendants_spec t r (proj1 V)). Qed.
Print Assumptions c17_ascendants.
Theorem c17_descendants : forall t r, dim_tree t r -> forall n, node t n ->
  NoDup (descendants t n) /\ forall m, In m (descendants t n) <-> m <> n /\ below t n m.
Proof. exact (fun t r V => DimTreeP2.descendants_spec t r (proj1 V)). Qed.
Print Assumptions c17_descendants.
Theorem c17_add_child : forall t r nod, dim_tree t r -> node t nod ->
  dim_tree (dt_add_child t nod) r /\ nbn (dt_add_child t nod) = S (nbn t) /\
  forall p c, edge (dt_add_child t nod) p c <-> edge t p c \/ (p = nod /\ c = S (nbn t)).
Proof.
  intros t r nod V Hn. split; [apply DimTreeP4.ac_ok; auto|]. split; [apply Nat.add_1_r|].
  intros p c. unfold edge, node in *. cbn [nbn adj dt_add_child].
  destruct (Nat.leb_spec p (nbn t)); destruct (Nat.leb_spec c (nbn t)); cbn [andb];
    rewrite ?andb_true_iff, ?Nat.eqb_eq; intuition lia.
Qed.
Print Assumptions c17_add_child.
(** change_root (the old root having at least two children): the same undirected tree, rooted at the new root *)
Theorem c17_change_root : forall t r nod, dim_tree t r -> node t nod -> nod <> r -> 2 <= length (children t r) ->
  dim_tree (dt_change_root t nod) nod /\
  forall p c, node t p -> node t c ->
    (edge (dt_change_root t nod) p c \/ edge (dt_change_root t nod) c p <-> edge t p c \/ edge t c p).
Proof.
  exact (fun t r nod V H1 H2 H3 => conj (DimTreeP4.change_root_ok t r nod V H1 H2 H3) (DimTreeP4.change_root_edges t r nod V H1 H2 H3)).
Qed.
Print Assumptions c17_change_root.
(** its second result lists, without repetition, nodes among which are all those whose parent or children have changed *)
Theorem c17_change_root_modified : forall t r nod, dim_tree t r -> node t nod ->
  NoDup (dt_modified t nod) /\ Forall (node t) (dt_modified t nod) /\
  forall n, node t n -> ~ In n (dt_modified t nod) ->
    parent (dt_change_root t nod) n = parent t n /\ children (dt_change_root t nod) n = children t n.
Proof. exact RandomTreeP.modified_ok. Qed.
Print Assumptions c17_change_root_modified.
(** an old root with only one child becomes a leaf without dimension: the result is not a dimension tree *)
Theorem c17_change_root_one_child_refuted : exists t r nod, dim_tree t r /\ node t nod /\ nod <> r /\
  forall r', ~ dim_tree (dt_change_root t nod) r'.
Proof.
  exists RandomTreeP.one_child, 1, 2. split; [exact RandomTreeP.one_child_ok|]. split; [unfold node; cbn; lia|]. split; [lia|].
  exact RandomTreeP.one_child_change.
Qed.
Print Assumptions c17_change_root_one_child_refuted.
(** linear(1) maps the dimension to the node number 0 *)
Theorem c17_linear_one_refuted : forall r, ~ dim_tree (dt_linear 1 [0]) r.
Proof. exact RandomTreeP.linear_one. Qed.
Print Assumptions c17_linear_one_refuted.
(** random(order, [lo, hi]) with lo >= 2, whatever the pseudo-random numbers ([ri p k a b] in [a, b) for randint(a, b),
    [rp p k n] a permutation of 0..n-1): the loop ends without exception and yields a dimension tree over the [order]
    dimensions, whose internal nodes have between 2 and hi children *)
Theorem c17_random : forall (ri : nat -> nat -> nat -> nat -> nat) (rp : nat -> nat -> nat -> list nat),
  (forall p k a b, a < b -> a <= ri p k a b < b) -> (forall p k n, Permutation (rp p k n) (seq 0 n)) ->
  forall order lo hi, 1 <= order -> 2 <= lo -> lo <= hi ->
  exists t, dt_random ri rp order lo hi = Some t /\ dim_tree t 1 /\ length (d2i t) = order /\
    forall n, node t n -> is_leaf t n = false -> 2 <= length (children t n) <= hi.
Proof. exact RandomTreeP.random_ok. Qed.
Print Assumptions c17_random.
(** with an arity 1 the loop stops on an index error *)
Example c17_random_arity_one : dt_random (fun _ _ a _ => a) (fun _ _ n => seq 0 n) 3 1 1 = None.
Proof. vm_compute. reflexivity. Qed.
Example c17_ex_random : (forall p k a b : nat, a < b -> a <= (fun _ _ _ b => b - 1) p k a b < b) /\
  option_map (fun t => (d2i t, map (children t) (nodes t))) (dt_random (fun _ _ _ b => b - 1) (fun _ _ n => rev (seq 0 n)) 5 2 3) =
  Some ([3;5;6;7;4], [[2;3;4];[5;6;7];[];[];[];[];[]]).
Proof. split; [intros; cbn; lia|vm_compute; reflexivity]. Qed.
(** sub_dimension_tree: the second result lists the nodes below [a]; the edges are theirs *)
Theorem c17_sub_tree : forall t r a, dim_tree t r -> node t a ->
  dim_tree (fst (dt_sub t a)) 1 /\ NoDup (snd (dt_sub t a)) /\
  (forall n, In n (snd (dt_sub t a)) <-> below t a n) /\
  (forall i j, node (fst (dt_sub t a)) i -> node (fst (dt_sub t a)) j ->
    (edge (fst (dt_sub t a)) i j <-> edge t (nth (i - 1) (snd (dt_sub t a)) 0) (nth (j - 1) (snd (dt_sub t a)) 0))).
Proof.
  intros t r a V Ha. destruct (DimTreeP4.sub_nodes t r a V Ha) as [H1 H2].
  split; [apply (DimTreeP4.sub_ok t r a); auto|]. split; auto. split; auto. apply (DimTreeP4.sub_edge t r a); auto.
Qed.
Print Assumptions c17_sub_tree.
Example c17_ex_linear : let t := dt_linear 4 [2;0;1;3] in
  (d2i t, map (children t) (nodes t), map (level t) (nodes t), root t) =
  ([7;5;6;3], [[2;3];[4;5];[];[6;7];[];[];[]], [0;1;1;2;2;3;3], 1).
Proof. vm_compute. reflexivity. Qed.
Example c17_ex_change_root : let t := dt_change_root (dt_balanced 4 [0;1;2;3]) 3 in
  (root t, map (children t) (nodes t), dims t 3) = (3, [[2];[4;5];[1;6;7];[];[];[];[]], [0;1;2;3]).
Proof. vm_compute. reflexivity. Qed.
Example c17_ex_sub : dim_tree (dt_balanced 5 [3;1;4;0;2]) 1 /\ node (dt_balanced 5 [3;1;4;0;2]) 2 /\
  snd (dt_sub (dt_balanced 5 [3;1;4;0;2]) 2) = [2;4;8;9;5].
Proof.
  split; [apply DimTreeP2.dt_balanced_ok; [lia|]|split; [unfold node; simpl; lia|vm_compute; reflexivity]].
  apply NoDup_Permutation; [repeat constructor; simpl; intuition lia|apply seq_NoDup|]. intros x. simpl. intuition lia.
Qed.

(** ** C18: the dims of a node are the disjoint union of its children's *)
Theorem c18_dims : forall t r, dim_tree t r ->
  (forall mu, mu < length (d2i t) -> dims t (nth mu (d2i t) 0) = [mu]) /\
  (forall n, node t n -> is_leaf t n = false -> dims t n = concat (map (dims t) (children t n))) /\
  (forall n, node t n -> NoDup (dims t n) /\ dims t n <> []) /\
  (forall n mu, node t n -> (In mu (dims t n) <-> mu < length (d2i t) /\ below t n (nth mu (d2i t) 0))) /\
  Permutation (dims t r) (seq 0 (length (d2i t))) /\
  (forall n a b mu, edge t n a -> edge t n b -> In mu (dims t a) -> In mu (dims t b) -> a = b).
Proof. exact DimTreeP5.dims_summary. Qed.
Print Assumptions c18_dims.
Theorem c18_node_with_dims : forall t r ds, dim_tree t r -> forall n,
  In n (node_with_dims t ds) <-> node t n /\ Permutation ds (dims t n).
Proof. exact DimTreeP5.node_with_dims_ok. Qed.
Print Assumptions c18_node_with_dims.
Example c18_ex : let t := dt_balanced 5 [3;1;4;0;2] in map (dims t) (nodes t) =
  [[0;2;3;1;4];[0;2;3];[1;4];[0;2];[3];[1];[4];[0];[2]] /\ node_with_dims t [3;2;0] = [2].
Proof. vm_compute. auto. Qed.

(** ** C19: equality of trees *)
Theorem c19_complete : forall a b ra rb, dim_tree a ra -> dim_tree b rb -> same_tree a b -> dt_eqb a b = true.
Proof. exact DimTreeP3.same_tree_eqb. Qed.
Print Assumptions c19_complete.
(** full claim: [dt_eqb a b = true -> same_tree a b].  It is false of the code (next theorem); it holds
    when the two trees have the same number of nodes on every level. *)
Theorem c19_sound_partial : forall a b ra rb, dim_tree a ra -> dim_tree b rb -> dt_eqb a b = true ->
  (forall l, length (nodes_with_level a l) = length (nodes_with_level b l)) -> same_tree a b.
Proof. exact DimTreeP3.eqb_same_tree. Qed.
Print Assumptions c19_sound_partial.
Theorem c19_sound_refuted : exists a b ra rb, dim_tree a ra /\ dim_tree b rb /\ dt_eqb a b = true /\ ~ same_tree a b.
Proof.
  exists DimTreeP5.dt_ex1, DimTreeP5.dt_ex2, 1, 1.
  exact (conj DimTreeP5.dt_ex1_ok (conj DimTreeP5.dt_ex2_ok DimTreeP5.eq_not_same)).
Qed.
Print Assumptions c19_sound_refuted.
Example c19_ex : dt_eqb (dt_linear 3 [0;1;2]) (dt_linear 3 [1;0;2]) = true /\
  dt_eqb (dt_linear 3 [0;1;2]) (dt_linear 3 [0;2;1]) = false.
Proof. vm_compute. auto. Qed.
