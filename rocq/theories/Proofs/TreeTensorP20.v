(** Tree-based tensors obtained by keeping some of the nodes (renumbered). *)
From Coq Require Import List Arith Lia Bool Sorted Ring Permutation.
From Verif.Base Require Import ListAux CRing Index.
From Verif.Model Require Import Utils Numpy FullTensor DimensionTree TreeBased TreeEval TreeReduce.
From Verif.Spec Require Import TensorSpec TreeSpec TreeTensorSpec.
From Verif.Proofs Require Import NumpyP FullTensorP DimTreeP TreeTensorP TreeTensorP2 TreeTensorP3 TreeTensorP4.
Import ListNotations.

Section Restrict.
  Variables (K d : list nat) (A : nat -> nat -> bool).
  Hypothesis ND : NoDup K.
  Let t := dt_restrict K d A.
  Let pos (n : nat) : nat := S (index_of n K).
  Let id (i : nat) : nat := nth (i - 1) K 0.

  Lemma rs_node i : node t i <-> (1 <= i <= length K)%nat.
  Proof. unfold node, t. cbn. tauto. Qed.
  Lemma rs_pos_node n : In n K -> node t (pos n).
  Proof. intros H. apply rs_node. destruct (index_of_nth K n H). unfold pos. lia. Qed.
  Lemma rs_id_pos n : In n K -> id (pos n) = n.
  Proof. intros H. destruct (index_of_nth K n H) as [_ E]. unfold id, pos. cbn [Nat.sub]. rewrite Nat.sub_0_r. auto. Qed.
  Lemma rs_id_in i : node t i -> In (id i) K.
  Proof. intros H. apply (proj1 (rs_node _)) in H. apply nth_In. lia. Qed.
  Lemma rs_pos_id i : node t i -> pos (id i) = i.
  Proof. intros H. apply (proj1 (rs_node _)) in H. unfold pos, id. rewrite index_of_NoDup by (auto; lia). lia. Qed.
  Lemma rs_pos_inj m n : In m K -> In n K -> pos m = pos n -> m = n.
  Proof. intros Hm Hn E. rewrite <- (rs_id_pos m Hm), E. apply rs_id_pos; auto. Qed.
  Lemma rs_NoDup_map l : incl l K -> NoDup l -> NoDup (map pos l).
  Proof.
    intros Hi N. induction N as [|a l Ha Hl IH]; cbn [map]; constructor.
    - intros Hin. apply in_map_iff in Hin. destruct Hin as (x & Ex & Hx). apply Ha. apply rs_pos_inj in Ex; [subst; auto| |]; apply Hi; simpl; auto.
    - apply IH. intros x Hx. apply Hi. simpl; auto.
  Qed.
  Lemma rs_adj m n : In m K -> In n K -> adj t (pos m) (pos n) = A m n.
  Proof. intros Hm Hn. unfold t, dt_restrict. cbn [adj]. change (nth (pos m - 1) K 0) with (id (pos m)). change (nth (pos n - 1) K 0) with (id (pos n)). rewrite !rs_id_pos; auto. Qed.
  Lemma rs_edge m n : In m K -> In n K -> (edge t (pos m) (pos n) <-> A m n = true).
  Proof. intros Hm Hn. unfold edge. rewrite rs_adj by auto. pose proof (rs_pos_node m Hm). pose proof (rs_pos_node n Hn). tauto. Qed.
  Lemma rs_edge' i j : edge t i j -> A (id i) (id j) = true.
  Proof. intros (_ & _ & H). exact H. Qed.
  Lemma rs_nodes : nodes t = map pos K.
  Proof.
    unfold nodes, t, dt_restrict. cbn [nbn]. apply nth_ext' with (d := 0%nat); [rewrite map_length, seq_length; auto|].
    intros k Hk. rewrite seq_length in Hk. rewrite seq_nth by auto. rewrite map_nth_in with (da := 0%nat) by auto. unfold pos. rewrite index_of_NoDup by auto. lia.
  Qed.
  Lemma rs_children n : In n K -> children t (pos n) = map pos (filter (A n) K).
  Proof.
    intros Hn. unfold children. rewrite rs_nodes.
    assert (G : forall l, incl l K -> filter (adj t (pos n)) (map pos l) = map pos (filter (A n) l)).
    { induction l as [|a l IH]; intros I; cbn [filter map]; auto. rewrite rs_adj by (auto; apply I; simpl; auto). rewrite IH by (intros x Hx; apply I; simpl; auto). destruct (A n a); auto. }
    apply G. apply incl_refl.
  Qed.
  Lemma rs_leaf n : In n K -> incl d K -> is_leaf t (pos n) = inb n d.
  Proof.
    intros Hn I. unfold is_leaf, t, dt_restrict. cbn [d2i]. destruct (inb n d) eqn:E.
    - apply inb_spec. apply inb_spec in E. apply in_map_iff. exists n. auto.
    - apply inb_false. apply inb_false in E. intros H. apply in_map_iff in H. destruct H as (x & Ex & Hx). apply E.
      apply rs_pos_inj in Ex; auto. subst; auto.
  Qed.
  Lemma rs_index n : In n K -> incl d K -> NoDup d -> In n d -> index_of (pos n) (d2i t) = index_of n d.
  Proof.
    intros Hn I NDd H. unfold t, dt_restrict. cbn [d2i]. destruct (index_of_nth d n H) as [H1 H2].
    assert (E : pos n = nth (index_of n d) (map pos d) 0%nat) by (rewrite map_nth_in with (da := 0%nat) by auto; rewrite H2; auto).
    change (map (fun x => S (index_of x K)) d) with (map pos d). rewrite E at 1. rewrite index_of_NoDup; auto; [|rewrite map_length; auto].
    apply rs_NoDup_map; auto.
  Qed.

  (** the tree of the kept nodes *)
  Variables (r : nat) (lev : nat -> nat).
  Hypothesis Hr : In r K.
  Hypothesis Hroot : forall p, In p K -> A p r = false.
  Hypothesis Hpar : forall c, In c K -> c <> r -> exists p, In p K /\ A p c = true /\ (lev p < lev c)%nat /\ forall q, In q K -> A q c = true -> q = p.
  Hypothesis Hd : NoDup d.
  Hypothesis Hdl : forall n, In n d <-> In n K /\ forall c, In c K -> A n c = false.
  Lemma rs_incl : incl d K.
  Proof. intros x Hx. apply Hdl in Hx. tauto. Qed.
  Lemma rs_dim_tree : dim_tree t (pos r).
  Proof.
    assert (NDp : NoDup (d2i t)).
    { unfold t, dt_restrict. cbn [d2i]. apply rs_NoDup_map; auto. exact rs_incl. }
    split; [|split; auto].
    - split; [apply rs_pos_node; auto|]. split; [|split].
      + intros p He. pose proof (rs_edge' _ _ He) as E. rewrite rs_id_pos in E by auto. rewrite Hroot in E; [discriminate|]. apply rs_id_in. apply He.
      + intros c Hc Hne. destruct (Hpar (id c)) as (p & P1 & P2 & _ & P3); [apply rs_id_in; auto|intros E; apply Hne; rewrite <- E; symmetry; apply rs_pos_id; auto|].
        exists (pos p). split.
        * rewrite <- (rs_pos_id c Hc). apply rs_edge; auto. apply rs_id_in; auto.
        * intros q Hq. rewrite <- (rs_pos_id q) by apply Hq. f_equal. apply P3; [apply rs_id_in; apply Hq|apply rs_edge'; auto].
      + intros c Hc. rewrite <- (rs_pos_id c Hc). pose proof (rs_id_in c Hc) as Hin. revert Hin. generalize (id c) as m. clear c Hc.
        assert (G : forall k m, (lev m <= k)%nat -> In m K -> below t (pos r) (pos m)).
        { induction k as [|k IH]; intros m Hm Hin; (destruct (Nat.eq_dec m r) as [->|N]; [apply below_refl|]); destruct (Hpar m Hin N) as (p & P1 & P2 & P3 & _); [lia|].
          destruct (IH p) as [j Hj]; [lia|auto|]. exists (S j). apply depth_child with (p := pos p); auto. apply rs_edge; auto. }
        intros m Hm. apply (G (lev m)); auto.
    - intros n. split.
      + intros H. unfold t, dt_restrict in H. cbn [d2i] in H. apply in_map_iff in H. destruct H as (x & <- & Hx). pose proof (rs_incl x Hx) as Hk.
        split; [apply rs_pos_node; auto|]. intros c He. pose proof (rs_edge' _ _ He) as E. change (S (index_of x K)) with (pos x) in E. rewrite rs_id_pos in E by auto.
        apply Hdl in Hx. destruct Hx as [_ Hx]. rewrite Hx in E; [discriminate|]. apply rs_id_in, He.
      + intros [Hn Hc]. unfold t, dt_restrict. cbn [d2i]. apply in_map_iff. exists (id n). split; [apply rs_pos_id; auto|]. apply Hdl. split; [apply rs_id_in; auto|].
        intros c Hck. destruct (A (id n) c) eqn:E; auto. exfalso. apply (Hc (pos c)). rewrite <- (rs_pos_id n Hn). apply rs_edge; auto. apply rs_id_in; auto.
  Qed.

  (** the tensor *)
  Context {R : Type} {CR : CRing R}.
  Add Ring Rrt20 : rth.
  Local Open Scope cr_scope.
  Variable ts : list (nd R).
  Let Z := TB t (map (nthc ts) K).
  Lemma rs_core n : In n K -> core Z (pos n) = nthc ts n.
  Proof.
    intros H. unfold core, Z, nthc at 1. cbn [cores]. destruct (index_of_nth K n H) as [H1 H2]. rewrite map_nth_in with (da := 0%nat) by (unfold pos; lia).
    change (nth (pos n - 1) K 0%nat) with (id (pos n)). rewrite rs_id_pos; auto.
  Qed.
  Lemma rs_active n : In n K -> active Z (pos n) = activec ts n.
  Proof.
    intros H. pose proof (rs_core n H) as E. unfold active, activec. unfold core in E. rewrite E. auto.
  Qed.
  (** [ch n]: children of the kept node n; [ax n]: size of its axis in the core of its parent; [dsz n]: size of the
      dimension of a leaf; [ext n]: sizes of the trailing axes *)
  Variables (ch : nat -> list nat) (ax dsz : nat -> nat) (ext : nat -> list nat).
  Hypothesis Hch : forall n, In n K -> filter (A n) K = ch n.
  Hypothesis Hra : activec ts r = true.
  Hypothesis Hint : forall n, In n K -> ~ In n d -> activec ts n = true.
  Hypothesis Hshape : forall n, In n K -> activec ts n = true -> shape (nthc ts n) = (if inb n d then [dsz n] else map ax (ch n)) ++ ext n.
  Hypothesis Hext : forall n, In n K -> n <> r -> activec ts n = true -> ext n = [ax n].
  Hypothesis Hextr : (length (ext r) <= 1)%nat.
  Hypothesis Hina : forall n, In n K -> activec ts n = false -> ax n = dsz n.
  Lemma rs_arity n : In n K -> arity_at t (pos n) = length (if inb n d then [dsz n] else map ax (ch n)).
  Proof. intros H. unfold arity_at. rewrite rs_leaf by (auto; exact rs_incl). rewrite rs_children, map_length, Hch by auto. destruct (inb n d); auto. rewrite map_length. auto. Qed.
  Lemma rs_exts n : In n K -> activec ts n = true -> exts Z (pos n) = ext n.
  Proof.
    intros H Ha. unfold exts. change (ttree Z) with t. rewrite rs_arity, rs_core by auto. rewrite Hshape by auto. rewrite skipn_app, skipn_all, Nat.sub_diag. auto.
  Qed.
  Lemma rs_heads n : In n K -> activec ts n = true -> heads Z (pos n) = if inb n d then [dsz n] else map ax (ch n).
  Proof.
    intros H Ha. unfold heads. change (ttree Z) with t. rewrite rs_arity, rs_core by auto. rewrite Hshape by auto. rewrite firstn_app, firstn_all, Nat.sub_diag. cbn [firstn]. apply app_nil_r.
  Qed.
  Lemma in_ch n c : In n K -> (In c (ch n) <-> In c K /\ A n c = true).
  Proof. intros H. rewrite <- Hch by auto. apply filter_In. Qed.
  Lemma ch_ne_root n c : In n K -> In c (ch n) -> c <> r.
  Proof. intros Hn Hc ->. apply in_ch in Hc; auto. destruct Hc as [_ E]. rewrite Hroot in E; auto. discriminate. Qed.
  Lemma rs_child_index n c : In n K -> In c (ch n) -> index_of (pos c) (children t (pos n)) = index_of c (ch n).
  Proof.
    intros Hn Hc. rewrite rs_children, Hch by auto.
    assert (NC : NoDup (ch n)) by (rewrite <- Hch by auto; apply NoDup_filter'; auto).
    destruct (index_of_nth (ch n) c Hc) as [H1 H2].
    assert (E : pos c = nth (index_of c (ch n)) (map pos (ch n)) 0%nat) by (rewrite map_nth_in with (da := 0%nat) by auto; rewrite H2; auto).
    rewrite E at 1. rewrite index_of_NoDup; auto; [|rewrite map_length; auto].
    assert (I : incl (ch n) K) by (intros x Hx; apply in_ch in Hx; tauto). apply rs_NoDup_map; auto.
  Qed.
  Lemma rs_nth_child n c : In n K -> In c (ch n) -> nth (index_of c (ch n)) (shape (nthc ts n)) 0%nat = ax c.
  Proof.
    intros Hn Hc. assert (Hl : inb n d = false).
    { apply inb_false. intros Hin. apply Hdl in Hin. destruct Hin as [_ Hin]. apply in_ch in Hc; auto. destruct Hc as [Hc1 Hc2]. rewrite Hin in Hc2; auto. discriminate. }
    assert (Ha : activec ts n = true) by (apply Hint; auto; apply inb_false; auto).
    rewrite Hshape, Hl by auto. destruct (index_of_nth (ch n) c Hc) as [H1 H2]. rewrite app_nth1 by (rewrite map_length; auto).
    rewrite map_nth_in with (da := 0%nat) by auto. rewrite H2. auto.
  Qed.
  Lemma rs_ok : tb_ok Z (pos r).
  Proof.
    split; [exact rs_dim_tree|]. split; [unfold Z; cbn; rewrite map_length; auto|]. split; [rewrite rs_active; auto|].
    intros i Hi. change (ttree Z) with t in *. rewrite <- (rs_pos_id i Hi). pose proof (rs_id_in i Hi) as Hin. revert Hin. generalize (id i) as n. clear i Hi. intros n Hn.
    rewrite rs_active, rs_leaf by (auto; exact rs_incl). split; [|split].
    - intros E. apply Hint; auto. apply inb_false; auto.
    - intros Ha. rewrite rs_arity, rs_core, rs_exts by auto. unfold ndim. rewrite Hshape by auto. rewrite app_length. split; [lia|].
      destruct (Nat.eqb_spec (pos n) (pos r)) as [E|E].
      + apply rs_pos_inj in E; auto. subst. auto.
      + assert (N : n <> r) by (intros ->; auto). rewrite (Hext n Hn N Ha). cbn. auto.
    - intros c He Ha. assert (Hc : In (id c) (ch n)).
      { apply in_ch; auto. split; [apply rs_id_in, He|]. apply rs_edge' in He. rewrite rs_id_pos in He by auto. auto. }
      assert (Ec : c = pos (id c)) by (symmetry; apply rs_pos_id, He). rewrite Ec in Ha |- *. revert Ha Hc. generalize (id c) as m. clear c He Ec. intros m Ha Hm.
      pose proof (proj1 (proj1 (in_ch n m Hn) Hm)) as Hk. rewrite rs_active in Ha by auto. rewrite rs_child_index, !rs_core by auto. rewrite rs_nth_child by auto.
      rewrite Hshape, Hext by (auto; apply (ch_ne_root n); auto). rewrite last_last. auto.
  Qed.
  Lemma rs_size n : In n K -> In n d -> tb_size Z (pos n) = dsz n.
  Proof.
    intros Hn Hl. unfold tb_size. rewrite rs_active by auto. destruct (activec ts n) eqn:Ha.
    - rewrite rs_core, Hshape by auto. rewrite (proj2 (inb_spec n d) Hl). auto.
    - assert (N : n <> r) by congruence. destruct (Hpar n Hn N) as (p & P1 & P2 & _).
      assert (Hc : In n (ch p)) by (apply in_ch; auto).
      rewrite (child_index Z (pos r) rs_ok (pos p) (pos n)) by (apply rs_edge; auto).
      change (ttree Z) with t. rewrite (parent_edge t (pos r) (proj1 rs_dim_tree) (pos p) (pos n)) by (apply rs_edge; auto).
      rewrite rs_child_index, rs_core, rs_nth_child by auto. auto.
  Qed.
  Lemma rs_shape : tb_shape Z = map dsz d.
  Proof.
    unfold tb_shape. change (d2i (ttree Z)) with (map pos d). rewrite map_map. apply map_ext_in. intros n Hn. apply rs_size; auto. apply rs_incl; auto.
  Qed.
  (** a function that satisfies the recursion of the kept network is its value *)
  Variable G : nat -> list nat -> list nat -> R.
  Hypothesis Gleaf : forall n is e, In n d -> activec ts n = true -> valid (map dsz d) is -> valid (ext n) e -> G n is e = get (nthc ts n) (nth (index_of n d) is 0%nat :: e).
  Hypothesis Gina : forall n is k, In n d -> activec ts n = false -> valid (map dsz d) is -> (k < dsz n)%nat -> G n is [k] = if k =? nth (index_of n d) is 0%nat then r1 else r0.
  Hypothesis Gint : forall n is e, In n K -> ~ In n d -> valid (map dsz d) is -> valid (ext n) e ->
    G n is e = bsum (map ax (ch n)) (fun ks => get (nthc ts n) (ks ++ e) * lprod (combine (ch n) ks) (fun p => G (fst p) is [snd p])).
  Lemma rs_tval n : In n K -> forall is e, valid (map dsz d) is -> valid (if activec ts n then ext n else [dsz n]) e -> tval Z (pos n) is e = G n is e.
  Proof.
    intros Hn. rewrite <- (rs_id_pos n Hn). pose proof (rs_pos_node n Hn) as Hp. revert Hp. generalize (pos n) as i. clear n Hn.
    pose proof rs_ok as O. pose proof (proj1 O) as V. pose proof (proj1 V) as T. change (ttree Z) with t in V, T.
    apply (tree_up_ind t (pos r) T (fun i => forall is e, valid (map dsz d) is -> valid (if activec ts (id i) then ext (id i) else [dsz (id i)]) e -> tval Z (pos (id i)) is e = G (id i) is e)).
    intros i Hi IH is e His He. pose proof (rs_id_in i Hi) as Hn.
    assert (IH' : forall c, In c (ch (id i)) -> forall e, valid (if activec ts c then ext c else [dsz c]) e -> tval Z (pos c) is e = G c is e).
    { intros c Hc e' He'. pose proof (proj1 (in_ch _ _ Hn) Hc) as [Hck Hca]. rewrite <- (rs_id_pos c Hck) at 2. rewrite <- (rs_id_pos c Hck) at 1. apply IH; auto.
      - rewrite <- (rs_pos_id i Hi). apply rs_edge; auto.
      - rewrite rs_id_pos by auto. auto. }
    clear IH. revert Hn He IH'. generalize (id i) as n. clear i Hi. intros n Hn He IH'.
    destruct (inb n d) eqn:El.
    - assert (Hl : In n d) by (apply inb_spec; auto). assert (Ll : is_leaf t (pos n) = true) by (rewrite rs_leaf by (auto; exact rs_incl); auto).
      destruct (activec ts n) eqn:Ha.
      + rewrite (tval_leaf Z (pos r) V) by (auto; rewrite rs_active; auto). change (ttree Z) with t. rewrite rs_core, rs_index by (auto; exact rs_incl). symmetry. apply Gleaf; auto.
      + rewrite (tval_inactive Z (pos r) V) by (auto; rewrite rs_active; auto). change (ttree Z) with t. rewrite rs_index by (auto; exact rs_incl).
        inversion He as [|k ? e' ? Hk He']; subst. inversion He'; subst. rewrite Gina by auto. cbn [list_eqb]. rewrite andb_true_r. auto.
    - assert (Hl : ~ In n d) by (apply inb_false; auto). pose proof (Hint n Hn Hl) as Ha. rewrite Ha in He.
      rewrite (tval_internal Z (pos r) V) by (try apply rs_pos_node; auto; change (ttree Z) with t; rewrite rs_leaf by (auto; exact rs_incl); auto).
      change (ttree Z) with t. rewrite rs_heads, rs_core, rs_children, Hch, El by auto. rewrite Gint by auto. apply bsum_ext. intros ks Hks. f_equal.
      assert (Ic : forall c, In c (ch n) -> In c K /\ c <> r).
      { intros c Hc. split; [apply (in_ch n c Hn) in Hc; tauto|apply (ch_ne_root n); auto]. }
      revert ks Hks. clear - IH' Ic Hext Hina. induction (ch n) as [|c l IHl]; intros [|k ks] Hks; cbn [map combine lprod]; auto.
      inversion Hks; subst. cbn [fst snd]. f_equal.
      + destruct (Ic c) as [C1 C2]; [simpl; auto|]. apply IH'; [simpl; auto|]. destruct (activec ts c) eqn:E.
        * rewrite Hext by auto. constructor; [auto|constructor].
        * rewrite <- Hina by auto. constructor; [auto|constructor].
      + apply IHl; auto; intros; [apply IH'|apply Ic]; simpl; auto.
  Qed.
End Restrict.
