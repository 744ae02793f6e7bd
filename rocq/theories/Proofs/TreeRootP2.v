(** Values of a tree-based tensor as sums over labelled indices; the tree with another root. *)
From Coq Require Import List Arith Lia Bool Ring Permutation.
From Verif.Base Require Import ListAux CRing Index.
From Verif.Model Require Import Sorting Numpy FullTensor DimensionTree TreeBased TreeRoot.
From Verif.Spec Require Import TensorSpec TreeSpec TreeTensorSpec.
From Verif.Proofs Require Import NumpyP FullTensorP DimTreeP DimTreeP4 RandomTreeP TreeTensorP TreeRootP1.
Import ListNotations.

Section Chp.
  Variables (t : dtree) (r : nat).
  Hypothesis T : rooted_tree t r.
  Lemma chp_root : chp t r = children t r.
  Proof. unfold chp. rewrite (parent_root t r T). cbn. apply app_nil_r. Qed.
  Lemma chp_node n p : edge t p n -> chp t n = children t n ++ [p].
  Proof.
    intros He. unfold chp. rewrite (parent_edge t r T p n He). cbn [filter]. destruct (Nat.eqb_spec p 0) as [->|]; auto.
    destruct He as (H & _). unfold node in H. lia.
  Qed.
  Lemma in_chp n m : node t n -> (In m (chp t n) <-> edge t n m \/ edge t m n).
  Proof.
    intros Hn. destruct (Nat.eq_dec n r) as [->|Hne].
    - rewrite chp_root, in_children by auto. split; auto. intros [H|H]; auto. exfalso. apply (rt_no_edge t r T _ H).
    - destruct (rt_has_parent t r T n Hn Hne) as (p & Hp). rewrite (chp_node n p Hp), in_app_iff, in_children by auto. cbn [In].
      split; intros [H|H]; auto; [destruct H as [<-|[]]; auto|]. right. left. eapply (rt_uniq t r T); eauto.
  Qed.
  Lemma edge_asym a b : edge t a b -> ~ edge t b a.
  Proof. intros H1 H2. pose proof (level_edge t r T _ _ H1). pose proof (level_edge t r T _ _ H2). lia. Qed.
  Lemma NoDup_chp n : node t n -> NoDup (chp t n).
  Proof.
    intros Hn. destruct (Nat.eq_dec n r) as [->|Hne].
    - rewrite chp_root. apply NoDup_children.
    - destruct (rt_has_parent t r T n Hn Hne) as (p & Hp). rewrite (chp_node n p Hp). apply NoDup_app; [apply NoDup_children|repeat constructor; auto|].
      intros x Hx [<-|[]]. apply in_children in Hx; auto. apply (edge_asym _ _ Hx Hp).
  Qed.
End Chp.

Section Vals.
  Context {R : Type} {CR : CRing R}.
  Add Ring Rrt2 : (@rth R CR).
  Local Open Scope cr_scope.
  Variables (X : tbt R) (r : nat).
  Hypothesis O : tb_ok X r.
  Local Notation t := (ttree X).
  (** the value of an internal node below its parent p / of the root *)
  Lemma tval_esum n p k is : edge t p n -> is_leaf t n = false ->
    tval X n is [k] = esum (children t n) (csize X)
      (fun f => get (core X n) (map f (chp t n)) * lprod (children t n) (fun c => tval X c is [f c])) (fun _ => k).
  Proof.
    intros He El. assert (Hn : node t n) by apply He. pose proof (proj1 O) as V.
    rewrite (tval_internal X r V) by auto. rewrite (heads_internal X r O n Hn El). rewrite esum_bsum.
    apply bsum_ext. intros ks Hk. pose proof (valid_length _ _ Hk) as HL. rewrite map_length in HL.
    rewrite (chp_node t r (proj1 V) n p He), map_app. cbn [map].
    rewrite envset_in by (auto; apply NoDup_children). rewrite envset_out.
    - f_equal. rewrite <- (envset_in (children t n) (fun _ => k) ks) at 1 by (auto; apply NoDup_children). apply lprod_combine_map.
    - intros H. apply in_children in H; auto. apply (edge_asym t r (proj1 V) _ _ H He).
  Qed.
  Lemma tval_esum_root is f0 : is_leaf t r = false ->
    tval X r is [] = esum (children t r) (csize X)
      (fun f => get (core X r) (map f (chp t r)) * lprod (children t r) (fun c => tval X c is [f c])) f0.
  Proof.
    intros El. pose proof (proj1 O) as V. assert (Hn : node t r) by apply (proj1 V).
    rewrite (tval_internal X r V) by auto. rewrite (heads_internal X r O r Hn El). rewrite esum_bsum.
    apply bsum_ext. intros ks Hk. pose proof (valid_length _ _ Hk) as HL. rewrite map_length in HL.
    rewrite (chp_root t r (proj1 V)). rewrite envset_in by (auto; apply NoDup_children).
    rewrite app_nil_r. f_equal. rewrite <- (envset_in (children t r) f0 ks) at 1 by (auto; apply NoDup_children). apply lprod_combine_map.
  Qed.
End Vals.

(** the tree with root nod *)
Section NewRoot.
  Variables (t : dtree) (r nod : nat).
  Hypothesis V : dim_tree t r.
  Hypothesis Hnod : node t nod.
  Hypothesis Hne : nod <> r.
  Local Notation t' := (dt_change_root t nod).
  Let T : rooted_tree t r := proj1 V.

  Lemma nr_edge i j : node t i -> node t j -> (edge t' i j <-> (edge t i j /\ ~ below t j nod) \/ (edge t j i /\ below t i nod)).
  Proof.
    intros Hx Hy. rewrite <- (cr_edge t r nod V Hnod Hne). unfold dt_change_root. rewrite (root_eq t r T).
    destruct (Nat.eqb_spec nod r) as [|_]; [contradiction|]. destruct (is_leaf t nod); [|tauto].
    unfold edge, node in *. cbn [adj nbn]. destruct (Nat.leb_spec i (nbn t)), (Nat.leb_spec j (nbn t)); try lia. cbn [andb]. intuition lia.
  Qed.
  Lemma nr_nbn : nbn t' = if is_leaf t nod then nbn t + 1 else nbn t.
  Proof.
    unfold dt_change_root. rewrite (root_eq t r T). destruct (Nat.eqb_spec nod r) as [|_]; [contradiction|]. destruct (is_leaf t nod); auto.
  Qed.
  Lemma nr_d2i : d2i t' = if is_leaf t nod then upd (index_of nod (d2i t)) (nbn t + 1) (d2i t) else d2i t.
  Proof.
    unfold dt_change_root. rewrite (root_eq t r T). destruct (Nat.eqb_spec nod r) as [|_]; [contradiction|]. destruct (is_leaf t nod) eqn:El; auto.
    cbn [d2i]. rewrite (dims_leaf t r V) by auto. reflexivity.
  Qed.
  Lemma nr_new_edge i j : is_leaf t nod = true -> (i = nbn t + 1 \/ j = nbn t + 1) -> (edge t' i j <-> i = nod /\ j = nbn t + 1).
  Proof.
    intros El H. unfold dt_change_root. rewrite (root_eq t r T). destruct (Nat.eqb_spec nod r) as [|_]; [contradiction|]. rewrite El.
    unfold edge, node in *. cbn [adj nbn].
    destruct (Nat.leb_spec i (nbn t)), (Nat.leb_spec j (nbn t)); cbn [andb]; rewrite ?andb_true_iff, ?Nat.eqb_eq; intuition lia.
  Qed.
  Lemma nr_node n : node t' n <-> node t n \/ (is_leaf t nod = true /\ n = nbn t + 1).
  Proof. unfold node. rewrite nr_nbn. destruct (is_leaf t nod); intuition (try lia; try discriminate). Qed.
  (** leaves *)
  Lemma nr_leaf n : node t n -> is_leaf t' n = if n =? nod then false else is_leaf t n.
  Proof.
    intros Hn. unfold is_leaf at 1. rewrite nr_d2i. destruct (is_leaf t nod) eqn:El.
    - destruct (leaf_index t nod El) as [Hi1 Hi2]. pose proof (NoDup_d2i t r V) as ND. destruct (Nat.eqb_spec n nod) as [->|Hnn].
      + apply inb_false. intros Hx. apply In_nth with (d := 0) in Hx. destruct Hx as (k & Hk & E). rewrite upd_length in Hk.
        destruct (Nat.eq_dec k (index_of nod (d2i t))) as [->|Hkn].
        * rewrite nth_upd_eq in E by auto. unfold node in Hnod. lia.
        * rewrite nth_upd_neq in E by auto. apply Hkn. rewrite <- E. symmetry. apply index_of_NoDup; auto.
      + unfold is_leaf. destruct (inb n (d2i t)) eqn:E.
        * apply inb_spec. apply inb_spec in E. apply In_nth with (d := 0) in E. destruct E as (k & Hk & <-).
          assert (Hkn : k <> index_of nod (d2i t)) by (intros ->; congruence).
          rewrite <- (nth_upd_neq (index_of nod (d2i t)) k (nbn t + 1) 0 (d2i t)) at 1 by auto. apply nth_In. rewrite upd_length; auto.
        * apply inb_false. apply inb_false in E. intros Hx. apply E. apply In_nth with (d := 0) in Hx. destruct Hx as (k & Hk & E'). rewrite upd_length in Hk.
          destruct (Nat.eq_dec k (index_of nod (d2i t))) as [->|Hkn].
          -- rewrite nth_upd_eq in E' by auto. unfold node in Hn. lia.
          -- rewrite nth_upd_neq in E' by auto. rewrite <- E'. apply nth_In. auto.
    - destruct (Nat.eqb_spec n nod) as [->|]; auto.
  Qed.
  Lemma nr_index n : node t n -> is_leaf t n = true -> n <> nod -> index_of n (d2i t') = index_of n (d2i t).
  Proof.
    intros Hn El Hnn. rewrite nr_d2i. destruct (is_leaf t nod) eqn:Eln; auto.
    destruct (leaf_index t nod Eln) as [Hi1 Hi2]. destruct (leaf_index t n El) as [Hj1 Hj2]. pose proof (NoDup_d2i t r V) as ND.
    assert (Hkn : index_of n (d2i t) <> index_of nod (d2i t)) by congruence.
    assert (G : forall l k m v, k < length l -> index_of n l = k -> m <> k -> v <> n -> nth m l 0 <> n -> index_of n (upd m v l) = k).
    { clear. induction l as [|x l IH]; intros k m v Hk E Hm Hv Hx; [cbn in Hk; lia|]. cbn [index_of] in E.
      destruct m as [|m].
      - cbn [upd index_of]. cbn [nth] in Hx. destruct (Nat.eqb_spec x n); [contradiction|]. destruct (Nat.eqb_spec v n); [contradiction|]. auto.
      - cbn [upd index_of]. destruct (Nat.eqb_spec x n); auto. destruct k as [|k]; [discriminate|]. f_equal. apply IH; auto; cbn in Hk; try lia. }
    apply G; auto; [unfold node in Hn; lia|]. rewrite Hi2. auto.
  Qed.
  Lemma nr_index_new : is_leaf t nod = true -> index_of (nbn t + 1) (d2i t') = index_of nod (d2i t).
  Proof.
    intros Eln. rewrite nr_d2i, Eln. destruct (leaf_index t nod Eln) as [Hi1 Hi2].
    assert (NI : ~ In (nbn t + 1) (d2i t)).
    { intros Hx. assert (H : node t (nbn t + 1)) by (apply (leaf_node t r V), inb_spec; auto). unfold node in H. lia. }
    assert (G : forall l k v, k < length l -> ~ In v l -> index_of v (upd k v l) = k).
    { clear. induction l as [|x l IH]; intros k v Hk H; [cbn in Hk; lia|]. destruct k as [|k]; cbn [upd index_of].
      - rewrite Nat.eqb_refl. auto.
      - cbn [In] in H. destruct (Nat.eqb_spec x v) as [->|]; [tauto|]. f_equal. apply IH; [cbn in Hk; lia|tauto]. }
    apply G; auto.
  Qed.
End NewRoot.
