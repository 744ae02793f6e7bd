(** sub-network below a node; eval_diag(dims). *)
From Coq Require Import List Arith Lia Bool Sorted Ring Permutation.
From Verif.Base Require Import ListAux CRing Index.
From Verif.Model Require Import Utils Numpy FullTensor DimensionTree TreeBased TreeEval TreeReduce.
From Verif.Spec Require Import TensorSpec TreeSpec TreeTensorSpec.
From Verif.Proofs Require Import NumpyP FullTensorP FullTensorP3 FullTensorP4 FunctionsP DimTreeP DimTreeP2 DimTreeP4 DimTreeP5 TreeTensorP TreeTensorP2 TreeTensorP3 TreeTensorP4 TreeTensorP5 TreeTensorP18 TreeTensorP19 TreeTensorP20 TreeTensorP22 TreeTensorP24 TreeTensorP25.
Import ListNotations.

Lemma flat_map_one {A B} (f : A -> list B) l c : NoDup l -> In c l -> (forall x, In x l -> x <> c -> f x = []) -> flat_map f l = f c.
Proof.
  intros N Hc Hf. induction N as [|a l Ha Hl IH]; [destruct Hc|]. cbn [flat_map]. destruct Hc as [->|Hc].
  - replace (flat_map f l) with (@nil B); [apply app_nil_r|]. symmetry. assert (G : forall x, In x l -> f x = []) by (intros x Hx; apply Hf; [simpl; auto|intros ->; contradiction]).
    clear - G. induction l as [|b l IH]; auto. cbn [flat_map]. rewrite (G b), IH; simpl; auto. intros x Hx. apply G. simpl; auto.
  - rewrite (Hf a); [|simpl; auto|intros ->; contradiction]. cbn [app]. apply IH; auto. intros x Hx. apply Hf. simpl; auto.
Qed.
Lemma flat_map_none {A B} (f : A -> list B) l : (forall x, In x l -> f x = []) -> flat_map f l = [].
Proof. intros G. induction l as [|b l IH]; auto. cbn [flat_map]. rewrite (G b), IH; simpl; auto. intros x Hx. apply G. simpl; auto. Qed.
Lemma filter_flat_map {A B} (g : B -> bool) (f : A -> list B) l : filter g (flat_map f l) = flat_map (fun x => filter g (f x)) l.
Proof. induction l as [|a l IH]; auto. cbn [flat_map]. rewrite filter_app, IH. auto. Qed.

Section DfsOrder.
  Variables (t : dtree) (r : nat).
  Hypothesis T : rooted_tree t r.
  Lemma desc_children m : node t m -> forall f n, node t n -> (nbn t - level t n <= f)%nat ->
    (below t n m -> filter (adj t m) (desc_loop t f n) = children t m) /\ (~ below t n m -> filter (adj t m) (desc_loop t f n) = []).
  Proof.
    intros Hm. induction f as [|f IH]; intros n Hn Hf; pose proof (level_lt t r T n Hn); [lia|].
    cbn [desc_loop]. rewrite filter_flat_map.
    assert (Hc : forall c, In c (children t n) -> edge t n c /\ node t c /\ (nbn t - level t c <= f)%nat).
    { intros c Hc. apply in_children in Hc; auto. split; auto. split; [apply Hc|]. pose proof (level_edge t r T n c Hc). lia. }
    assert (Hadj : forall c, In c (children t n) -> adj t m c = (m =? n)).
    { intros c Hc0. destruct (Hc c Hc0) as (He & Hcn & _). destruct (Nat.eqb_spec m n) as [->|N]; [apply He|]. destruct (adj t m c) eqn:E; auto. destruct N. apply (rt_uniq t r T m n c); auto. split; auto. }
    assert (Hnb : forall c, In c (children t n) -> ~ below t c n).
    { intros c Hc0 [k Hk]. destruct (Hc c Hc0) as (He & Hcn & _). pose proof (level_below t r T c n k Hcn Hk). pose proof (level_edge t r T n c He). lia. }
    destruct (Nat.eq_dec m n) as [->|N].
    - split; [intros _|intros Q; destruct Q; apply below_refl].
      transitivity (flat_map (fun c => [c]) (children t n)); [|clear; induction (children t n); cbn; auto; f_equal; auto].
      assert (G : forall l, incl l (children t n) -> flat_map (fun c => filter (adj t n) (c :: desc_loop t f c)) l = flat_map (fun c => [c]) l); [|apply G, incl_refl].
      induction l as [|c l IHl]; intros Hl; auto. cbn [flat_map filter]. assert (Hc0 : In c (children t n)) by (apply Hl; simpl; auto). rewrite Hadj, Nat.eqb_refl by auto.
      destruct (Hc c Hc0) as (He & Hcn & Hfc). rewrite (proj2 (IH c Hcn Hfc)) by (apply Hnb; auto). cbn [filter] in IHl. rewrite IHl by (intros x Hx; apply Hl; simpl; auto). auto.
    - assert (Hb : forall c, In c (children t n) -> filter (adj t m) (c :: desc_loop t f c) = filter (adj t m) (desc_loop t f c)).
      { intros c Hc0. cbn [filter]. rewrite Hadj by auto. destruct (Nat.eqb_spec m n); [contradiction|]. auto. }
      split; intros Hbel.
      + apply below_step in Hbel. destruct Hbel as [|(c & He & Hcm)]; [contradiction|]. assert (Hc0 : In c (children t n)) by (apply in_children; auto).
        rewrite (flat_map_one _ (children t n) c); [| |auto|].
        * rewrite Hb by auto. destruct (Hc c Hc0) as (_ & Hcn & Hfc). apply (proj1 (IH c Hcn Hfc)); auto.
        * apply NoDup_children.
        * intros x Hx Nx. rewrite Hb by auto. destruct (Hc x Hx) as (Hex & Hxn & Hfx). apply (proj2 (IH x Hxn Hfx)). intros Q. apply Nx. apply (siblings_disjoint t r T n x c m); auto.
      + apply flat_map_none. intros c Hc0. rewrite Hb by auto. destruct (Hc c Hc0) as (He & Hcn & Hfc). apply (proj2 (IH c Hcn Hfc)). intros Q. apply Hbel. apply below_step. right. exists c. auto.
  Qed.
  Lemma sub_children a m : node t a -> below t a m -> filter (adj t m) (a :: descendants t a) = children t m.
  Proof.
    intros Ha Hb. assert (Hm : node t m) by (apply (below_node t a m); auto). cbn [filter]. replace (adj t m a) with false.
    - apply (proj1 (desc_children m Hm (nbn t) a Ha (Nat.le_sub_l _ _))); auto.
    - symmetry. destruct (adj t m a) eqn:E; auto. assert (He : edge t m a) by (split; auto). destruct Hb as [k Hk]. pose proof (level_below t r T a m k Ha Hk). pose proof (level_edge t r T m a He). lia.
  Qed.
End DfsOrder.

Lemma filter_positions (p : nat -> bool) (l : list nat) : NoDup l ->
  map S (filter (fun k => p (nth k l 0)) (seq 0 (length l))) = map (fun x => S (index_of x l)) (filter p l).
Proof.
  intros N. assert (E : l = map (fun k => nth k l 0) (seq 0 (length l))) by (symmetry; apply map_seq_nth).
  transitivity (map (fun x => S (index_of x l)) (map (fun k => nth k l 0) (filter (fun k => p (nth k l 0)) (seq 0 (length l))))).
  - rewrite map_map. apply map_ext_in. intros k Hk. apply filter_In in Hk. destruct Hk as [Hk _]. apply in_seq in Hk. rewrite index_of_NoDup; auto. lia.
  - f_equal. transitivity (filter p (map (fun k => nth k l 0) (seq 0 (length l)))); [|rewrite <- E; auto]. generalize (seq 0 (length l)) as ks. induction ks as [|k ks IH]; auto. cbn [filter map]. destruct (p (nth k l 0)); cbn [map]; rewrite IH; auto.
Qed.

Section SubNet.
  Context {R : Type} {CR : CRing R}.
  Add Ring Rrt27 : rth.
  Local Open Scope cr_scope.
  Variables (X : tbt R) (r a : nat).
  Hypothesis O : tb_ok X r.
  Hypothesis Ha : node (ttree X) a.
  Hypothesis Haa : active X a = true.
  Local Notation t := (ttree X).
  Let V : dim_tree t r := proj1 O.
  Let T : rooted_tree t r := proj1 (proj1 O).
  Definition sub_nod : list nat := a :: descendants (ttree X) a.
  Definition sub_d : list nat := filter (fun x => inb x (sel 0%nat (d2i (ttree X)) (dims (ttree X) a))) sub_nod.
  Definition sub_emb (is : list nat) : list nat := map (fun x => nth (index_of x sub_d) is 0%nat) (d2i (ttree X)).
  Definition sub_net : tbt R := TB (dt_restrict sub_nod sub_d (adj (ttree X))) (map (nthc (cores X)) sub_nod).
  Lemma sub_nod_spec : NoDup sub_nod /\ forall n, In n sub_nod <-> below t a n.
  Proof. exact (sub_nodes t r a V Ha). Qed.
  Lemma dt_sub_eq : dt_sub t a = (dt_restrict sub_nod sub_d (adj t), sub_nod).
  Proof.
    unfold dt_sub. fold sub_nod. f_equal. unfold dt_restrict. f_equal. unfold sub_d.
    apply (filter_positions (fun x => inb x (sel 0%nat (d2i t) (dims t a))) sub_nod). apply sub_nod_spec.
  Qed.
  Lemma sub_d_spec n : In n sub_d <-> below t a n /\ is_leaf t n = true.
  Proof.
    unfold sub_d. rewrite filter_In, inb_spec. rewrite (proj2 sub_nod_spec). rewrite (sub_leaves t r a V Ha). tauto.
  Qed.
  Lemma sub_net_ok : tb_ok sub_net 1 /\ tb_shape sub_net = map (tb_size X) sub_d /\ exts sub_net 1 = exts X a /\
    forall is e, valid (map (tb_size X) sub_d) is -> valid (exts X a) e -> tval sub_net 1 is e = tval X a (sub_emb is) e.
  Proof.
    destruct sub_nod_spec as [NK InK]. pose proof sub_d_spec as Ld. set (K := sub_nod) in *. set (d := sub_d) in *.
    assert (Nn : forall n, In n K -> node t n) by (intros n Hn; apply (below_node t a n); auto; apply InK; auto).
    assert (Hr : In a K) by (apply InK; apply below_refl).
    assert (E1 : S (index_of a K) = 1%nat) by (unfold K, sub_nod; cbn [index_of]; rewrite Nat.eqb_refl; auto).
    assert (Hac : forall n, activec (cores X) n = active X n) by reflexivity.
    assert (Hd : NoDup d) by (unfold d, sub_d; apply NoDup_filter; apply NK).
    assert (Hroot : forall p, In p K -> adj t p a = false).
    { intros p Hp. destruct (adj t p a) eqn:E; auto. assert (He : edge t p a) by (split; auto). apply InK in Hp. destruct Hp as [k Hk]. pose proof (level_below t r T a p k Ha Hk). pose proof (level_edge t r T p a He). lia. }
    assert (Hpar : forall c, In c K -> c <> a -> exists p, In p K /\ adj t p c = true /\ (level t p < level t c)%nat /\ forall q, In q K -> adj t q c = true -> q = p).
    { intros c Hc Hne. pose proof (Nn c Hc) as Hcn. apply InK in Hc. destruct Hc as [k Hk]. destruct k as [|k]; [apply depth_inv0 in Hk; congruence|]. apply depth_invS in Hk. destruct Hk as (p & Hp & He).
      exists p. split; [apply InK; exists k; auto|]. split; [apply He|]. split; [rewrite (level_edge t r T p c He); lia|]. intros q Hq Hqa. apply (rt_uniq t r T q p c); auto. split; auto. }
    assert (Hdl : forall n, In n d <-> In n K /\ forall c, In c K -> adj t n c = false).
    { intros n. rewrite Ld, InK. split; intros [Hb Hl]; (split; [auto|]); assert (Hn : node t n) by (apply (below_node t a n); auto).
      - intros c Hc. destruct (adj t n c) eqn:E; auto. apply (leaf_iff t r V) in Hl. destruct Hl as [_ Hl]. destruct (Hl c). split; auto.
      - apply (leaf_iff t r V). split; auto. intros c He. assert (Hc : In c K). { apply InK. apply (below_trans t a n c); auto. apply below_step. right. exists c. split; auto. apply below_refl. }
        specialize (Hl c Hc). destruct He as (_ & _ & He). congruence. }
    assert (Hch : forall n, In n K -> filter (adj t n) K = children t n) by (intros n Hn; apply (sub_children t r T a n Ha); apply InK; auto).
    assert (Lf : forall n, In n K -> inb n d = is_leaf t n).
    { intros n Hn. destruct (is_leaf t n) eqn:E; [apply inb_spec, Ld; split; auto; apply InK; auto|]. apply inb_false. intros Q. apply Ld in Q. destruct Q. congruence. }
    assert (Hint : forall n, In n K -> ~ In n d -> activec (cores X) n = true).
    { intros n Hn Hnd. apply (ok_internal X r O n); auto. rewrite <- Lf by auto. apply inb_false; auto. }
    assert (Hshape : forall n, In n K -> activec (cores X) n = true -> shape (nthc (cores X) n) = (if inb n d then [tb_size X n] else map (csize X) (children t n)) ++ exts X n).
    { intros n Hn Hca. rewrite Lf by auto. change (nthc (cores X) n) with (core X n). rewrite (ok_shape X n (Nn n Hn) Hca). f_equal. destruct (is_leaf t n) eqn:El; [rewrite (heads_leaf X r O n El Hca); unfold tb_size; rewrite Hac in Hca; rewrite Hca; auto|apply (heads_internal X r O n (Nn n Hn) El)]. }
    assert (Hext : forall n, In n K -> n <> a -> activec (cores X) n = true -> exts X n = [csize X n]).
    { intros n Hn Hne Hca. unfold csize. rewrite Hac in Hca. rewrite Hca. apply (ok_exts_rank X r O); auto. intros ->. destruct (Hpar r Hn Hne) as (p & Hp & He & _). apply (rt_no_edge t r T p). split; auto. }
    assert (Hextr : (length (exts X a) <= 1)%nat).
    { destruct (Nat.eq_dec a r) as [->|N]; [apply (ok_exts_root X r O)|]. rewrite (ok_exts_rank X r O a Ha Haa N). auto. }
    assert (Hina : forall n, In n K -> activec (cores X) n = false -> csize X n = tb_size X n).
    { intros n Hn Hca. unfold csize. rewrite Hac in Hca. rewrite Hca. auto. }
    assert (Eix : forall n is, In n d -> nth (index_of n (d2i t)) (sub_emb is) 0%nat = nth (index_of n d) is 0%nat).
    { intros n is Hn. apply Ld in Hn. destruct Hn as [_ Hl]. destruct (leaf_index t n Hl) as [Q1 Q2]. unfold sub_emb. rewrite map_nth_in with (da := 0%nat) by auto. rewrite Q2. auto. }
    rewrite <- E1. split; [apply (rs_ok K d (adj t) NK a (level t) Hr Hroot Hpar Hd Hdl (cores X) (children t) (csize X) (tb_size X) (exts X)); auto|]. split; [|split].
    - apply (rs_shape K d (adj t) NK a (level t) Hr Hroot Hpar Hd Hdl (cores X) (children t) (csize X) (tb_size X) (exts X)); auto.
    - apply (rs_exts K d (adj t) NK a Hdl (cores X) (children t) (csize X) (tb_size X) (exts X)); auto.
    - intros is e His He.
      apply (rs_tval K d (adj t) NK a (level t) Hr Hroot Hpar Hd Hdl (cores X) (children t) (csize X) (tb_size X) (exts X)) with (G := fun n is e => tval X n (sub_emb is) e); auto.
      + intros n is' e' Hn Hca _ _. pose proof (proj1 (Ld n) Hn) as [_ Hl]. rewrite (tval_leaf X r V n (sub_emb is') e' Hl Hca). rewrite Eix by auto. auto.
      + intros n is' k Hn Hca _ _. pose proof (proj1 (Ld n) Hn) as [_ Hl]. rewrite (tval_inactive X r V n (sub_emb is') [k] Hl Hca). rewrite Eix by auto. cbn [list_eqb]. rewrite andb_true_r. auto.
      + intros n is' e' Hn Hnd _ _. assert (El : is_leaf t n = false) by (rewrite <- Lf by auto; apply inb_false; auto). rewrite (tval_internal X r V n (sub_emb is') e' (Nn n Hn) El). rewrite (heads_internal X r O n (Nn n Hn) El). auto.
      + rewrite Hac, Haa. auto.
  Qed.
End SubNet.
