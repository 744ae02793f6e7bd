(** Proofs for Model/RankAdapt.v: admissible ranks. *)
From Coq Require Import List Arith Lia Bool Permutation Sorted.
From Verif.Base Require Import ListAux CRing Index.
From Verif.Model Require Import Sorting Utils Numpy FullTensor DimensionTree TreeBased RankAdapt.
From Verif.Spec Require Import TensorSpec TreeSpec TreeTensorSpec RankSpec.
From Verif.Proofs Require Import NumpyP DimTreeP TreeTensorP TreeTensorP3 TreeTensorP4 TreeTensorP18 MIMoreP FunctionsP.
Import ListNotations.

Lemma adj_dups_in l x : In x (adj_dups l) -> In x l.
Proof.
  induction l as [|a l IH]; auto. destruct l as [|b l]; [cbn; tauto|]. change (adj_dups (a :: b :: l)) with (if a =? b then a :: adj_dups (b :: l) else adj_dups (b :: l)).
  destruct (a =? b); intros H; [destruct H as [-> | H]; [left; auto|]|]; right; apply IH; auto.
Qed.
Lemma adj_dups_sorted l : StronglySorted le l -> StronglySorted le (adj_dups l).
Proof.
  intros H. induction H as [|a l S0 IH F]; [constructor|]. destruct l as [|b l]; [constructor|]. change (adj_dups (a :: b :: l)) with (if a =? b then a :: adj_dups (b :: l) else adj_dups (b :: l)). destruct (a =? b); auto. constructor; auto.
  apply Forall_forall. intros x Hx. rewrite Forall_forall in F. apply F. apply (adj_dups_in (b :: l)). auto.
Qed.
Lemma sorted_lt_of l : StronglySorted le l -> NoDup l -> StronglySorted lt l.
Proof.
  intros H. induction H as [|a l S0 IH F]; intros ND; [constructor|]. inversion ND as [|? ? N1 N2]; subst. constructor; auto. apply Forall_forall. intros x Hx. rewrite Forall_forall in F.
  specialize (F x Hx). assert (x <> a) by (intros ->; auto). lia.
Qed.
Lemma fast_intersect_sorted a b : NoDup a -> NoDup b -> StronglySorted lt (fast_intersect a b).
Proof. intros Ha Hb. apply sorted_lt_of; [apply adj_dups_sorted, sort_nat_sorted|apply NoDup_fast_intersect; auto]. Qed.
Lemma fold_put (l : list nat) (f : nat -> nat) : forall v, NoDup l -> (forall n, In n l -> 1 <= n <= length v) ->
  let w := fold_left (fun w p => upd (fst p) (snd p) w) (combine (map (fun n => n - 1) l) (map f l)) v in
  length w = length v /\ (forall n, In n l -> nth (n - 1) w 0 = f n) /\ (forall n, 1 <= n -> ~ In n l -> nth (n - 1) w 0 = nth (n - 1) v 0).
Proof.
  induction l as [|a l IH]; intros v ND HL; [cbn; split; [|split]; tauto|]. inversion ND as [|? ? N1 N2]; subst. cbn [map combine fold_left fst snd]. pose proof (HL a (or_introl eq_refl)) as Ha.
  assert (HL' : forall n, In n l -> 1 <= n <= length (upd (a - 1) (f a) v)) by (intros n Hn; rewrite upd_length; apply HL; right; auto).
  destruct (IH (upd (a - 1) (f a) v) N2 HL') as (L & E1 & E2). rewrite upd_length in L. split; auto. split.
  - intros n [<- | Hn]; auto. rewrite E2 by (auto; lia). apply nth_upd_eq. lia.
  - intros n H1 Hn. cbn [In] in Hn. rewrite E2 by tauto. apply nth_upd_neq. assert (n <> a) by (intros ->; auto). lia.
Qed.

Section RankP1.
  Context {R : Type} {CR : CRing R}.
  Variables (X : tbt R) (r : nat).
  Hypothesis O : tb_ok X r.
  Local Notation t := (ttree X).
  Lemma inactive_leaf n : node t n -> active X n = false -> is_leaf t n = true.
  Proof. intros Hn Ha. destruct (is_leaf t n) eqn:E; auto. rewrite (ok_internal X r O n Hn E) in Ha. discriminate. Qed.
  Lemma non_active_in n : In n (non_active_nodes X) <-> node t n /\ active X n = false.
  Proof. unfold non_active_nodes. rewrite filter_In, in_nodes, negb_true_iff. tauto. Qed.
  Lemma leaf_in n : In n (d2i t) <-> is_leaf t n = true.
  Proof.
    split.
    - intros Hn. apply (In_nth _ _ 0) in Hn. destruct Hn as (k & Hk & <-). apply d2i_leaf. auto.
    - intros Hl. destruct (leaf_index t n Hl) as [H1 H2]. rewrite <- H2. apply nth_In. auto.
  Qed.
  Lemma inact_leaves : fast_intersect (d2i t) (non_active_nodes X) = non_active_nodes X.
  Proof.
    pose proof (NoDup_d2i t r (proj1 O)) as N1. assert (N2 : NoDup (non_active_nodes X)) by (apply NoDup_filter, NoDup_nodes).
    apply sorted_same; [apply fast_intersect_sorted; auto|apply sorted_filter_seq|]. intros n. rewrite fast_intersect_spec by auto. rewrite leaf_in. split; [tauto|]. intros Hn. split; auto.
    apply non_active_in in Hn. apply inactive_leaf; tauto.
  Qed.
  Lemma non_active_dims_in mu : In mu (non_active_dims X) <-> mu < tb_order X /\ active X (nth mu (d2i t) 0) = false.
  Proof.
    unfold non_active_dims. rewrite filter_In, in_seq. split.
    - intros [H1 H2]. split; [lia|]. destruct (active X (nth mu (d2i t) 0)) eqn:E; auto. exfalso. apply negb_true_iff, inb_false in H2. apply H2. unfold active_dims. apply filter_In. split; auto. apply in_seq. lia.
    - intros [H1 H2]. split; [lia|]. apply negb_true_iff, inb_false. unfold active_dims. rewrite filter_In. intros [_ H3]. congruence.
  Qed.
  Lemma nad_leaves n : In n (map (fun mu => nth mu (d2i t) 0) (non_active_dims X)) <-> In n (non_active_nodes X).
  Proof.
    rewrite in_map_iff, non_active_in. split.
    - intros (mu & <- & Hmu). apply non_active_dims_in in Hmu. split; [apply (d2i_node t r (proj1 O)); unfold tb_order in *; tauto|tauto].
    - intros [Hn Ha]. destruct (leaf_index t n (inactive_leaf n Hn Ha)) as [H1 H2]. exists (index_of n (d2i t)). split; auto. apply non_active_dims_in. rewrite H2. auto.
  Qed.
  Lemma nad_NoDup : NoDup (map (fun mu => nth mu (d2i t) 0) (non_active_dims X)).
  Proof.
    apply NoDup_map_inj; [|apply NoDup_filter, seq_NoDup]. intros a b Ha Hb E. apply non_active_dims_in in Ha. apply non_active_dims_in in Hb. unfold tb_order in *.
    apply (proj1 (NoDup_nth (d2i t) 0) (NoDup_d2i t r (proj1 O))); tauto.
  Qed.
  Lemma put_values : inactive_sorted X -> sel 0 (tb_shape X) (non_active_dims X) = map (leaf_size X) (non_active_nodes X).
  Proof.
    intros HS. assert (E : sel 0 (tb_shape X) (non_active_dims X) = map (leaf_size X) (map (fun mu => nth mu (d2i t) 0) (non_active_dims X))).
    { unfold sel. rewrite map_map. apply map_ext_in. intros mu Hmu. apply non_active_dims_in in Hmu. unfold leaf_size. rewrite index_of_NoDup; auto; [apply (NoDup_d2i t r (proj1 O))|apply Hmu]. }
    rewrite E. destruct HS as [HS | HS].
    - f_equal. apply sorted_same; [|apply sorted_filter_seq|exact nad_leaves].
      assert (K : StronglySorted lt (non_active_dims X)) by apply sorted_filter_seq. assert (HI : forall mu, In mu (non_active_dims X) -> mu < tb_order X /\ active X (nth mu (d2i t) 0) = false) by (intros mu; apply non_active_dims_in).
      revert HI. clear E. induction K as [|a l S0 IH F]; intros HI; cbn [map]; [constructor|]. constructor; [apply IH; intros mu Hmu; apply HI; right; auto|].
      apply Forall_forall. intros n Hn. apply in_map_iff in Hn. destruct Hn as (mu & <- & Hmu). rewrite Forall_forall in F. specialize (F mu Hmu). destruct (HI a (or_introl eq_refl)) as [A1 A2]. destruct (HI mu (or_intror Hmu)) as [B1 B2]. apply HS; auto.
    - assert (L : length (map (fun mu => nth mu (d2i t) 0) (non_active_dims X)) = length (non_active_nodes X)).
      { apply Nat.le_antisymm; apply NoDup_incl_length; try (intros n Hn; apply nad_leaves; auto); [apply nad_NoDup|apply NoDup_filter, NoDup_nodes]. }
      set (l := map (fun mu => nth mu (d2i t) 0) (non_active_dims X)) in *. apply nth_ext' with (d := 0); [rewrite !map_length; auto|]. intros k Hk. rewrite map_length in Hk.
      rewrite !(map_nth_in _ _ _ 0) by lia. assert (H1 : In (nth k l 0) (non_active_nodes X)) by (apply nad_leaves; apply nth_In; auto). assert (H2 : In (nth k (non_active_nodes X) 0) (non_active_nodes X)) by (apply nth_In; lia).
      apply non_active_in in H1. apply non_active_in in H2. apply HS; tauto.
  Qed.
  Lemma act_leaf_size n : node t n -> is_leaf t n = true -> active X n = true -> leaf_size X n = nth 0 (shape (core X n)) 0.
  Proof. intros Hn Hl Ha. unfold leaf_size. rewrite tb_shape_leaf by auto. unfold tb_size. rewrite Ha. auto. Qed.
  Lemma fi_active l n : NoDup l -> In n (fast_intersect l (active_nodes X)) <-> In n l /\ node t n /\ active X n = true.
  Proof. intros ND. rewrite fast_intersect_spec by (auto; apply NoDup_filter, NoDup_nodes). unfold active_nodes. rewrite filter_In, in_nodes. tauto. Qed.

  Lemma admissible_spec v : length v = nbn t -> exts X r = [] \/ exts X r = [1] -> inactive_sorted X ->
    exists b, tb_is_admissible X v = Some b /\ (b = true <-> admissible X r v).
  Proof.
    intros LV HX HS. pose proof (proj1 (proj1 O)) as T. pose proof (rt_root _ _ T) as Hr. unfold tb_is_admissible. rewrite (root_eq t r T).
    assert (HR1 : prodn (exts X r) = 1) by (destruct HX as [-> | ->]; auto).
    assert (Hr' : 1 <= r <= length v) by (rewrite LV; exact Hr).
    set (v1 := upd (r - 1) 1 v). assert (L1 : length v1 = length v) by apply upd_length.
    assert (V1 : forall n, node t n -> n <> r -> nth (n - 1) v1 0 = rk v n) by (intros n Hn NE; unfold v1; rewrite nth_upd_neq; auto; destruct Hn; lia).
    assert (NR : forall n, active X n = false -> n <> r) by (intros n Ha ->; pose proof (ok_root X r O); congruence).
    destruct (existsb (fun n => negb (nth (n - 1) v1 0 =? 0)) (non_active_nodes X)) eqn:EX.
    - exists false. split; auto. split; [discriminate|]. intros (A1 & _). exfalso. apply existsb_exists in EX. destruct EX as (n & Hn & E). apply non_active_in in Hn. destruct Hn as [Hn Ha].
      rewrite V1 in E by auto. rewrite (A1 n Hn Ha) in E. discriminate.
    - assert (Z1 : forall n, node t n -> active X n = false -> rk v n = 0).
      { intros n Hn Ha. rewrite <- (V1 n Hn (NR n Ha)). destruct (nth (n - 1) v1 0 =? 0) eqn:E; [apply Nat.eqb_eq; auto|]. exfalso. assert (K : existsb (fun n => negb (nth (n - 1) v1 0 =? 0)) (non_active_nodes X) = true); [|congruence].
        apply existsb_exists. exists n. rewrite non_active_in, E. auto. }
      rewrite inact_leaves, (put_values HS). unfold np_put. rewrite !map_length, Nat.eqb_refl. cbn [bind].
      destruct (fold_put (non_active_nodes X) (leaf_size X) v1) as (L2 & P1 & P2).
      { apply NoDup_filter, NoDup_nodes. } { intros n Hn. apply non_active_in in Hn. rewrite L1, LV. apply Hn. }
      set (v2 := fold_left _ _ v1) in *. set (k2 := fun n => nth (n - 1) v2 0).
      assert (K2 : forall n, node t n -> k2 n = axis_size X r v n).
      { intros n Hn. unfold k2, axis_size. destruct (active X n) eqn:Ha.
        - rewrite P2; [|apply Hn|rewrite non_active_in; intros [_ K]; congruence]. destruct (Nat.eqb_spec n r) as [-> | NE]; [|apply V1; auto]. unfold v1. rewrite nth_upd_eq by lia. auto.
        - rewrite P1 by (apply non_active_in; auto). rewrite (proj2 (Nat.eqb_neq n r) (NR n Ha)). auto. }
      assert (KC : forall n f, node t n -> map k2 (filter f (children t n)) = map (axis_size X r v) (filter f (children t n))).
      { intros n f Hn. apply map_ext_in. intros c Hc. apply filter_In in Hc. apply K2. apply (proj1 (in_children t n c Hn) (proj1 Hc)). }
      assert (KC0 : forall n, node t n -> map k2 (children t n) = map (axis_size X r v) (children t n)) by (intros n Hn; apply map_ext_in; intros c Hc; apply K2; apply (proj1 (in_children t n c Hn) Hc)).
      eexists. split; [reflexivity|]. rewrite andb_true_iff, !forallb_forall. assert (NI : NoDup (internal_nodes t)) by (apply NoDup_filter, NoDup_nodes).
      assert (NL : NoDup (filter (is_leaf t) (nodes t))) by (apply NoDup_filter, NoDup_nodes). split.
      + intros [H1 H2].
        assert (H1' : forall n, node t n -> is_leaf t n = false -> axis_size X r v n <= prodn (map (axis_size X r v) (children t n)) /\
            forall c, edge t n c -> active X c = true -> axis_size X r v c <= axis_size X r v n * prodn (map (axis_size X r v) (filter (fun c' => negb (c' =? c)) (children t n)))).
        { intros n Hn Hl. assert (K : In n (fast_intersect (internal_nodes t) (active_nodes X))).
          { apply fi_active; auto. split; [|split; auto; apply (ok_internal X r O); auto]. unfold internal_nodes. apply filter_In. rewrite in_nodes, Hl. auto. }
          specialize (H1 n K). apply andb_true_iff in H1. destruct H1 as [H1 H1b]. apply Nat.leb_le in H1. change (k2 n <= prodn (map k2 (children t n))) in H1. rewrite (K2 n Hn), KC0 in H1 by auto. split; auto.
          intros c Hc Hac. rewrite forallb_forall in H1b. specialize (H1b c). rewrite fi_active in H1b by apply (NoDup_children t n). assert (Hcn : node t c) by apply Hc.
          specialize (H1b (conj (proj2 (in_children t n c Hn) Hc) (conj Hcn Hac))). apply Nat.leb_le in H1b.
          change (k2 c <= k2 n * prodn (map k2 (filter (fun c' => negb (c' =? c)) (children t n)))) in H1b. rewrite (K2 c Hcn), (K2 n Hn), KC in H1b by auto. auto. }
        split; auto. split; [|split].
        * intros n Hn Ha Hl. assert (K : In n (fast_intersect (filter (is_leaf t) (nodes t)) (active_nodes X))) by (apply fi_active; auto; split; auto; apply filter_In; rewrite in_nodes; auto).
          specialize (H2 n K). apply Nat.leb_le in H2. change (k2 n <= nth 0 (shape (core X n)) 0) in H2. rewrite (K2 n Hn) in H2. rewrite act_leaf_size; auto.
        * intros n Hn Hl. apply H1'; auto.
        * intros n c He Hac. apply H1'; auto; [apply He|]. destruct (is_leaf t n) eqn:E; auto. exfalso. apply (proj1 (leaf_iff t r (proj1 O) n)) in E. destruct E as [_ E]. apply (E c He).
      + intros (A1 & A2 & A3 & A4). split.
        * intros n Hn. apply fi_active in Hn; auto. destruct Hn as (Hi & Hn & Ha). unfold internal_nodes in Hi. apply filter_In in Hi. destruct Hi as [_ Hi]. apply negb_true_iff in Hi.
          apply andb_true_iff. split.
          -- apply Nat.leb_le. change (k2 n <= prodn (map k2 (children t n))). rewrite (K2 n Hn), KC0 by auto. apply A3; auto.
          -- apply forallb_forall. intros c Hc. apply fi_active in Hc; [|apply (NoDup_children t n)]. destruct Hc as (Hc & Hcn & Hca). apply (proj1 (in_children t n c Hn)) in Hc.
             apply Nat.leb_le. change (k2 c <= k2 n * prodn (map k2 (filter (fun c' => negb (c' =? c)) (children t n)))). rewrite (K2 c Hcn), (K2 n Hn), KC by auto. apply A4; auto.
        * intros n Hn. apply fi_active in Hn; auto. destruct Hn as (Hi & Hn & Ha). apply filter_In in Hi. destruct Hi as [_ Hi]. apply Nat.leb_le. change (k2 n <= nth 0 (shape (core X n)) 0). rewrite (K2 n Hn), <- act_leaf_size; auto.
  Qed.
End RankP1.
