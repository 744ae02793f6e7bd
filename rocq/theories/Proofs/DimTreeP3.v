(** Dimension trees: equality. *)
From Coq Require Import List Arith Lia Bool Permutation.
From Verif.Base Require Import ListAux CRing Index.
From Verif.Model Require Import Sorting Numpy DimensionTree.
From Verif.Spec Require Import TreeSpec.
From Verif.Proofs Require Import NumpyP DimTreeP DimTreeP2.
Import ListNotations.

Lemma np_sort_perm l : Permutation (np_sort l) l.
Proof. unfold np_sort. apply sel_perm with (n := length l); auto. apply np_argsort_spec. Qed.
Lemma np_sort_sorted l i j : i <= j -> j < length l -> nth i (np_sort l) 0 <= nth j (np_sort l) 0.
Proof.
  intros Hij Hj. destruct (Nat.eq_dec i j) as [->|]; auto. apply np_argsort_spec; lia.
Qed.
Lemma np_sort_length l : length (np_sort l) = length l.
Proof. apply Permutation_length, np_sort_perm. Qed.
Lemma sorted_perm_eq : forall (l m : list nat), Permutation l m ->
  (forall i j, i <= j -> j < length l -> nth i l 0 <= nth j l 0) ->
  (forall i j, i <= j -> j < length m -> nth i m 0 <= nth j m 0) -> l = m.
Proof.
  induction l as [|a l IH]; intros m Hp Hl Hm.
  - apply Permutation_nil in Hp. auto.
  - destruct m as [|b m]; [apply Permutation_sym, Permutation_nil in Hp; discriminate|].
    assert (a = b).
    { apply Nat.le_antisymm.
      - assert (Hb : In b (a :: l)) by (apply (Permutation_in _ (Permutation_sym Hp)); simpl; auto).
        apply In_nth with (d := 0) in Hb. destruct Hb as (k & Hk & <-). apply (Hl 0 k); auto; lia.
      - assert (Ha : In a (b :: m)) by (apply (Permutation_in _ Hp); simpl; auto).
        apply In_nth with (d := 0) in Ha. destruct Ha as (k & Hk & <-). apply (Hm 0 k); auto; lia. }
    subst b. f_equal. apply Permutation_cons_inv in Hp. apply IH; auto.
    + intros i j Hij Hj. apply (Hl (S i) (S j)); simpl; lia.
    + intros i j Hij Hj. apply (Hm (S i) (S j)); simpl; lia.
Qed.
Lemma np_sort_eq l m : np_sort l = np_sort m <-> Permutation l m.
Proof.
  split; intros H.
  - rewrite <- (np_sort_perm l), H. apply np_sort_perm.
  - apply sorted_perm_eq.
    + rewrite (np_sort_perm l), H. symmetry; apply np_sort_perm.
    + intros i j Hij Hj. rewrite np_sort_length in Hj. apply np_sort_sorted; auto.
    + intros i j Hij Hj. rewrite np_sort_length in Hj. apply np_sort_sorted; auto.
Qed.
Lemma sort_eqb l m : list_eqb (np_sort l) (np_sort m) = true <-> Permutation l m.
Proof. rewrite list_eqb_spec. apply np_sort_eq. Qed.

Lemma in_nodes_with_level t l n : In n (nodes_with_level t l) <-> node t n /\ level t n = l.
Proof. unfold nodes_with_level. rewrite filter_In, in_nodes, Nat.eqb_eq. tauto. Qed.

Lemma dt_eq_levels_true a b ls : dt_eq_levels a b ls = true ->
  (forall l, In l ls -> length (nodes_with_level a l) = length (nodes_with_level b l)) ->
  forall l, In l ls -> forall i, In i (nodes_with_level a l) ->
    exists j, In j (nodes_with_level b l) /\ Permutation (dims a i) (dims b j).
Proof.
  induction ls as [|l0 ls IH]; simpl; intros H Hc l Hl i Hi; [contradiction|].
  rewrite (Hc l0), Nat.eqb_refl in H by auto. simpl in H.
  destruct (forallb _ _) eqn:E; [|discriminate]. destruct Hl as [<-|Hl]; [|eapply IH; eauto].
  rewrite forallb_forall in E. specialize (E i Hi). apply existsb_exists in E. destruct E as (j & Hj & Hs).
  exists j. split; auto. apply sort_eqb; auto.
Qed.

Section Eq.
  Variables (a b : dtree) (ra rb : nat).
  Hypothesis (Va : dim_tree a ra) (Vb : dim_tree b rb).
  Let Ta : rooted_tree a ra := proj1 Va.
  Let Tb : rooted_tree b rb := proj1 Vb.

  Lemma eqb_same_tree : dt_eqb a b = true ->
    (forall l, length (nodes_with_level a l) = length (nodes_with_level b l)) -> same_tree a b.
  Proof.
    unfold dt_eqb. destruct (_ && _) eqn:E; [|discriminate]. rewrite !andb_true_iff, !Nat.eqb_eq in E.
    destruct E as [[Ed En] El]. intros H Hc.
    assert (Hm : forall i, node a i -> exists j, node b j /\ level b j = level a i /\ Permutation (dims a i) (dims b j)).
    { intros i Hi. destruct (Nat.eq_dec (level a i) 0) as [E0|E0].
      - apply (level_zero a ra Ta) in E0 as Er; auto. subst i. exists rb. split; [apply Tb|].
        split; [rewrite (level_root a ra Ta), (level_root b rb Tb); auto|].
        pose proof (dims_root a ra Va) as P1. pose proof (dims_root b rb Vb) as P2.
        unfold is_perm in *. rewrite P1, P2, Ed. auto.
      - destruct (dt_eq_levels_true a b (seq 1 (max_level a)) H (fun l _ => Hc l) (level a i)) with (i := i) as (j & Hj & Hp).
        + apply in_seq. pose proof (level_le_max a ra Ta i Hi). lia.
        + apply in_nodes_with_level; auto.
        + apply in_nodes_with_level in Hj. exists j. tauto. }
    pose (phi := fun i => hd 0 (filter (fun j => (level b j =? level a i) && list_eqb (np_sort (dims a i)) (np_sort (dims b j))) (nodes b))).
    assert (Hphi : forall i, node a i -> node b (phi i) /\ level b (phi i) = level a i /\ Permutation (dims a i) (dims b (phi i))).
    { intros i Hi. destruct (Hm i Hi) as (j & Hj & Hl & Hp). unfold phi.
      set (fl := filter _ _). assert (Hin : In j fl).
      { apply filter_In. split; [apply in_nodes; auto|]. rewrite andb_true_iff, Nat.eqb_eq, sort_eqb; auto. }
      destruct fl as [|x fl'] eqn:Ef; [destruct Hin|]. simpl.
      assert (Hx : In x fl) by (rewrite Ef; simpl; auto). apply filter_In in Hx.
      rewrite in_nodes, andb_true_iff, Nat.eqb_eq, sort_eqb in Hx. tauto. }
    assert (Hinj : forall n m, node a n -> node a m -> phi n = phi m -> n = m).
    { intros n m Hn Hm' E. destruct (Hphi n Hn) as (N1 & N2 & N3), (Hphi m Hm') as (M1 & M2 & M3).
      destruct (dims a n) as [|mu l] eqn:Ed'; [destruct (dims_nonempty a ra Va n Hn Ed')|].
      assert (Hmu1 : In mu (dims a n)) by (rewrite Ed'; simpl; auto).
      assert (Hmu2 : In mu (dims a m)).
      { apply (Permutation_in _ (Permutation_sym M3)). rewrite <- E. apply (Permutation_in _ N3). simpl; auto. }
      apply (in_dims a ra Va) in Hmu1, Hmu2; auto.
      eapply (same_level_disjoint a ra Ta); eauto; [congruence|apply Hmu1|apply Hmu2]. }
    assert (Hsurj : forall j, node b j -> exists i, node a i /\ phi i = j).
    { intros j Hj. assert (Hi : In j (map phi (nodes a))).
      { apply (NoDup_length_incl (l := map phi (nodes a)) (l' := nodes b)).
        - apply NoDup_map_inj; [|apply NoDup_nodes]. intros x y Hx Hy. apply Hinj; apply in_nodes; auto.
        - unfold nodes. rewrite map_length, !seq_length. lia.
        - intros x Hx. apply in_map_iff in Hx. destruct Hx as (i & <- & Hi). apply in_nodes, Hphi. apply in_nodes; auto.
        - apply in_nodes; auto. }
      apply in_map_iff in Hi. destruct Hi as (i & Hi1 & Hi2). exists i. split; auto. apply in_nodes; auto. }
    assert (Hfwd : forall p c, edge a p c -> edge b (phi p) (phi c)).
    { intros p c He. assert (Hp : node a p) by apply He. assert (Hcn : node a c) by apply He.
      destruct (Hphi p Hp) as (P1 & P2 & P3), (Hphi c Hcn) as (C1 & C2 & C3).
      assert (Hne : phi c <> rb).
      { intros E. rewrite E, (level_root b rb Tb), (level_edge a ra Ta _ _ He) in C2. lia. }
      destruct (rt_has_parent b rb Tb _ C1 Hne) as (q & Hq).
      assert (Eq : q = phi p); [|rewrite <- Eq; auto].
      destruct (dims a c) as [|mu l] eqn:Ed'; [destruct (dims_nonempty a ra Va c Hcn Ed')|].
      assert (Hmu : In mu (dims a c)) by (rewrite Ed'; simpl; auto).
      assert (Hmub : In mu (dims b (phi c))) by (apply (Permutation_in _ C3); simpl; auto).
      assert (Hmup : In mu (dims a p)).
      { apply (in_dims a ra Va) in Hmu; auto. apply (in_dims a ra Va); auto. split; [tauto|]. apply below_step. right. exists c; tauto. }
      apply (Permutation_in _ P3) in Hmup. apply (in_dims b rb Vb) in Hmup, Hmub; auto.
      apply (same_level_disjoint b rb Tb q (phi p) (nth mu (d2i b) 0)); auto.
      - apply Hq.
      - rewrite P2. pose proof (level_edge b rb Tb _ _ Hq). pose proof (level_edge a ra Ta _ _ He). lia.
      - apply below_step. right. exists (phi c); tauto.
      - tauto. }
    assert (Hedge : forall p c, node a p -> node a c -> (edge a p c <-> edge b (phi p) (phi c))).
    { intros p c Hp Hcn. split; [apply Hfwd|]. intros He.
      destruct (Nat.eq_dec c ra) as [->|Hne].
      - exfalso. destruct (Hphi ra Hcn) as (_ & L & _). rewrite (level_root a ra Ta), (level_edge b rb Tb _ _ He) in L. lia.
      - destruct (rt_has_parent a ra Ta c Hcn Hne) as (q & Hq). apply Hfwd in Hq as Hq'.
        assert (phi q = phi p) by (eapply (rt_uniq b rb Tb); eauto).
        apply Hinj in H0; [|apply Hq|auto]. subst; auto. }
    split; auto. split; auto. exists phi. split; [intros n Hn; apply Hphi; auto|]. split; auto. split; auto.
    intros mu Hmu. assert (Hl : is_leaf a (nth mu (d2i a) 0) = true) by (apply d2i_leaf; auto).
    assert (Hn : node a (nth mu (d2i a) 0)) by (apply (d2i_node a ra Va); auto).
    destruct (Hphi _ Hn) as (P1 & P2 & P3).
    assert (Hlb : is_leaf b (phi (nth mu (d2i a) 0)) = true).
    { apply (leaf_iff b rb Vb). split; auto. intros c' He. assert (Hc' : node b c') by apply He.
      destruct (Hsurj c' Hc') as (c & Hcn & <-). apply Hedge in He; auto.
      apply (leaf_iff a ra Va) in Hl. destruct Hl as [_ Hl]. destruct (Hl _ He). }
    rewrite (dims_leaf a ra Va) in P3 by auto. rewrite (dims_leaf b rb Vb) in P3 by auto.
    apply Permutation_length_1 in P3. rewrite index_of_NoDup in P3; [|apply Va|auto].
    destruct (leaf_index b _ Hlb) as [_ Hx]. rewrite <- P3 in Hx. congruence.
  Qed.

  Section Conv.
    Variable phi : nat -> nat.
    Hypothesis (Hn : nbn a = nbn b) (Hd : length (d2i a) = length (d2i b))
      (H1 : forall n, node a n -> node b (phi n)) (H2 : forall n m, node a n -> node a m -> phi n = phi m -> n = m)
      (H3 : forall p c, node a p -> node a c -> (edge a p c <-> edge b (phi p) (phi c)))
      (H4 : forall mu, mu < length (d2i a) -> phi (nth mu (d2i a) 0) = nth mu (d2i b) 0).

    Lemma conv_surj j : node b j -> exists i, node a i /\ phi i = j.
    Proof.
      intros Hj. assert (Hi : In j (map phi (nodes a))).
      { apply (NoDup_length_incl (l := map phi (nodes a)) (l' := nodes b)).
        - apply NoDup_map_inj; [|apply NoDup_nodes]. intros x y Hx Hy. apply H2; apply in_nodes; auto.
        - unfold nodes. rewrite map_length, !seq_length. lia.
        - intros x Hx. apply in_map_iff in Hx. destruct Hx as (i & <- & Hi). apply in_nodes, H1. apply in_nodes; auto.
        - apply in_nodes; auto. }
      apply in_map_iff in Hi. destruct Hi as (i & Hi1 & Hi2). exists i. split; auto. apply in_nodes; auto.
    Qed.
    Lemma conv_root : phi ra = rb.
    Proof.
      assert (Hr : node a ra) by apply Ta.
      destruct (Nat.eq_dec (phi ra) rb) as [|Hne]; auto. exfalso.
      destruct (rt_has_parent b rb Tb _ (H1 _ Hr) Hne) as (q & Hq). assert (Hqn : node b q) by apply Hq.
      destruct (conv_surj q Hqn) as (p & Hp & <-). apply H3 in Hq; auto. apply (rt_no_edge a ra Ta _ Hq).
    Qed.
    Lemma conv_level n : node a n -> level b (phi n) = level a n.
    Proof.
      revert n. apply (tree_down_ind a ra Ta (fun n => level b (phi n) = level a n)).
      - rewrite conv_root, (level_root a ra Ta), (level_root b rb Tb); auto.
      - intros p c IH He. rewrite (level_edge a ra Ta _ _ He).
        apply H3 in He as He'; [|apply He|apply He]. rewrite (level_edge b rb Tb _ _ He'), IH. auto.
    Qed.
    Lemma conv_below n m : node a n -> node a m -> (below a n m <-> below b (phi n) (phi m)).
    Proof.
      intros Hna Hma. split.
      - intros [k Hk]. revert m Hma Hk. induction k as [|k IH]; intros m Hma Hk.
        + apply depth_inv0 in Hk. subst. apply below_refl.
        + apply depth_invS in Hk. destruct Hk as (p & Hdp & He). assert (Hpa : node a p) by apply He.
          destruct (IH p Hpa Hdp) as [j Hj]. exists (S j). apply depth_child with (p := phi p); auto. apply H3; auto.
      - intros [k Hk]. revert m Hma Hk. induction k as [|k IH]; intros m Hma Hk.
        + apply depth_inv0 in Hk. apply H2 in Hk; auto. subst. apply below_refl.
        + apply depth_invS in Hk. destruct Hk as (q & Hdp & He). assert (Hqb : node b q) by apply He.
          destruct (conv_surj q Hqb) as (p & Hpa & <-). destruct (IH p Hpa Hdp) as [j Hj].
          exists (S j). apply depth_child with (p := p); auto. apply H3; auto.
    Qed.
    Lemma conv_dims n : node a n -> Permutation (dims a n) (dims b (phi n)).
    Proof.
      intros Hna. apply NoDup_Permutation; [apply (NoDup_dims a ra Va); auto|apply (NoDup_dims b rb Vb); auto|].
      intros mu. rewrite (in_dims a ra Va) by auto. rewrite (in_dims b rb Vb) by auto. rewrite <- Hd. split.
      - intros [Hm Hb]. split; auto. rewrite <- H4 by auto. apply conv_below; auto. apply (d2i_node a ra Va); auto.
      - intros [Hm Hb]. split; auto. rewrite <- H4 in Hb by auto. apply conv_below in Hb; auto. apply (d2i_node a ra Va); auto.
    Qed.
    Lemma conv_eqb : dt_eqb a b = true.
    Proof.
      unfold dt_eqb. rewrite Hn, Hd, !Nat.eqb_refl. simpl.
      assert (E : max_level a = max_level b).
      { apply Nat.le_antisymm.
        - apply list_max_le. apply Forall_nth' with (d := 0). intros k Hk. rewrite (proj1 (levels_spec a ra Ta)) in Hk.
          pose proof (conv_level (S k)) as C. unfold level at 2 in C. replace (S k - 1) with k in C by lia.
          assert (Hk' : node a (S k)) by (unfold node; lia). rewrite <- C by auto. apply (level_le_max b rb Tb); auto.
        - apply list_max_le. apply Forall_nth' with (d := 0). intros k Hk. rewrite (proj1 (levels_spec b rb Tb)) in Hk.
          assert (Hk' : node b (S k)) by (unfold node; lia). destruct (conv_surj (S k) Hk') as (i & Hi & Ei).
          pose proof (conv_level i Hi) as C. rewrite Ei in C. unfold level at 1 in C. replace (S k - 1) with k in C by lia.
          rewrite C. apply (level_le_max a ra Ta); auto. }
      rewrite <- E, Nat.eqb_refl. simpl.
      generalize (seq 1 (max_level a)). intros ls. induction ls as [|l ls IH]; simpl; auto.
      destruct (negb _); auto. destruct (forallb _ _) eqn:F; auto.
      exfalso. apply not_true_iff_false in F. apply F. apply forallb_forall. intros i Hi. apply existsb_exists.
      apply in_nodes_with_level in Hi. destruct Hi as [Hi Hl]. exists (phi i). split.
      - apply in_nodes_with_level. split; auto. rewrite conv_level; auto.
      - apply sort_eqb. apply conv_dims; auto.
    Qed.
  End Conv.
  Lemma same_tree_eqb : same_tree a b -> dt_eqb a b = true.
  Proof. intros (Hn & Hd & phi & H1 & H2 & H3 & H4). apply (conv_eqb phi); auto. Qed.
End Eq.
Lemma dt_eqb_refl a r : dim_tree a r -> dt_eqb a a = true.
Proof.
  intros V. apply (same_tree_eqb a a r r); auto. split; auto. split; auto. exists (fun n => n). split; auto. split; auto.
  split; auto. tauto.
Qed.
