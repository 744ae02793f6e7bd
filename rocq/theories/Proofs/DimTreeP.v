(** Dimension trees: attributes, levels, dims. *)
From Coq Require Import List Arith Lia Bool Permutation.
From Verif.Base Require Import ListAux CRing Index.
From Verif.Model Require Import Sorting Numpy DimensionTree.
From Verif.Spec Require Import TreeSpec.
From Verif.Proofs Require Import NumpyP.
Import ListNotations.

Lemma in_nodes t n : In n (nodes t) <-> node t n.
Proof. unfold nodes, node. rewrite in_seq. lia. Qed.
Lemma NoDup_nodes t : NoDup (nodes t).
Proof. apply seq_NoDup. Qed.
Lemma in_children t n c : node t n -> (In c (children t n) <-> edge t n c).
Proof. intros Hn. unfold children, edge. rewrite filter_In, in_nodes. tauto. Qed.
Lemma in_children' t n c : In c (children t n) -> node t c /\ adj t n c = true.
Proof. unfold children. rewrite filter_In, in_nodes. auto. Qed.
Lemma NoDup_children t n : NoDup (children t n).
Proof. apply NoDup_filter', NoDup_nodes. Qed.

Lemma sumn_single (l : list nat) (f : nat -> nat) p : NoDup l -> In p l -> (forall i, In i l -> i <> p -> f i = 0) -> sumn (map f l) = f p.
Proof.
  induction 1 as [|a l Ha Hl IH]; simpl; [contradiction|]. intros [->|Hp] Hz.
  - assert (E : sumn (map f l) = 0); [|lia].
    clear IH Hl. induction l as [|b l IHl]; simpl; auto.
    rewrite Hz; [|simpl; auto|intros ->; apply Ha; simpl; auto].
    rewrite IHl; auto; [intros Hb; apply Ha; simpl; auto|]. intros i [->|Hi] Hne; apply Hz; simpl; auto.
  - rewrite Hz; [|simpl; auto|intros ->; contradiction]. apply IH; auto.
Qed.
Lemma sumn_zero (l : list nat) (f : nat -> nat) : (forall i, In i l -> f i = 0) -> sumn (map f l) = 0.
Proof. induction l as [|a l IH]; simpl; intros H; auto. rewrite H, IH; auto. Qed.

Lemma depth_inv0 t a n : depth t a n 0 -> n = a.
Proof. intros H; inversion H; auto. Qed.
Lemma depth_invS t a n k : depth t a n (S k) -> exists p, depth t a p k /\ edge t p n.
Proof. intros H; inversion H; eauto. Qed.
Lemma below_refl t n : below t n n.
Proof. exists 0; constructor. Qed.
Lemma depth_cons t a b n k : edge t a b -> depth t b n k -> depth t a n (S k).
Proof.
  intros He; induction 1 as [|p c k Hd IH Hpc].
  - apply depth_child with (p := a); [constructor|auto].
  - apply depth_child with (p := p); auto.
Qed.
Lemma depth_uncons t a n k : depth t a n (S k) -> exists b, edge t a b /\ depth t b n k.
Proof.
  revert n; induction k as [|k IH]; intros n H; inversion H as [|p c k' Hd He]; subst.
  - inversion Hd; subst. exists n; split; auto. constructor.
  - destruct (IH _ Hd) as (b & Hb1 & Hb2). exists b; split; auto. apply depth_child with (p := p); auto.
Qed.
Lemma below_step t n m : below t n m <-> m = n \/ exists c, edge t n c /\ below t c m.
Proof.
  split.
  - intros [k Hk]. destruct k as [|k].
    + inversion Hk; auto.
    + right. destruct (depth_uncons _ _ _ _ Hk) as (c & Hc & Hd). exists c; split; auto. exists k; auto.
  - intros [->|(c & Hc & k & Hk)]; [apply below_refl|]. exists (S k). apply depth_cons with (b := c); auto.
Qed.
Lemma depth_trans t a b c j k : depth t a b j -> depth t b c k -> depth t a c (j + k).
Proof.
  intros Hab; induction 1 as [|p c k Hd IH Hpc].
  - rewrite Nat.add_0_r; auto.
  - rewrite Nat.add_succ_r. apply depth_child with (p := p); auto.
Qed.
Lemma below_trans t a b c : below t a b -> below t b c -> below t a c.
Proof. intros [j Hj] [k Hk]. exists (j + k). eapply depth_trans; eauto. Qed.
Lemma depth_node t a n k : node t a -> depth t a n k -> node t n.
Proof. intros Ha H; destruct H as [|p c k Hd He]; auto. apply He. Qed.
Lemma below_node t a n : node t a -> below t a n -> node t n.
Proof. intros Ha [k Hk]; eapply depth_node; eauto. Qed.

Section Rooted.
  Variables (t : dtree) (r : nat).
  Hypothesis T : rooted_tree t r.

  Lemma rt_root : node t r. Proof. apply T. Qed.
  Lemma rt_no_edge p : ~ edge t p r. Proof. destruct T as (_ & H & _). apply H. Qed.
  Lemma rt_uniq p q c : edge t p c -> edge t q c -> p = q.
  Proof.
    intros H1 H2. destruct T as (_ & Hr & Hu & _).
    destruct (Nat.eq_dec c r) as [->|Hc]; [destruct (Hr _ H1)|].
    destruct (Hu c) as (p0 & _ & H0); [apply H1|auto|]. rewrite (H0 p), (H0 q); auto.
  Qed.
  Lemma rt_has_parent c : node t c -> c <> r -> exists p, edge t p c.
  Proof. intros Hc Hne. destruct T as (_ & _ & Hu & _). destruct (Hu c) as (p & Hp & _); eauto. Qed.
  Lemma rt_below c : node t c -> below t r c.
  Proof. intros Hc. destruct T as (_ & _ & _ & H). auto. Qed.
  Lemma edge_ne p c : edge t p c -> c <> r.
  Proof. intros H ->. exact (rt_no_edge _ H). Qed.

  Lemma parent_edge p c : edge t p c -> parent t c = p.
  Proof.
    intros He. unfold parent.
    rewrite (sumn_single (nodes t) (fun i => if adj t i c then i else 0) p).
    - destruct He as (_ & _ & ->); auto.
    - apply NoDup_nodes.
    - apply in_nodes, He.
    - intros i Hi Hne. destruct (adj t i c) eqn:E; auto. exfalso. apply Hne.
      apply (rt_uniq i p c); auto. split; [apply in_nodes; auto|]. split; auto. apply He.
  Qed.
  Lemma parent_root : parent t r = 0.
  Proof.
    unfold parent. apply sumn_zero. intros i Hi. destruct (adj t i r) eqn:E; auto.
    exfalso. apply (rt_no_edge i). split; [apply in_nodes; auto|]. split; auto. apply rt_root.
  Qed.
  Lemma parent_zero n : node t n -> (parent t n = 0 <-> n = r).
  Proof.
    intros Hn; split; [|intros ->; apply parent_root]. intros E.
    destruct (Nat.eq_dec n r) as [|Hne]; auto. destruct (rt_has_parent n Hn Hne) as (p & Hp).
    rewrite (parent_edge _ _ Hp) in E. destruct Hp as ((? & _) & _). lia.
  Qed.
  Lemma parent_iff n p : node t n -> p <> 0 -> (parent t n = p <-> edge t p n).
  Proof.
    intros Hn Hp. split; [|apply parent_edge]. intros E.
    destruct (Nat.eq_dec n r) as [->|Hne]; [rewrite parent_root in E; lia|].
    destruct (rt_has_parent n Hn Hne) as (q & Hq). rewrite (parent_edge _ _ Hq) in E. congruence.
  Qed.
  Lemma parent_is_edge n : node t n -> n <> r -> edge t (parent t n) n.
  Proof.
    intros Hn Hne. destruct (rt_has_parent n Hn Hne) as (q & Hq). rewrite (parent_edge _ _ Hq). auto.
  Qed.

  Lemma root_opt_eq : root_opt t = Some r.
  Proof.
    unfold root_opt.
    assert (Hin : In r (filter (fun n => parent t n =? 0) (nodes t))).
    { apply filter_In. split; [apply in_nodes, rt_root|]. rewrite parent_root; auto. }
    destruct (filter _ _) as [|a l] eqn:E; [destruct Hin|]. simpl. f_equal.
    assert (Ha : In a (filter (fun n => parent t n =? 0) (nodes t))) by (rewrite E; simpl; auto).
    apply filter_In in Ha. destruct Ha as [Ha1 Ha2]. apply Nat.eqb_eq in Ha2. apply in_nodes in Ha1.
    apply parent_zero; auto.
  Qed.
  Lemma root_eq : root t = r.
  Proof. unfold root. rewrite root_opt_eq; auto. Qed.

  Lemma depth_unique n k k' : depth t r n k -> depth t r n k' -> k = k'.
  Proof.
    revert n k'; induction k as [|k IH]; intros n k' H1 H2.
    - apply depth_inv0 in H1. destruct k' as [|j]; auto. apply depth_invS in H2. destruct H2 as (p & _ & He).
      rewrite H1 in He. destruct (rt_no_edge _ He).
    - apply depth_invS in H1. destruct H1 as (p & Hd & He). destruct k' as [|j].
      + apply depth_inv0 in H2. rewrite H2 in He. destruct (rt_no_edge _ He).
      + apply depth_invS in H2. destruct H2 as (p' & Hd' & He').
        assert (p' = p) by (eapply rt_uniq; eauto). subst p'. f_equal. eapply IH; eauto.
  Qed.

  Lemma depth_chain n k : depth t r n k ->
    exists l, length l = S k /\ NoDup l /\ forall x, In x l -> node t x /\ exists j, j <= k /\ depth t r x j.
  Proof.
    induction 1 as [|p c k Hd IH He].
    - exists [r]. split; auto. split; [constructor; [intros []|constructor]|].
      intros x [<-|[]]. split; [apply rt_root|]. exists 0; split; auto. constructor.
    - destruct IH as (l & Hl & Hnd & Hx). exists (c :: l). split; [simpl; lia|]. split.
      + constructor; auto. intros Hc. destruct (Hx _ Hc) as (_ & j & Hj & Hdj).
        assert (Hdc : depth t r c (S k)) by (eapply depth_child; eauto).
        pose proof (depth_unique _ _ _ Hdj Hdc). lia.
      + intros x [<-|Hi].
        * split; [apply He|]. exists (S k). split; auto. eapply depth_child; eauto.
        * destruct (Hx _ Hi) as (? & j & Hj & Hdj). split; auto. exists j; split; auto.
  Qed.
  Lemma depth_lt n k : depth t r n k -> k < nbn t.
  Proof.
    intros H. destruct (depth_chain n k H) as (l & Hl & Hnd & Hx).
    assert (length l <= length (nodes t)).
    { apply NoDup_incl_length; auto. intros x Hi. apply in_nodes, Hx; auto. }
    unfold nodes in H0. rewrite seq_length in H0. lia.
  Qed.
  Lemma depth_down n k j : depth t r n k -> j <= k -> exists m, depth t r m j.
  Proof.
    intros H; revert j; induction H as [|p c k Hd IH He]; intros j Hj.
    - assert (j = 0) by lia; subst. exists r; constructor.
    - destruct (Nat.eq_dec j (S k)) as [->|].
      + exists c. eapply depth_child; eauto.
      + apply IH; lia.
  Qed.

  Lemma fold_upd_level ind lev lv : (forall i, In i ind -> 1 <= i <= length lv) ->
    let lv' := fold_left (fun lv i => upd (i - 1) lev lv) ind lv in
    length lv' = length lv /\
    forall n, 1 <= n -> nth (n - 1) lv' 0 = if inb n ind then lev else nth (n - 1) lv 0.
  Proof.
    revert lv; induction ind as [|a ind IH]; intros lv Hi; simpl; auto.
    destruct (IH (upd (a - 1) lev lv)) as [IH1 IH2].
    { intros i Hin. rewrite upd_length. apply Hi; simpl; auto. }
    rewrite upd_length in IH1. split; auto. intros n Hn. rewrite IH2 by auto.
    destruct (inb n ind) eqn:E; [rewrite orb_true_r; auto|]. rewrite orb_false_r.
    pose proof (Hi a (or_introl eq_refl)).
    destruct (Nat.eqb_spec n a) as [->|Hne].
    - apply nth_upd_eq. lia.
    - apply nth_upd_neq. lia.
  Qed.

  Lemma bfs_spec fuel ind lev lv :
    nbn t < fuel + lev -> length lv = nbn t ->
    (forall n, In n ind <-> depth t r n lev) ->
    (forall n j, depth t r n j -> j < lev -> nth (n - 1) lv 0 = j) ->
    length (bfs t fuel ind lev lv) = nbn t /\
    forall n j, depth t r n j -> nth (n - 1) (bfs t fuel ind lev lv) 0 = j.
  Proof.
    revert ind lev lv; induction fuel as [|fuel IH]; intros ind lev lv Hf Hl Hind Hlv; simpl.
    - split; auto. intros n j Hd. apply Hlv; auto. pose proof (depth_lt _ _ Hd). lia.
    - destruct ind as [|a ind'] eqn:E.
      + split; auto. intros n j Hd. apply Hlv; auto.
        destruct (Nat.lt_ge_cases j lev) as [|Hge]; auto.
        destruct (depth_down _ _ lev Hd Hge) as (m & Hm). apply Hind in Hm. destruct Hm.
      + rewrite <- E in *. clear E.
        assert (Hnode : forall i, In i ind -> node t i).
        { intros i Hi. apply Hind in Hi. eapply depth_node; [apply rt_root|eauto]. }
        destruct (fold_upd_level ind lev lv) as [F1 F2].
        { intros i Hi. rewrite Hl. apply Hnode; auto. }
        apply IH.
        * lia.
        * rewrite F1; auto.
        * intros n. rewrite in_flat_map. split.
          -- intros (p & Hp & Hc). apply in_children in Hc; [|auto].
             apply depth_child with (p := p); auto. apply Hind; auto.
          -- intros Hd. apply depth_invS in Hd. destruct Hd as (p & Hdp & He). exists p. split; [apply Hind; auto|].
             apply in_children; auto. apply He.
        * intros n j Hd Hj. assert (Hn : node t n) by (eapply depth_node; [apply rt_root|eauto]).
          rewrite F2 by apply Hn. destruct (inb n ind) eqn:E.
          -- apply inb_spec in E. apply Hind in E. eapply depth_unique; eauto.
          -- apply Hlv; auto. destruct (Nat.eq_dec j lev) as [->|]; [|lia].
             apply Hind in Hd. apply inb_spec in Hd. congruence.
  Qed.
  Lemma levels_spec : length (levels t) = nbn t /\ forall n j, depth t r n j -> level t n = j.
  Proof.
    unfold level, levels. rewrite root_eq. apply bfs_spec.
    - lia.
    - apply repeat_length.
    - intros n. rewrite in_children by apply rt_root. split.
      + intros He. apply depth_child with (p := r); auto. constructor.
      + intros Hd. apply depth_invS in Hd. destruct Hd as (p & Hdp & He). apply depth_inv0 in Hdp. rewrite <- Hdp; auto.
    - intros n j Hd Hj. assert (j = 0) by lia; subst. apply nth_repeat.
  Qed.
  Lemma level_depth n : node t n -> depth t r n (level t n).
  Proof. intros Hn. destruct (rt_below n Hn) as [k Hk]. destruct levels_spec as [_ H]. rewrite (H n k); auto. Qed.
  Lemma level_iff n k : node t n -> (level t n = k <-> depth t r n k).
  Proof.
    intros Hn. split; [intros <-; apply level_depth; auto|]. apply levels_spec.
  Qed.
  Lemma level_root : level t r = 0.
  Proof. apply levels_spec. constructor. Qed.
  Lemma level_edge p c : edge t p c -> level t c = S (level t p).
  Proof. intros He. apply levels_spec. apply depth_child with (p := p); auto. apply level_depth, He. Qed.
  Lemma level_zero n : node t n -> level t n = 0 -> n = r.
  Proof. intros Hn E. apply level_iff in E; auto. apply depth_inv0 in E; auto. Qed.
  Lemma level_lt n : node t n -> level t n < nbn t.
  Proof. intros Hn. eapply depth_lt, level_depth; auto. Qed.
  Lemma level_le_max n : node t n -> level t n <= max_level t.
  Proof.
    intros Hn. unfold level, max_level. destruct levels_spec as [Hl _].
    assert (Hi : In (nth (n - 1) (levels t) 0) (levels t)) by (apply nth_In; rewrite Hl; unfold node in Hn; lia).
    pose proof (proj1 (list_max_le (levels t) _) (le_n _)) as F. rewrite Forall_forall in F. apply F; auto.
  Qed.
  Lemma level_below n m k : node t n -> depth t n m k -> level t m = level t n + k.
  Proof.
    intros Hn; induction 1 as [|p c k Hd IH He]; [lia|]. rewrite (level_edge p c He), IH. lia.
  Qed.
  Lemma max_level_lt : max_level t < nbn t.
  Proof.
    unfold max_level. destruct levels_spec as [Hl Hd]. pose proof rt_root as Hr. unfold node in Hr.
    assert (Hf : Forall (fun x => x <= nbn t - 1) (levels t)).
    { apply Forall_nth' with (d := 0). intros k Hk. rewrite Hl in Hk.
      pose proof (level_lt (S k)) as Hlt. unfold level, node in Hlt.
      replace (S k - 1) with k in Hlt by lia. lia. }
    pose proof (proj2 (list_max_le (levels t) (nbn t - 1)) Hf). lia.
  Qed.

  (** induction from the leaves to the root, and from the root to the leaves *)
  Lemma tree_up_ind (P : nat -> Prop) :
    (forall n, node t n -> (forall c, edge t n c -> P c) -> P n) -> forall n, node t n -> P n.
  Proof.
    intros Hs. assert (G : forall k n, node t n -> nbn t - level t n <= k -> P n).
    { induction k as [|k IH]; intros n Hn Hk; apply Hs; auto; intros c Hc.
      - pose proof (level_lt n Hn). lia.
      - apply IH; [apply Hc|]. rewrite (level_edge _ _ Hc). lia. }
    intros n Hn. apply (G (nbn t)); auto. lia.
  Qed.
  Lemma tree_down_ind (P : nat -> Prop) :
    P r -> (forall p c, P p -> edge t p c -> P c) -> forall n, node t n -> P n.
  Proof.
    intros H0 Hs n Hn. destruct (rt_below n Hn) as [k Hk]. induction Hk as [|p c k Hd IH He]; auto.
    apply (Hs p); auto. apply IH, He.
  Qed.

  Lemma siblings_disjoint n a b m : edge t n a -> edge t n b -> below t a m -> below t b m -> a = b.
  Proof.
    intros Ha Hb [j Hj] [k Hk].
    assert (j = k).
    { apply (level_below a m j) in Hj; [|apply Ha]. apply (level_below b m k) in Hk; [|apply Hb].
      rewrite (level_edge _ _ Ha) in Hj. rewrite (level_edge _ _ Hb) in Hk. lia. }
    subst k. revert m Hj Hk; induction j as [|j IH]; intros m Hj Hk.
    - apply depth_inv0 in Hj, Hk. congruence.
    - apply depth_invS in Hj, Hk. destruct Hj as (p & Hd & He), Hk as (p' & Hd' & He').
      assert (p' = p) by (eapply rt_uniq; eauto). subst p'. eapply IH; eauto.
  Qed.
  Lemma same_level_disjoint a b m : node t a -> node t b -> level t a = level t b -> below t a m -> below t b m -> a = b.
  Proof.
    intros Ha Hb Hl [j Hj] [k Hk].
    assert (j = k).
    { apply (level_below a m j) in Hj; auto. apply (level_below b m k) in Hk; auto. lia. }
    subst k. revert m Hj Hk; induction j as [|j IH]; intros m Hj Hk.
    - apply depth_inv0 in Hj, Hk. congruence.
    - apply depth_invS in Hj, Hk. destruct Hj as (p & Hd & He), Hk as (p' & Hd' & He').
      assert (p' = p) by (eapply rt_uniq; eauto). subst p'. eapply IH; eauto.
  Qed.

  (** the order of the bottom-up loops *)
  Lemma in_bottom_up n : In n (bottom_up t) <-> node t n.
  Proof.
    unfold bottom_up. rewrite in_flat_map. split.
    - intros (l & _ & Hn). unfold nodes_with_level in Hn. apply filter_In in Hn. apply in_nodes; tauto.
    - intros Hn. exists (level t n). split.
      + rewrite <- in_rev. apply in_seq. pose proof (level_le_max n Hn). lia.
      + unfold nodes_with_level. apply filter_In. split; [apply in_nodes; auto|]. apply Nat.eqb_refl.
  Qed.
  Lemma NoDup_flat_levels ls : NoDup ls -> NoDup (flat_map (nodes_with_level t) ls).
  Proof.
    induction 1 as [|l ls Hl Hls IH]; simpl; [constructor|].
    apply NoDup_app; auto.
    - apply NoDup_filter', NoDup_nodes.
    - intros x Hx Hx'. apply in_flat_map in Hx'. destruct Hx' as (l' & Hl' & Hx').
      unfold nodes_with_level in *. apply filter_In in Hx, Hx'. destruct Hx as [_ Hx], Hx' as [_ Hx'].
      apply Nat.eqb_eq in Hx, Hx'. subst. congruence.
  Qed.
  Lemma NoDup_bottom_up : NoDup (bottom_up t).
  Proof. apply NoDup_flat_levels. apply NoDup_rev, seq_NoDup. Qed.

  Lemma topo_levels k l1 n l2 c : flat_map (nodes_with_level t) (rev (seq 0 k)) = l1 ++ n :: l2 ->
    edge t n c -> level t c < k -> In c l1.
  Proof.
    revert l1 n l2; induction k as [|k IH]; intros l1 n l2 E He Hk; [lia|].
    rewrite seq_S_snoc, rev_app_distr in E. simpl in E.
    pose proof (level_edge _ _ He) as Hlev.
    assert (Hnc : node t c) by apply He.
    assert (Hn : node t n) by apply He.
    (* n is not in the first block *)
    assert (Hsplit : exists l1', l1 = nodes_with_level t k ++ l1' /\ flat_map (nodes_with_level t) (rev (seq 0 k)) = l1' ++ n :: l2).
    { clear IH. revert l1 E. assert (Hnn : ~ In n (nodes_with_level t k)).
      { unfold nodes_with_level. rewrite filter_In. intros [_ Hq]. apply Nat.eqb_eq in Hq. lia. }
      induction (nodes_with_level t k) as [|a l IHl]; intros l1 E; simpl in *.
      - exists l1; auto.
      - destruct l1 as [|b l1]; simpl in E; inversion E; subst.
        + exfalso; apply Hnn; auto.
        + destruct (IHl (fun q => Hnn (or_intror q)) _ H1) as (l1' & -> & Hl). exists l1'; auto. }
    destruct Hsplit as (l1' & -> & E').
    apply in_or_app. destruct (Nat.eq_dec (level t c) k) as [Hc|Hc].
    - left. unfold nodes_with_level. apply filter_In. split; [apply in_nodes; auto|]. apply Nat.eqb_eq; auto.
    - right. eapply IH; eauto. lia.
  Qed.
  Lemma topo_bottom_up l1 n l2 c : bottom_up t = l1 ++ n :: l2 -> edge t n c -> In c l1.
  Proof.
    intros E He. eapply topo_levels; eauto. pose proof (level_le_max c). destruct He as (_ & Hc & _). specialize (H Hc). lia.
  Qed.
  (** generic rules for the bottom-up loops *)
  Lemma bottom_up_ind {S} (step : S -> nat -> option S) (P : list nat -> S -> Prop) (s0 : S) :
    P [] s0 ->
    (forall done n s, P done s -> node t n -> ~ In n done -> (forall c, edge t n c -> In c done) ->
       (forall p, edge t p n -> ~ In p done) -> (forall m, In m done -> node t m) ->
       exists s', step s n = Some s' /\ P (done ++ [n]) s') ->
    exists s', ofold step (bottom_up t) s0 = Some s' /\ P (bottom_up t) s'.
  Proof.
    intros H0 Hs.
    assert (G : forall l2 l1 s, bottom_up t = l1 ++ l2 -> P l1 s ->
                exists s', ofold step l2 s = Some s' /\ P (bottom_up t) s').
    { induction l2 as [|n l2 IH]; intros l1 s E Hp; simpl.
      - exists s. rewrite app_nil_r in E. subst l1; auto.
      - pose proof NoDup_bottom_up as Hnd. rewrite E in Hnd. apply NoDup_remove_2 in Hnd.
        destruct (Hs l1 n s) as (s' & Hs1 & Hs2); auto.
        + apply in_bottom_up. rewrite E. apply in_or_app; simpl; auto.
        + intros Hi; apply Hnd. apply in_or_app; auto.
        + intros c Hc. eapply topo_bottom_up; eauto.
        + intros p Hp1 Hp2. apply in_split in Hp2. destruct Hp2 as (a & b & ->).
          assert (Hin : In n a).
          { eapply (topo_bottom_up a p (b ++ n :: l2)); eauto. rewrite E, <- app_assoc; auto. }
          apply Hnd. apply in_or_app. left. apply in_or_app; auto.
        + intros m Hm. apply in_bottom_up. rewrite E. apply in_or_app; auto.
        + rewrite Hs1. apply (IH (l1 ++ [n]) s'); auto. rewrite <- app_assoc; auto. }
    apply (G (bottom_up t) [] s0); auto.
  Qed.

  (** each node, in turn, gets a value computed from its old value and those of its children *)
  Lemma bottom_up_local {A} (d : A) (f : list A -> nat -> option A) (Q : nat -> A -> Prop) (s0 : list A) :
    length s0 = nbn t ->
    (forall n s, node t n -> length s = nbn t -> nth (n - 1) s d = nth (n - 1) s0 d ->
       (forall c, edge t n c -> Q c (nth (c - 1) s d)) -> exists a, f s n = Some a /\ Q n a) ->
    exists s', ofold (fun s n => match f s n with Some a => Some (upd (n - 1) a s) | None => None end) (bottom_up t) s0 = Some s' /\
      length s' = nbn t /\ forall n, node t n -> Q n (nth (n - 1) s' d).
  Proof.
    intros Hl Hf.
    pose (P := fun (done : list nat) (s : list A) => length s = nbn t /\
       forall n, node t n -> (In n done -> Q n (nth (n - 1) s d)) /\ (~ In n done -> nth (n - 1) s d = nth (n - 1) s0 d)).
    destruct (bottom_up_ind (fun s n => match f s n with Some a => Some (upd (n - 1) a s) | None => None end) P s0)
      as (s' & E & HL & HP).
    - split; auto. intros n Hn. split; [intros []|auto].
    - intros done n s (HL & HP) Hn Hnd Hch Hpar Hdn.
      destruct (Hf n s) as (a & Ea & Qa); auto.
      + apply HP; auto.
      + intros c Hc. apply HP; [apply Hc|auto].
      + rewrite Ea. eexists; split; [reflexivity|]. split; [rewrite upd_length; auto|].
        intros m Hm. unfold node in *. destruct (Nat.eq_dec m n) as [->|Hne].
        * split; [intros _; rewrite nth_upd_eq by lia; auto|]. intros C; exfalso; apply C, in_or_app; simpl; auto.
        * rewrite nth_upd_neq by lia. split; intros Hi.
          -- apply HP; auto. apply in_app_or in Hi. destruct Hi as [|[|[]]]; auto. congruence.
          -- apply HP; auto. intros C; apply Hi, in_or_app; auto.
    - exists s'. split; auto. split; auto. intros n Hn. apply HP; auto. apply in_bottom_up; auto.
  Qed.

  Lemma bottom_up_fix {A} (d : A) (g : nat -> A -> list A -> A) (s0 : list A) : length s0 = nbn t ->
    let s' := fold_left (fun s n => upd (n - 1) (g n (nth (n - 1) s d) (map (fun c => nth (c - 1) s d) (children t n))) s)
                        (bottom_up t) s0 in
    length s' = nbn t /\
    forall n, node t n -> nth (n - 1) s' d = g n (nth (n - 1) s0 d) (map (fun c => nth (c - 1) s' d) (children t n)).
  Proof.
    intros Hl s'.
    pose (st := fun (s : list A) n => upd (n - 1) (g n (nth (n - 1) s d) (map (fun c => nth (c - 1) s d) (children t n))) s).
    pose (P := fun (done : list nat) (s : list A) => length s = nbn t /\
       forall n, node t n -> (In n done -> nth (n - 1) s d = g n (nth (n - 1) s0 d) (map (fun c => nth (c - 1) s d) (children t n)))
                           /\ (~ In n done -> nth (n - 1) s d = nth (n - 1) s0 d)).
    destruct (bottom_up_ind (fun s n => Some (st s n)) P s0) as (s2 & E & HL & HP).
    - split; auto. intros n Hn. split; [intros []|auto].
    - intros done n s (HL & HP) Hn Hnd Hch Hpar Hdn. eexists; split; [reflexivity|]. unfold st.
      split; [rewrite upd_length; auto|]. intros m Hm.
      assert (Hk : forall m, node t m -> In m done \/ m = n ->
                 map (fun c => nth (c - 1) (upd (n - 1) (g n (nth (n - 1) s d) (map (fun c => nth (c - 1) s d) (children t n))) s) d) (children t m)
                 = map (fun c => nth (c - 1) s d) (children t m)).
      { intros m' Hm' Hor. apply map_ext_in. intros c Hc. apply in_children in Hc; auto. apply nth_upd_neq.
        intros Ec. assert (c = n) by (destruct Hc as (_ & Hc & _); unfold node in *; lia). subst c.
        destruct Hor as [Hor|Hor].
        - apply (Hpar m'); auto.
        - subst m'. pose proof (level_edge _ _ Hc). lia. }
      destruct (Nat.eq_dec m n) as [->|Hne].
      + split; [intros _|intros C; exfalso; apply C, in_or_app; simpl; auto].
        rewrite Hk by auto. rewrite nth_upd_eq by (unfold node in *; lia).
        f_equal. apply HP; auto.
      + rewrite nth_upd_neq by (unfold node in *; lia). split; intros Hi.
        * apply in_app_or in Hi. destruct Hi as [Hi|[Hi|[]]]; [|congruence].
          rewrite Hk by auto. apply HP; auto.
        * apply HP; auto. intros C; apply Hi, in_or_app; auto.
    - assert (Eq : s' = s2).
      { subst s'. assert (G : forall l s, ofold (fun s n => Some (st s n)) l s = Some (fold_left st l s)).
        { induction l as [|x l IH]; intros s; simpl; auto. }
        rewrite G in E. inversion E; auto. }
      rewrite Eq. split; auto. intros n Hn. apply HP; auto. apply in_bottom_up; auto.
  Qed.
End Rooted.

Section DimTree.
  Variables (t : dtree) (r : nat).
  Hypothesis V : dim_tree t r.
  Let T : rooted_tree t r := proj1 V.

  Lemma leaf_iff n : is_leaf t n = true <-> node t n /\ forall c, ~ edge t n c.
  Proof. unfold is_leaf. rewrite inb_spec. apply V. Qed.
  Lemma leaf_node n : is_leaf t n = true -> node t n.
  Proof. rewrite leaf_iff; tauto. Qed.
  Lemma leaf_children n : node t n -> (is_leaf t n = true <-> children t n = []).
  Proof.
    intros Hn. rewrite leaf_iff. split.
    - intros [_ H]. destruct (children t n) as [|c l] eqn:E; auto. destruct (H c). apply in_children; auto. rewrite E; simpl; auto.
    - intros E. split; auto. intros c Hc. apply in_children in Hc; auto. rewrite E in Hc; auto.
  Qed.
  Lemma NoDup_d2i : NoDup (d2i t). Proof. apply V. Qed.
  Lemma d2i_leaf k : k < length (d2i t) -> is_leaf t (nth k (d2i t) 0) = true.
  Proof. intros Hk. unfold is_leaf. apply inb_spec. apply nth_In; auto. Qed.
  Lemma d2i_node k : k < length (d2i t) -> node t (nth k (d2i t) 0).
  Proof. intros Hk. apply leaf_node, d2i_leaf; auto. Qed.
  Lemma leaf_index n : is_leaf t n = true -> index_of n (d2i t) < length (d2i t) /\ nth (index_of n (d2i t)) (d2i t) 0 = n.
  Proof. intros H. apply index_of_nth. apply inb_spec; auto. Qed.

  Lemma dims_init_nth n : node t n -> nth (n - 1) (dims_init t) [] = if is_leaf t n then [index_of n (d2i t)] else [0].
  Proof.
    intros Hn. unfold dims_init, nodes, node in *. rewrite map_nth_in with (da := 0) by (rewrite seq_length; lia).
    rewrite seq_nth by lia. replace (1 + (n - 1)) with n by lia. reflexivity.
  Qed.

  Lemma dims_spec n : node t n ->
    dims t n = if is_leaf t n then [index_of n (d2i t)] else flat_map (dims t) (children t n).
  Proof.
    intros Hn. destruct (bottom_up_fix t r T [] (fun n v vs => if is_leaf t n then v else concat vs) (dims_init t)) as [HL HF].
    { unfold dims_init. rewrite map_length. apply seq_length. }
    set (s' := fold_left _ _ _) in *.
    assert (E : dims_all t = s').
    { unfold dims_all, s'. apply fold_left_ext_in. intros D m Hm. unfold dims_step.
      destruct (is_leaf t m); [symmetry; apply upd_same|]. rewrite flat_map_concat_map; auto. }
    unfold dims. rewrite E, HF by auto.
    destruct (is_leaf t n) eqn:El; [rewrite dims_init_nth, El; auto|]. rewrite flat_map_concat_map; auto.
  Qed.
  Lemma dims_leaf n : is_leaf t n = true -> dims t n = [index_of n (d2i t)].
  Proof. intros H. rewrite dims_spec by (apply leaf_node; auto). rewrite H; auto. Qed.
  Lemma dims_internal n : node t n -> is_leaf t n = false -> dims t n = flat_map (dims t) (children t n).
  Proof. intros Hn H. rewrite dims_spec by auto. rewrite H; auto. Qed.

  (** mu is one of the dims of n exactly when the leaf of mu is below n *)
  Lemma in_dims n mu : node t n -> (In mu (dims t n) <-> mu < length (d2i t) /\ below t n (nth mu (d2i t) 0)).
  Proof.
    revert n. apply (tree_up_ind t r T (fun n => In mu (dims t n) <-> mu < length (d2i t) /\ below t n (nth mu (d2i t) 0))).
    intros n Hn IH. destruct (is_leaf t n) eqn:El.
    - rewrite dims_leaf by auto. destruct (leaf_index n El) as [Hi1 Hi2]. simpl. split.
      + intros [<-|[]]. split; auto. rewrite Hi2. apply below_refl.
      + intros [Hm Hb]. left. apply below_step in Hb. destruct Hb as [Hb|(c & Hc & _)].
        * rewrite <- Hb. apply index_of_NoDup; auto. apply NoDup_d2i.
        * apply leaf_iff in El. destruct El as [_ El]. destruct (El _ Hc).
    - rewrite dims_internal by auto. rewrite in_flat_map. split.
      + intros (c & Hc & Hm). apply in_children in Hc; auto. apply IH in Hm; auto. destruct Hm as [Hm Hb].
        split; auto. apply below_step. right. eauto.
      + intros [Hm Hb]. apply below_step in Hb. destruct Hb as [Hb|(c & Hc & Hb)].
        * exfalso. pose proof (d2i_leaf mu Hm) as Hl. rewrite Hb in Hl. congruence.
        * exists c. split; [apply in_children; auto|]. apply IH; auto.
  Qed.
  Lemma NoDup_flat_map_disjoint {A B} (f : A -> list B) l :
    NoDup l -> (forall a, In a l -> NoDup (f a)) ->
    (forall a b x, In a l -> In b l -> In x (f a) -> In x (f b) -> a = b) -> NoDup (flat_map f l).
  Proof.
    induction 1 as [|a l Ha Hl IH]; simpl; intros Hf Hd; [constructor|]. apply NoDup_app.
    - apply Hf; auto.
    - apply IH; auto. intros x y z Hx Hy; apply Hd; auto.
    - intros x Hx Hx'. apply in_flat_map in Hx'. destruct Hx' as (b & Hb & Hx').
      assert (a = b) by (eapply Hd; eauto). subst; contradiction.
  Qed.
  Lemma NoDup_dims n : node t n -> NoDup (dims t n).
  Proof.
    revert n. apply (tree_up_ind t r T (fun n => NoDup (dims t n))). intros n Hn IH.
    destruct (is_leaf t n) eqn:El.
    - rewrite dims_leaf by auto. constructor; [intros []|constructor].
    - rewrite dims_internal by auto. apply NoDup_flat_map_disjoint.
      + apply NoDup_children.
      + intros a Ha. apply IH. apply in_children; auto.
      + intros a b x Ha Hb Hxa Hxb. apply in_children in Ha, Hb; auto.
        apply in_dims in Hxa; [|apply Ha]. apply in_dims in Hxb; [|apply Hb].
        eapply (siblings_disjoint t r T n); eauto; [apply Hxa|apply Hxb].
  Qed.
  Lemma dims_root : is_perm (length (d2i t)) (dims t r).
  Proof.
    assert (Hr : node t r) by apply T.
    assert (Hin : forall mu, In mu (dims t r) <-> mu < length (d2i t)).
    { intros mu. rewrite in_dims by auto. split; [tauto|]. intros Hm. split; auto. apply (rt_below t r T). apply d2i_node; auto. }
    unfold is_perm. apply NoDup_Permutation; [apply NoDup_dims; auto|apply seq_NoDup|].
    intros mu. rewrite Hin, in_seq. lia.
  Qed.
  Lemma dims_nonempty n : node t n -> dims t n <> [].
  Proof.
    revert n. apply (tree_up_ind t r T (fun n => dims t n <> [])). intros n Hn IH.
    destruct (is_leaf t n) eqn:El; [rewrite dims_leaf by auto; discriminate|].
    rewrite dims_internal by auto. destruct (children t n) as [|c l] eqn:E.
    - apply leaf_children in E; auto. congruence.
    - simpl. intros C. apply app_eq_nil in C. destruct C as [C _]. revert C. apply IH. apply in_children; auto. rewrite E; simpl; auto.
  Qed.
  Lemma child_number_spec n p : edge t p n ->
    1 <= child_number t n <= length (children t p) /\ nth (child_number t n - 1) (children t p) 0 = n.
  Proof.
    intros He. unfold child_number. rewrite (parent_edge t r T p n He).
    assert (Hp : node t p) by apply He. destruct (Nat.eqb_spec p 0) as [->|_]; [unfold node in Hp; lia|].
    assert (Hi : In n (children t p)) by (apply in_children; auto).
    apply inb_spec in Hi as Hb. rewrite Hb. destruct (index_of_nth _ _ Hi) as [H1 H2].
    rewrite Nat.add_sub. split; [lia|auto].
  Qed.
  Lemma child_number_root : child_number t r = 0.
  Proof. unfold child_number. rewrite (parent_root t r T). auto. Qed.
End DimTree.
