(** DimensionTree.random: the result is a dimension tree, whatever the draws. *)
From Coq Require Import List Arith Lia Bool Permutation.
From Verif.Base Require Import ListAux CRing Index.
From Verif.Model Require Import Sorting Numpy FullTensor DimensionTree RandomTree.
From Verif.Spec Require Import TreeSpec.
From Verif.Proofs Require Import NumpyP DimTreeP DimTreeP2.
Import ListNotations.

Lemma NoDup_app_inv' {T} (l1 l2 : list T) : NoDup (l1 ++ l2) -> NoDup l1 /\ NoDup l2 /\ forall x, In x l1 -> ~ In x l2.
Proof.
  induction l1 as [|a l1 IH]; cbn [app]; intros H; [split; [constructor|split; auto]|]. inversion H as [|? ? H1 H2]; subst. destruct (IH H2) as (I1 & I2 & I3).
  split; [constructor; auto; intros K; apply H1; apply in_or_app; auto|]. split; auto. intros x [->|Hx]; auto. intros K. apply H1. apply in_or_app; auto.
Qed.
Lemma filter_all {T} (f : T -> bool) l : (forall x, In x l -> f x = true) -> filter f l = l.
Proof. induction l as [|a l IH]; intros H; cbn [filter]; auto. rewrite (H a) by (simpl; auto). f_equal. apply IH. intros; apply H; simpl; auto. Qed.
Lemma filter_no {T} (f : T -> bool) l : (forall x, In x l -> f x = false) -> filter f l = [].
Proof. induction l as [|a l IH]; intros H; cbn [filter]; auto. rewrite (H a) by (simpl; auto). apply IH. intros; apply H; simpl; auto. Qed.

Section Random.
  Variable ri : nat -> nat -> nat -> nat -> nat.
  Variable rp : nat -> nat -> nat -> list nat.
  Hypothesis RI : forall p k a b, a < b -> a <= ri p k a b < b.
  Hypothesis RP : forall p k n, is_perm n (rp p k n).
  Variable order lo hi : nat.
  Hypothesis Ho : 1 <= order.
  Hypothesis Hlo : 2 <= lo.
  Hypothesis Hhi : lo <= hi.

  (** the state after the creation of the children ds of p *)
  Definition addc (p : nat) (cs : list (list nat)) (st st' : rst) : Prop :=
    r_nb st' = r_nb st + length cs /\ r_new st' = r_new st ++ seq (r_nb st + 1) (length cs) /\
    r_dims st' = r_dims st ++ cs /\ r_d2i st' = r_d2i st /\
    forall i j, r_adj st' i j = true <-> (r_adj st i j = true \/ (i = p /\ r_nb st < j <= r_nb st + length cs)).
  Lemma rt_child_ok p ds st : r_nb st + 1 <= 2 * order -> exists st', rt_child order p ds st = Some st' /\ addc p [ds] st st'.
  Proof.
    intros H. unfold rt_child. rewrite (proj2 (Nat.leb_le _ _)) by auto. eexists. split; [reflexivity|]. unfold addc. cbn [r_nb r_new r_dims r_d2i r_adj length seq].
    split; auto. split; auto. split; auto. split; auto. intros i j. destruct (Nat.eqb_spec i p); destruct (Nat.eqb_spec j (r_nb st + 1)); cbn [andb]; split; intros K; auto; try lia.
    all: destruct K as [K|K]; auto; lia.
  Qed.
  Lemma addc_app p c1 c2 s1 s2 s3 : addc p c1 s1 s2 -> addc p c2 s2 s3 -> addc p (c1 ++ c2) s1 s3.
  Proof.
    intros (A1 & A2 & A3 & A4 & A5) (B1 & B2 & B3 & B4 & B5). unfold addc. rewrite app_length. split; [lia|]. split.
    - rewrite B2, A2, A1, <- app_assoc. f_equal. rewrite seq_app. f_equal. f_equal. lia.
    - split; [rewrite B3, A3, <- app_assoc; auto|]. split; [congruence|]. intros i j. rewrite B5, A5, A1.
      split; intros K; [destruct K as [[K|K]|K]|destruct K as [K|K]]; auto; try (right; lia).
      destruct (Nat.le_gt_cases j (r_nb s1 + length c1)); [left; right; lia|right; lia].
  Qed.
  Lemma sel_split_perm (ds p : list nat) : NoDup p -> Forall (fun k => k < length ds) p -> Permutation (sel 0 ds p ++ sel 0 ds (compl (length ds) p)) ds.
  Proof.
    intros ND F. unfold sel. rewrite <- map_app. apply Permutation_trans with (sel 0 ds (seq 0 (length ds))).
    - unfold sel. apply Permutation_map. apply app_compl_perm; auto.
    - rewrite sel_seq; auto.
  Qed.
  Lemma children_ok p a : forall m k ds st, 2 <= a -> k + m = a -> m <= length ds -> 1 <= m -> r_nb st + m <= 2 * order ->
    exists st' cs, rt_children ri rp order p a (seq k m) ds st = Some st' /\ length cs = m /\ Forall (fun c => 1 <= length c) cs /\
      Permutation (concat cs) ds /\ addc p cs st st'.
  Proof.
    induction m as [|m IH]; intros k ds st Ha Hk Hl Hm Hn; [lia|]. cbn [seq rt_children]. destruct (Nat.eqb_spec k (a - 1)) as [Ek|Ek].
    - destruct (rt_child_ok p ds st) as (st' & E & HA); [lia|]. exists st', [ds]. assert (m = 0) by lia. subst m. split; auto. split; auto. split; [repeat constructor; lia|].
      cbn. rewrite app_nil_r. auto.
    - cbv zeta. set (b := length ds + k + 2 - a). destruct (Nat.eqb_spec b 0) as [Eb|_]; [unfold b in Eb; lia|].
      set (nc := Nat.max (ri p (k + 1) 0 b) 1). assert (Hnc : 1 <= nc <= length ds - m). { unfold nc. pose proof (RI p (k + 1) 0 b). unfold b in *. lia. }
      set (pm := firstn nc (rp p k (length ds))). pose proof (RP p k (length ds)) as HP. pose proof (is_perm_length _ _ HP) as LP.
      assert (Lpm : length pm = nc) by (unfold pm; rewrite firstn_length; lia).
      assert (ND : NoDup pm). { pose proof (is_perm_NoDup _ _ HP) as Q. rewrite <- (firstn_skipn nc (rp p k (length ds))) in Q. exact (proj1 (NoDup_app_inv' _ _ Q)). }
      assert (FP : Forall (fun i => i < length ds) pm). { apply Forall_forall. intros i Hi. apply (is_perm_in _ _ _ HP). unfold pm in Hi. rewrite <- (firstn_skipn nc (rp p k (length ds))). apply in_or_app; auto. }
      assert (PM := sel_split_perm ds pm ND FP). set (rest := sel 0 ds (compl (length ds) pm)) in *.
      assert (Lr : nc + length rest = length ds). { apply Permutation_length in PM. rewrite app_length, sel_length in PM. lia. }
      destruct (rt_child_ok p (sel 0 ds pm) st) as (st1 & E1 & HA1); [lia|]. rewrite E1. cbn [bind].
      destruct (Nat.eqb_spec (length rest) 0); [lia|].
      destruct (IH (S k) rest st1) as (st2 & cs & E2 & Lc & Fc & Pc & HA2); try lia.
      { destruct HA1 as (Q & _). cbn [length] in Q. lia. }
      exists st2, (sel 0 ds pm :: cs). split; auto. split; [cbn; lia|]. split; [constructor; auto; rewrite sel_length; lia|]. split.
      + cbn [concat]. eapply Permutation_trans; [apply Permutation_app_head; exact Pc|exact PM].
      + exact (addc_app p [sel 0 ds pm] cs st st1 st2 HA1 HA2).
  Qed.

  Definition dn (st : rst) (n : nat) : list nat := nth (n - 1) (r_dims st) [].
  Definition leafq (st : rst) (n : nat) : bool := length (dn st n) =? 1.
  Definition front (q : nat) (st : rst) : list nat := filter (leafq st) (seq 1 q) ++ seq (q + 1) (r_nb st - q).
  (** the nodes 1..q are processed *)
  Record inv (q : nat) (st : rst) : Prop := {
    v_q : q <= r_nb st;
    v_len : length (r_dims st) = r_nb st;
    v_d2i : length (r_d2i st) = order;
    v_pos : forall n, 1 <= n <= r_nb st -> 1 <= length (dn st n);
    v_perm : Permutation (flat_map (dn st) (front q st)) (seq 0 order);
    v_cnt : r_nb st + 1 <= 2 * length (front q st);
    v_adj : forall p c, r_adj st p c = true -> 1 <= p <= q /\ p < c <= r_nb st /\ leafq st p = false;
    v_par : forall c, 2 <= c <= r_nb st -> exists p, r_adj st p c = true /\ forall p', r_adj st p' c = true -> p' = p;
    v_ch : forall p, 1 <= p <= q -> leafq st p = false -> exists b k, 2 <= k <= hi /\ b + k <= r_nb st /\ forall c, r_adj st p c = true <-> b < c <= b + k;
    v_leaf : forall n d, 1 <= n <= q -> dn st n = [d] -> nth ((d + (order - 1)) mod order) (r_d2i st) 0 = n
  }.
  Local Notation step := (rt_node ri rp order lo hi).
  Lemma flat_disj {A B} (f : A -> list B) l a b x : NoDup (flat_map f l) -> In a l -> In b l -> In x (f a) -> In x (f b) -> NoDup l -> a = b.
  Proof.
    induction l as [|c l IH]; intros ND Ha Hb Xa Xb NL; [destruct Ha|]. cbn [flat_map] in ND. inversion NL as [|? ? NI NL']; subst.
    destruct (NoDup_app_inv' _ _ ND) as (_ & ND2 & D).
    destruct Ha as [->|Ha], Hb as [->|Hb]; auto.
    - exfalso. apply (D x Xa). apply in_flat_map. eauto.
    - exfalso. apply (D x Xb). apply in_flat_map. eauto.
  Qed.
  Lemma idx_lt d : (d + (order - 1)) mod order < order.
  Proof. apply Nat.mod_upper_bound. lia. Qed.
  Lemma idx_val d : d < order -> (d + (order - 1)) mod order = if d =? 0 then order - 1 else d - 1.
  Proof.
    intros H. destruct (Nat.eqb_spec d 0) as [->|].
    - apply Nat.mod_small. lia.
    - replace (d + (order - 1)) with (d - 1 + 1 * order) by lia. rewrite Nat.mod_add by lia. apply Nat.mod_small. lia.
  Qed.
  Lemma idx_inj d e : d < order -> e < order -> (d + (order - 1)) mod order = (e + (order - 1)) mod order -> d = e.
  Proof. intros Hd He. rewrite !idx_val by auto. destruct (Nat.eqb_spec d 0), (Nat.eqb_spec e 0); lia. Qed.
  Lemma NoDup_front q st : NoDup (front q st).
  Proof.
    unfold front. apply NoDup_app; [apply NoDup_filter, seq_NoDup|apply seq_NoDup|].
    intros x H1 H2. apply filter_In in H1. destruct H1 as [H1 _]. apply in_seq in H1. apply in_seq in H2. lia.
  Qed.
  Lemma in_front q st n : q <= r_nb st -> In n (front q st) <-> (1 <= n <= q /\ leafq st n = true) \/ q < n <= r_nb st.
  Proof.
    intros Hq. unfold front. rewrite in_app_iff, filter_In, !in_seq. split; intros [H|H]; [left|right|left|right]; try lia.
    - split; [lia|tauto].
    - split; [lia|tauto].
  Qed.
  Lemma filter_seq_S f q : filter f (seq 1 (q + 1)) = filter f (seq 1 q) ++ (if f (q + 1) then [q + 1] else []).
  Proof. rewrite seq_app, filter_app. cbn [seq filter]. replace (1 + q) with (q + 1) by lia. destruct (f (q + 1)); auto. Qed.
  Lemma seq_pop q n : q < n -> seq (q + 1) (n - q) = (q + 1) :: seq (q + 2) (n - (q + 1)).
  Proof. intros H. replace (n - q) with (S (n - (q + 1))) by lia. cbn [seq]. f_equal. f_equal. lia. Qed.
  Lemma in_dn_lt q st n d : inv q st -> In n (front q st) -> In d (dn st n) -> d < order.
  Proof. intros HI Hn Hd. assert (In d (seq 0 order)) by (apply (Permutation_in _ (v_perm _ _ HI)); apply in_flat_map; eauto). apply in_seq in H. lia. Qed.
  Lemma node_leaf q st : inv q st -> q < r_nb st -> leafq st (q + 1) = true ->
    exists st', step st (q + 1) = Some st' /\ r_new st' = r_new st /\ r_nb st' = r_nb st /\ inv (q + 1) st'.
  Proof.
    intros HI Hq HL. unfold rt_node. replace (q + 1 - 1) with q by lia. change (length (nth q (r_dims st) []) =? 1) with (length (nth q (r_dims st) []) =? 1).
    assert (E : nth q (r_dims st) [] = dn st (q + 1)) by (unfold dn; f_equal; lia). rewrite E. unfold leafq in HL. rewrite HL. eexists. split; [reflexivity|]. cbn [r_new r_nb]. split; auto. split; auto.
    apply Nat.eqb_eq in HL. destruct (dn st (q + 1)) as [|d [|]] eqn:Ed; try discriminate. cbn [nth].
    set (st' := RT _ _ _ _ _). assert (D : forall n, dn st' n = dn st n) by reflexivity. assert (LQ : forall n, leafq st' n = leafq st n) by reflexivity.
    assert (EF : front (q + 1) st' = front q st).
    { unfold front. rewrite filter_seq_S. cbn [r_nb st']. assert (LT : leafq st' (q + 1) = true) by (unfold leafq; rewrite D, Ed; auto). rewrite LT.
      rewrite (seq_pop q (r_nb st)) by auto. rewrite <- app_assoc. cbn [app]. do 2 f_equal. f_equal. lia. }
    assert (Hd : d < order) by (apply (in_dn_lt q st (q + 1) d HI); [apply in_front; lia|rewrite Ed; simpl; auto]).
    destruct HI as [H1 H2 H3 H4 H5 H6 H7 H8 H9 H10]. constructor; cbn [r_nb r_dims r_d2i r_adj st']; auto.
    - lia.
    - rewrite upd_length. auto.
    - rewrite EF. auto.
    - rewrite EF. auto.
    - intros p c K. destruct (H7 p c K) as (K1 & K2 & K3). split; [lia|auto].
    - intros p Hp Hl. apply H9; auto. destruct (Nat.eq_dec p (q + 1)) as [->|]; [|lia]. rewrite LQ in Hl. unfold leafq in Hl. rewrite Ed in Hl. discriminate.
    - intros n e Hn He. rewrite D in He. destruct (Nat.eq_dec n (q + 1)) as [->|NE].
      + rewrite Ed in He. assert (e = d) by congruence. subst e. apply nth_upd_eq. rewrite H3. apply idx_lt.
      + assert (Q1 : In n (front q st)) by (apply in_front; auto; left; split; [lia|unfold leafq; rewrite He; auto]).
        assert (Q2 : In (q + 1) (front q st)) by (apply in_front; auto; lia).
        rewrite nth_upd_neq; [apply H10; auto; lia|]. intros EQ. apply NE. apply idx_inj in EQ; auto.
        * subst e. apply (flat_disj (dn st) (front q st) n (q + 1) d); auto using NoDup_front.
          -- eapply Permutation_NoDup; [apply Permutation_sym; exact H5|apply seq_NoDup].
          -- rewrite He. simpl; auto.
          -- rewrite Ed. simpl; auto.
        * assert (In e (seq 0 order)) by (apply (Permutation_in _ H5); apply in_flat_map; exists n; split; auto; rewrite He; simpl; auto). apply in_seq in H. lia.
  Qed.
  Lemma flat_len (f : nat -> list nat) l : (forall n, In n l -> 1 <= length (f n)) -> length l <= length (flat_map f l).
  Proof. induction l as [|a l IH]; intros H; cbn [flat_map length]; [lia|]. rewrite app_length. specialize (IH (fun n K => H n (or_intror K))). specialize (H a (or_introl eq_refl)). lia. Qed.
  Lemma node_int q st : inv q st -> q < r_nb st -> leafq st (q + 1) = false ->
    exists st' k, step st (q + 1) = Some st' /\ r_new st' = r_new st ++ seq (r_nb st + 1) k /\ r_nb st' = r_nb st + k /\ inv (q + 1) st'.
  Proof.
    intros HI Hq HL. assert (E : nth q (r_dims st) [] = dn st (q + 1)) by (unfold dn; f_equal; lia).
    assert (P1 : 1 <= length (dn st (q + 1))) by (apply (v_pos _ _ HI); lia). pose proof HL as HL'. unfold leafq in HL'. apply Nat.eqb_neq in HL'.
    unfold rt_node. replace (q + 1 - 1) with q by lia. rewrite E. unfold leafq in HL. rewrite HL. fold (leafq st (q + 1)) in HL.
    rewrite (proj2 (Nat.ltb_lt lo (hi + 1))) by lia. cbv zeta. set (a := Nat.min (ri (q + 1) 0 lo (hi + 1)) (length (dn st (q + 1)))).
    assert (Ha : 2 <= a <= hi /\ a <= length (dn st (q + 1))). { pose proof (RI (q + 1) 0 lo (hi + 1)). unfold a. lia. }
    set (F := filter (leafq st) (seq 1 q)). set (T := seq (q + 2) (r_nb st - (q + 1))).
    assert (EF : front q st = F ++ (q + 1) :: T) by (unfold front; rewrite seq_pop by auto; auto).
    assert (LE : length F + length T + length (dn st (q + 1)) <= order).
    { pose proof (Permutation_length (v_perm _ _ HI)) as Q. rewrite seq_length, EF, flat_map_app, app_length in Q. cbn [flat_map] in Q. rewrite app_length in Q.
      assert (length F <= length (flat_map (dn st) F)). { apply flat_len. intros n Hn. apply filter_In in Hn. destruct Hn as [Hn _]. apply in_seq in Hn. apply (v_pos _ _ HI). lia. }
      assert (length T <= length (flat_map (dn st) T)). { apply flat_len. intros n Hn. apply in_seq in Hn. apply (v_pos _ _ HI). lia. } lia. }
    assert (CN := v_cnt _ _ HI). rewrite EF, app_length in CN. cbn [length] in CN.
    destruct (children_ok (q + 1) a a 0 (dn st (q + 1)) st) as (st' & cs & E1 & Lc & Fc & Pc & (A1 & A2 & A3 & A4 & A5)); try lia.
    exists st', a. rewrite Lc in *. split; auto. split; auto. split; auto.
    assert (D1 : forall n, 1 <= n <= r_nb st -> dn st' n = dn st n). { intros n Hn. unfold dn. rewrite A3. apply app_nth1. rewrite (v_len _ _ HI). lia. }
    assert (D2 : forall j, j < a -> dn st' (r_nb st + 1 + j) = nth j cs []). { intros j Hj. unfold dn. rewrite A3, app_nth2 by (rewrite (v_len _ _ HI); lia). f_equal. rewrite (v_len _ _ HI). lia. }
    assert (LQ : forall n, 1 <= n <= r_nb st -> leafq st' n = leafq st n) by (intros n Hn; unfold leafq; rewrite D1; auto).
    assert (EF' : front (q + 1) st' = F ++ T ++ seq (r_nb st + 1) a).
    { unfold front. rewrite filter_seq_S. rewrite LQ, HL, app_nil_r by lia. f_equal.
      - apply filter_ext_in. intros n Hn. apply in_seq in Hn. apply LQ. lia.
      - rewrite A1. unfold T. replace (r_nb st + a - (q + 1)) with ((r_nb st - (q + 1)) + a) by lia. rewrite seq_app. f_equal; f_equal; lia. }
    assert (EC : flat_map (dn st') (seq (r_nb st + 1) a) = concat cs).
    { rewrite flat_map_concat_map. f_equal. apply nth_ext' with (d := []); [rewrite map_length, seq_length; auto|]. intros j Hj. rewrite map_length, seq_length in Hj.
      rewrite (map_nth_in (dn st') (seq (r_nb st + 1) a) j 0 []) by (rewrite seq_length; auto). rewrite seq_nth by auto. apply D2. auto. }
    pose proof HI as HI0. destruct HI as [H1 H2 H3 H4 H5 H6 H7 H8 H9 H10]. constructor.
    - lia.
    - rewrite A3, app_length. lia.
    - congruence.
    - intros n Hn. destruct (Nat.le_gt_cases n (r_nb st)); [rewrite D1 by lia; apply H4; lia|].
      replace n with (r_nb st + 1 + (n - r_nb st - 1)) by lia. rewrite D2 by lia. apply (proj1 (Forall_nth' _ _ []) Fc). lia.
    - rewrite EF', !flat_map_app, EC. rewrite EF, flat_map_app in H5. cbn [flat_map] in H5.
      assert (G1 : flat_map (dn st') F = flat_map (dn st) F). { rewrite !flat_map_concat_map. f_equal. apply map_ext_in. intros n Hn. apply filter_In in Hn. destruct Hn as [Hn _]. apply in_seq in Hn. apply D1. lia. }
      assert (G2 : flat_map (dn st') T = flat_map (dn st) T). { rewrite !flat_map_concat_map. f_equal. apply map_ext_in. intros n Hn. apply in_seq in Hn. apply D1. lia. }
      rewrite G1, G2. eapply Permutation_trans; [|exact H5]. apply Permutation_app_head. eapply Permutation_trans; [apply Permutation_app_comm|]. apply Permutation_app_tail. exact Pc.
    - rewrite EF', !app_length, seq_length. lia.
    - intros p c K. apply A5 in K. destruct K as [K|K].
      + destruct (H7 p c K) as (K1 & K2 & K3). split; [lia|]. split; [lia|]. rewrite LQ by lia. auto.
      + destruct K as [-> K]. split; [lia|]. split; [lia|]. rewrite LQ by lia. auto.
    - intros c Hc. destruct (Nat.le_gt_cases c (r_nb st)) as [Hc'|Hc'].
      + destruct (H8 c) as (p & K1 & K2); [lia|]. exists p. split; [apply A5; auto|]. intros p' K. apply A5 in K. destruct K as [K|K]; auto. lia.
      + exists (q + 1). split; [apply A5; right; lia|]. intros p' K. apply A5 in K. destruct K as [K|K]; [apply H7 in K; lia|lia].
    - intros p Hp Hl. destruct (Nat.eq_dec p (q + 1)) as [->|NE].
      + exists (r_nb st), a. split; [lia|]. split; [lia|]. intros c. rewrite A5. split; intros K; [|right; auto]. destruct K as [K|K]; [apply H7 in K; lia|lia].
      + rewrite LQ in Hl by lia. destruct (H9 p) as (b & k & K1 & K2 & K3); [lia|auto|]. exists b, k. split; auto. split; [lia|]. intros c. rewrite A5, K3. split; intros K; [|left; auto]. destruct K as [K|K]; auto. lia.
    - intros n d Hn Hd. rewrite A4. destruct (Nat.eq_dec n (q + 1)) as [->|NE].
      + rewrite D1 in Hd by lia. unfold leafq in HL. rewrite Hd in HL. discriminate.
      + rewrite D1 in Hd by lia. apply H10; auto. lia.
  Qed.
  Lemma pass_ok : forall m q st, inv q st -> q + m <= r_nb st -> r_new st = seq (q + m + 1) (r_nb st - (q + m)) ->
    exists st', ofold step (seq (q + 1) m) st = Some st' /\ inv (q + m) st' /\ r_new st' = seq (q + m + 1) (r_nb st' - (q + m)).
  Proof.
    induction m as [|m IH]; intros q st HI Hq HN.
    - cbn [seq ofold]. exists st. rewrite Nat.add_0_r in *. auto.
    - cbn [seq ofold]. destruct (leafq st (q + 1)) eqn:HL.
      + destruct (node_leaf q st HI) as (st1 & E1 & N1 & B1 & I1); [lia|auto|]. rewrite E1. destruct (IH (q + 1) st1 I1) as (st' & E' & I' & N'); [lia| |].
        * rewrite N1, B1, HN. f_equal; lia.
        * exists st'. replace (S (q + 1)) with (q + 1 + 1) by lia. replace (q + S m) with (q + 1 + m) by lia. auto.
      + destruct (node_int q st HI) as (st1 & k & E1 & N1 & B1 & I1); [lia|auto|]. rewrite E1. destruct (IH (q + 1) st1 I1) as (st' & E' & I' & N'); [lia| |].
        * rewrite N1, B1, HN. replace (r_nb st + k - (q + 1 + m)) with ((r_nb st - (q + 1 + m)) + k) by lia. rewrite seq_app. f_equal; f_equal; lia.
        * exists st'. replace (S (q + 1)) with (q + 1 + 1) by lia. replace (q + S m) with (q + 1 + m) by lia. auto.
  Qed.
  Lemma inv_bound q st : inv q st -> r_nb st + 1 <= 2 * order.
  Proof.
    intros HI. pose proof (Permutation_length (v_perm _ _ HI)) as Q. rewrite seq_length in Q.
    assert (length (front q st) <= length (flat_map (dn st) (front q st))). { apply flat_len. intros n Hn. apply in_front in Hn; [|apply (v_q _ _ HI)]. apply (v_pos _ _ HI). pose proof (v_q _ _ HI). lia. }
    pose proof (v_cnt _ _ HI). lia.
  Qed.
  Lemma inv_new q st l : inv q st -> inv q (RT (r_nb st) l (r_adj st) (r_dims st) (r_d2i st)).
  Proof. intros [H1 H2 H3 H4 H5 H6 H7 H8 H9 H10]. constructor; auto. Qed.
  Lemma loop_ok : forall fuel q st, inv q st -> r_new st = seq (q + 1) (r_nb st - q) -> 2 * order <= fuel + q ->
    exists st', rt_loop ri rp order lo hi fuel st = Some st' /\ inv (r_nb st') st'.
  Proof.
    induction fuel as [|f IH]; intros q st HI HN HF; pose proof (v_q _ _ HI) as Hq; pose proof (inv_bound _ _ HI) as HB.
    - lia.
    - cbn [rt_loop]. destruct (Nat.eq_dec (r_nb st) q) as [Eq|NE].
      + replace (r_nb st - q) with 0 in HN by lia. rewrite HN. cbn [seq]. exists st. split; auto. rewrite Eq at 1. auto.
      + destruct (r_new st) as [|x l] eqn:EN; [exfalso; apply (f_equal (@length nat)) in HN; rewrite seq_length in HN; cbn in HN; lia|].
        rewrite HN. destruct (pass_ok (r_nb st - q) q (RT (r_nb st) [] (r_adj st) (r_dims st) (r_d2i st))) as (st1 & E1 & I1 & N1).
        * apply inv_new. auto.
        * cbn [r_nb]. lia.
        * cbn [r_nb r_new]. replace (r_nb st - (q + (r_nb st - q))) with 0 by lia. reflexivity.
        * rewrite E1. cbn [bind]. apply (IH (q + (r_nb st - q)) st1 I1 N1). lia.
  Qed.
  Theorem random_ok : exists t, dt_random ri rp order lo hi = Some t /\ dim_tree t 1 /\ length (d2i t) = order /\
    forall n, node t n -> is_leaf t n = false -> 2 <= length (children t n) <= hi.
  Proof.
    set (st0 := RT 1 [1] (fun _ _ => false) [seq 0 order] (repeat 0 order)).
    assert (I0 : inv 0 st0).
    { constructor; cbn [r_nb r_dims r_d2i r_adj st0]; auto.
      - apply repeat_length.
      - intros n Hn. assert (n = 1) by lia. subst. unfold dn. cbn. rewrite seq_length. auto.
      - unfold front. cbn. unfold dn. cbn. rewrite app_nil_r. apply Permutation_refl.
      - intros; discriminate.
      - intros; lia.
      - intros; lia.
      - intros; lia. }
    destruct (loop_ok (2 * order + 1) 0 st0 I0 eq_refl) as (st & E & HI); [lia|]. unfold dt_random. fold st0. rewrite E. cbn [bind].
    eexists. split; [reflexivity|]. set (t := DT _ _ _).
    assert (HE : forall p c, edge t p c <-> r_adj st p c = true).
    { intros p c. unfold edge, node. cbn [nbn adj t]. split; [tauto|]. intros K. destruct (v_adj _ _ HI _ _ K) as (K1 & K2 & _). split; [lia|]. split; [lia|auto]. }
    assert (HLf : forall n, node t n -> (leafq st n = true <-> forall c, ~ edge t n c)).
    { intros n Hn. unfold node in Hn. cbn [nbn t] in Hn. split.
      - intros HL c He. apply HE in He. apply (v_adj _ _ HI) in He. destruct He as (_ & _ & He). congruence.
      - intros HC. destruct (leafq st n) eqn:HL; auto. exfalso. destruct (v_ch _ _ HI n Hn HL) as (b & k & K1 & K2 & K3). apply (HC (b + 1)). apply HE. apply K3. lia. }
    assert (Hfr : forall n, In n (front (r_nb st) st) <-> node t n /\ leafq st n = true).
    { intros n. rewrite in_front by auto. unfold node. cbn [nbn t]. split; intros K; [destruct K as [K|K]|]; [tauto|lia|left; tauto]. }
    assert (HD : forall d, d < order -> exists n, node t n /\ dn st n = [d]).
    { intros d Hd. assert (K : In d (flat_map (dn st) (front (r_nb st) st))) by (apply (Permutation_in _ (Permutation_sym (v_perm _ _ HI))); apply in_seq; lia).
      apply in_flat_map in K. destruct K as (n & K1 & K2). apply Hfr in K1. destruct K1 as [K1 K3]. exists n. split; auto. unfold leafq in K3. apply Nat.eqb_eq in K3.
      destruct (dn st n) as [|e [|]]; try discriminate. destruct K2 as [->|[]]. auto. }
    assert (HG : forall i, i < order -> exists n, node t n /\ dn st n = [(i + 1) mod order] /\ nth i (d2i t) 0 = n).
    { intros i Hi. destruct (HD ((i + 1) mod order)) as (n & Hn & Hdn); [apply Nat.mod_upper_bound; lia|]. exists n. split; auto. split; auto. cbn [d2i t].
      rewrite <- (v_leaf _ _ HI n _ Hn Hdn). f_equal. destruct (Nat.eq_dec (i + 1) order) as [Ei|Ei].
      - rewrite Ei, Nat.mod_same by lia. rewrite Nat.add_0_l, Nat.mod_small by lia. lia.
      - rewrite (Nat.mod_small (i + 1)) by lia. replace (i + 1 + (order - 1)) with (i + 1 * order) by lia. rewrite Nat.mod_add, Nat.mod_small by lia. auto. }
    assert (LD : length (d2i t) = order) by (cbn [d2i t]; apply (v_d2i _ _ HI)).
    assert (V : dim_tree t 1).
    { split; [|split].
      - split; [unfold node; cbn [nbn t]|split; [|split]].
        + pose proof (v_cnt _ _ HI) as Q. destruct (r_nb st) eqn:EN; [|lia]. unfold front in Q. rewrite EN in Q. cbn in Q. lia.
        + intros p He. apply HE in He. apply (v_adj _ _ HI) in He. lia.
        + intros c Hc NE. unfold node in Hc. cbn [nbn t] in Hc. destruct (v_par _ _ HI c) as (p & K1 & K2); [lia|]. exists p. split; [apply HE; auto|]. intros p' K. apply HE in K. auto.
        + intros c. induction c as [c IH] using lt_wf_ind. intros Hc. destruct (Nat.eq_dec c 1) as [->|NE]; [apply below_refl|].
          unfold node in Hc. cbn [nbn t] in Hc. destruct (v_par _ _ HI c) as (p & K1 & _); [lia|]. pose proof (v_adj _ _ HI _ _ K1) as (K2 & K3 & _).
          destruct (IH p) as [k Hk]; [lia|unfold node; cbn [nbn t]; lia|]. exists (S k). apply depth_child with (p := p); auto. apply HE; auto.
      - apply (NoDup_nth _ 0). intros i j Hi Hj EQ. rewrite LD in Hi, Hj. destruct (HG i Hi) as (n & N1 & N2 & N3). destruct (HG j Hj) as (m & M1 & M2 & M3).
        assert (n = m) by congruence. subst m. assert (EM : (i + 1) mod order = (j + 1) mod order) by congruence.
        destruct (Nat.eq_dec (i + 1) order) as [Ei|Ei], (Nat.eq_dec (j + 1) order) as [Ej|Ej]; try lia; rewrite ?Ei, ?Ej, ?Nat.mod_same, ?Nat.mod_small in EM by lia; try lia.
      - intros n. split.
        + intros Hn. apply (In_nth _ _ 0) in Hn. destruct Hn as (i & Hi & En). rewrite LD in Hi. destruct (HG i Hi) as (m & M1 & M2 & M3). assert (m = n) by congruence. clear M3. subst m. split; auto.
          apply (proj1 (HLf n M1)). unfold leafq. rewrite M2. auto.
        + intros [Hn HC]. apply (proj2 (HLf n Hn)) in HC. unfold leafq in HC. apply Nat.eqb_eq in HC. destruct (dn st n) as [|d [|]] eqn:Ed; try discriminate.
          rewrite <- (v_leaf _ _ HI n d Hn Ed). apply nth_In. rewrite LD. apply idx_lt. }
    split; auto. split; auto. intros n Hn HL.
    assert (HL2 : leafq st n = false). { destruct (leafq st n) eqn:Q; auto. exfalso. rewrite (proj2 (leaf_iff t 1 V n)) in HL; [discriminate|]. split; auto. apply (proj1 (HLf n Hn)); auto. }
    unfold node in Hn. cbn [nbn t] in Hn. destruct (v_ch _ _ HI n Hn HL2) as (b & k & K1 & K2 & K3).
    assert (EC : children t n = seq (b + 1) k).
    { unfold children, nodes. cbn [nbn adj t]. replace (r_nb st) with (b + (k + (r_nb st - b - k))) by lia. rewrite !seq_app, !filter_app.
      rewrite (filter_no _ (seq 1 b)), (filter_all _ (seq (1 + b) k)), (filter_no _ (seq (1 + b + k) _)).
      - rewrite app_nil_r. cbn [app]. f_equal. lia.
      - intros x Hx. apply in_seq in Hx. destruct (r_adj st n x) eqn:Q; auto. apply K3 in Q. lia.
      - intros x Hx. apply in_seq in Hx. apply K3. lia.
      - intros x Hx. apply in_seq in Hx. destruct (r_adj st n x) eqn:Q; auto. apply K3 in Q. lia. }
    rewrite EC, seq_length. auto.
  Qed.
End Random.

(** the second result of change_root *)
Lemma rev_out a A i j : (~ In i a \/ ~ In j a) -> reverse_edges a A i j = A i j.
Proof.
  intros H. unfold reverse_edges.
  assert (G : forall l A, (forall x y, In (x, y) l -> In x a /\ In y a) ->
    fold_left (fun A p => fun i j => if (i =? snd p) && (j =? fst p) then false else if (i =? fst p) && (j =? snd p) then true else A i j) l A i j = A i j).
  { induction l as [|(x, y) l IH]; intros B HB; cbn [fold_left]; auto. rewrite IH by (intros; apply HB; simpl; auto). cbn [fst snd].
    destruct (HB x y (or_introl eq_refl)) as [Hx Hy].
    destruct (Nat.eqb_spec i y), (Nat.eqb_spec j x), (Nat.eqb_spec i x), (Nat.eqb_spec j y); cbn [andb]; auto; subst; tauto. }
  apply G. intros x y K. split; [eapply in_combine_l; eauto|]. apply in_combine_r in K. destruct a; [destruct K|right; auto].
Qed.
Lemma sumn_map_ext l (f g : nat -> nat) : (forall x, In x l -> f x = g x) -> sumn (map f l) = sumn (map g l).
Proof. intros H. f_equal. apply map_ext_in. auto. Qed.
Lemma modified_ok t r nod : dim_tree t r -> node t nod ->
  NoDup (dt_modified t nod) /\ Forall (node t) (dt_modified t nod) /\
  forall n, node t n -> ~ In n (dt_modified t nod) -> parent (dt_change_root t nod) n = parent t n /\ children (dt_change_root t nod) n = children t n.
Proof.
  intros V Hnod. unfold dt_modified, dt_change_root. destruct (nod =? root t); [split; [constructor|split; [constructor|auto]]|].
  set (a := nod :: ascendants t nod). split; [apply NoDup_filter; unfold nodes; apply seq_NoDup|]. split.
  { apply Forall_forall. intros n Hn. apply filter_In in Hn. destruct Hn as [Hn _]. unfold nodes in Hn. apply in_seq in Hn. unfold node. lia. }
  intros n Hn NI. assert (Hna : ~ In n a).
  { intros K. apply NI. apply filter_In. split; [unfold nodes, node in *; apply in_seq; lia|]. apply inb_spec. destruct K as [->|K]; [left; auto|]. right. apply in_or_app. right. apply in_flat_map. exists n. split; auto. left; auto. }
  assert (Hne : n <> nod) by (intros ->; apply Hna; left; auto). unfold node in Hn, Hnod.
  assert (R1 : forall i, reverse_edges a (adj t) i n = adj t i n) by (intros; apply rev_out; auto).
  assert (R2 : forall j, reverse_edges a (adj t) n j = adj t n j) by (intros; apply rev_out; auto).
  destruct (is_leaf t nod).
  - split; unfold parent, children, nodes; cbn [nbn adj].
    + rewrite Nat.add_1_r, seq_S, map_app. cbn [map]. replace (1 + nbn t) with (nbn t + 1) by lia. rewrite (proj2 (Nat.leb_gt (nbn t + 1) (nbn t))) by lia. cbn [andb].
      rewrite (proj2 (Nat.eqb_neq (nbn t + 1) nod)) by lia. cbn [andb].
      assert (Z : forall l, sumn (l ++ [0]) = sumn l) by (intros l; induction l; cbn; auto). rewrite Z. apply sumn_map_ext. intros x Hx. apply in_seq in Hx.
      rewrite (proj2 (Nat.leb_le x _)), (proj2 (Nat.leb_le n _)) by lia. cbn [andb]. rewrite R1. auto.
    + rewrite Nat.add_1_r, seq_S, filter_app. replace (1 + nbn t) with (nbn t + 1) by lia. cbn [filter]. rewrite (proj2 (Nat.leb_gt (nbn t + 1) (nbn t))) by lia. rewrite andb_false_r.
      rewrite (proj2 (Nat.eqb_neq n nod)) by lia. cbn [andb]. rewrite app_nil_r. apply filter_ext_in. intros x Hx. apply in_seq in Hx.
      rewrite (proj2 (Nat.leb_le x _)), (proj2 (Nat.leb_le n _)) by lia. cbn [andb]. apply R2.
  - split; unfold parent, children, nodes; cbn [nbn adj].
    + apply sumn_map_ext. intros x _. rewrite R1. auto.
    + apply filter_ext. intros x. apply R2.
Qed.
(** a root with one child: after a change of root, the old root is a leaf without dimension *)
Definition one_child : dtree := DT 4 [3; 4] (fun i j => ((i =? 1) && (j =? 2)) || ((i =? 2) && ((j =? 3) || (j =? 4)))).
Lemma one_child_ok : dim_tree one_child 1.
Proof.
  assert (HA : forall p c, node one_child p -> node one_child c -> (adj one_child p c = true <-> c <> 1 /\ p = if c =? 2 then 1 else 2)).
  { intros p c Hp Hc. unfold node in *. cbn in Hp, Hc. destruct p as [|[|[|[|[|p]]]]]; try lia; destruct c as [|[|[|[|[|c]]]]]; try lia; vm_compute; intuition congruence. }
  split; [|split].
  - apply rooted_by_parent with (par := fun c => if c =? 2 then 1 else 2); auto; [cbn; lia|]. intros c Hc NE. unfold node in Hc. destruct (Nat.eqb_spec c 2); lia.
  - repeat constructor; simpl; intuition lia.
  - intros n. cbn [d2i one_child]. split.
    + intros K. assert (Hn : node one_child n) by (unfold node; cbn; destruct K as [<-|[<-|[]]]; lia). split; auto. intros c (_ & Hc & He). apply HA in He; auto. destruct (Nat.eqb_spec c 2); destruct K as [<-|[<-|[]]]; lia.
    + intros [Hn HC]. unfold node in Hn. cbn in Hn. destruct n as [|[|[|[|[|n]]]]]; try lia; simpl; auto; exfalso.
      * apply (HC 2). unfold edge, node. cbn. repeat split; lia.
      * apply (HC 3). unfold edge, node. cbn. repeat split; lia.
Qed.
Lemma one_child_change r : ~ dim_tree (dt_change_root one_child 2) r.
Proof.
  intros (_ & _ & H). assert (K : In 1 (d2i (dt_change_root one_child 2))).
  { apply H. split; [unfold node; vm_compute; lia|]. intros c (_ & Hc & He). unfold node in Hc. change (nbn (dt_change_root one_child 2)) with 4 in Hc.
    destruct c as [|[|[|[|[|c]]]]]; try lia; vm_compute in He; discriminate. }
  vm_compute in K. intuition lia.
Qed.
Lemma linear_one r : ~ dim_tree (dt_linear 1 [0]) r.
Proof. intros (_ & _ & H). assert (K : node (dt_linear 1 [0]) 0) by (apply H; vm_compute; auto). unfold node in K. lia. Qed.
