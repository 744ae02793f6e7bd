(** Truncator.hsvd of a FullTensor: quasi-optimality. *)
From Coq Require Import List Arith Lia Bool Reals Lra.
From Verif.Base Require Import ListAux CRing Index RealAux.
From Verif.Model Require Import Sorting Numpy FullTensor Diagonal Canonical DimensionTree TreeBased Truncator HSVD.
From Verif.Spec Require Import TensorSpec TreeSpec TreeTensorSpec TruncatorSpec.
From Verif.Proofs Require Import NumpyP FullTensorP FullTensorP4 DimTreeP TreeTensorP TreeTensorP3 TreeTensorP4 TreeTensorP14 TreeTensorP17 TruncatorP TruncatorP2 TruncatorP3 TruncatorP4 FunctionalP4 ProjP PolyP5 EinsumP HsvdP HsvdP2 HsvdP3 HsvdP4 HsvdP5 HsvdP7.
Import ListNotations.
Local Open Scope R_scope.

Lemma below_up t r m p c : rooted_tree t r -> edge t p c -> below t m c <-> m = c \/ below t m p.
Proof.
  intros T He. split.
  - intros [k Hk]. destruct k as [|k]; [apply depth_inv0 in Hk; auto|]. apply depth_invS in Hk. destruct Hk as (q & Hq & Hqc).
    rewrite (rt_uniq t r T p q c He Hqc). right. exists k. auto.
  - intros [->|[k Hk]]; [apply below_refl|]. exists (S k). econstructor; eauto.
Qed.
Lemma below_dec t r m n : rooted_tree t r -> node t m -> node t n -> below t m n \/ ~ below t m n.
Proof.
  intros T Hm. apply (tree_down_ind t r T (fun n => below t m n \/ ~ below t m n)).
  - destruct (Nat.eq_dec m r) as [->|NE]; [left; apply below_refl|]. right. intros [k Hk]. destruct k as [|k]; [apply depth_inv0 in Hk; auto|].
    apply depth_invS in Hk. destruct Hk as (q & _ & Hq). apply (rt_no_edge t r T q Hq).
  - intros p c IH He. destruct (Nat.eq_dec m c) as [->|NE]; [left; apply below_refl|]. destruct IH as [IH|IH]; [left; apply (below_up t r m p c T He); auto|].
    right. intros K. apply (below_up t r m p c T He) in K. tauto.
Qed.

Section Quasi.
  Variable svd : nd R -> nd R * list R * nd R.
  Hypothesis SVD : svd_contract svd.
  Variables (tr : dtree) (r : nat).
  Hypothesis V : dim_tree tr r.
  Let T : rooted_tree tr r := proj1 V.
  Variables (act : list bool) (mr : list (option nat)) (ltol : R) (sA es : list nat).
  Hypothesis Hes : (length es <= 1)%nat.
  Hypothesis HPe : Forall (fun n => (0 < n)%nat) es.
  Hypothesis HPA : Forall (fun n => (0 < n)%nat) sA.
  Hypothesis LA : length sA = length (d2i tr).
  Hypothesis Lmr : length mr = nbn tr.
  Hypothesis HR : Forall (fun m => m <> Some 0%nat) mr.
  Notation an n := (nth (n - 1) act false).
  Hypothesis Hint : forall n, node tr n -> is_leaf tr n = false -> an n = true.
  Notation Inv := (Inv tr r act mr sA es).
  Notation hz := (hz tr act sA).
  Notation chs := (chs tr).
  Notation step := (hsvd_step svd tr act mr (length es =? 1)%nat ltol).

  (** the nodes of the frontier below the next node *)
  Lemma frontier l1 l2 n st c : hsvd_nodes tr = l1 ++ n :: l2 -> Inv l1 (n :: l2) st -> In c (hs_nx st) -> below tr n c <-> In c (chs n).
  Proof.
    intros EL HI Hc. destruct (s_node tr r V l1 l2 n EL) as [Hn Hr]. apply (i_in _ _ _ _ _ _ _ _ _ HI) in Hc. destruct Hc as (C1 & C2 & C3 & C4).
    rewrite in_chs by auto. split.
    - intros Hb. pose proof (parent_is_edge tr r T c C1 C2) as He. apply (below_up tr r n _ c T He) in Hb. destruct Hb as [->|Hb].
      + destruct (is_leaf tr c) eqn:E; auto. exfalso. destruct C3 as [C3|C3]; [congruence|]. apply (proj1 (s_nd tr r V l1 l2 c EL)). auto.
      + right. assert (NL : is_leaf tr n = false).
        { destruct (is_leaf tr n) eqn:E; auto. apply (leaf_iff tr r V) in E. apply below_step in Hb. destruct Hb as [Hb|(d & Hd & _)]; [rewrite Hb in He|]; exfalso; eapply (proj2 E); eauto. }
        split; auto. destruct C4 as [[C4|C4]|C4]; [rewrite <- C4 in He; auto| |].
        * exfalso. apply in_split in C4. destruct C4 as (u & v & E2). rewrite E2 in EL.
          assert (EL2 : hsvd_nodes tr = (l1 ++ n :: u) ++ parent tr c :: v) by (rewrite EL, <- app_assoc; auto).
          assert (Hlev : forall q m, depth tr n m q -> m <> n -> In m l1).
          { assert (Base : forall m, edge tr n m -> In m l1) by (intros m Hm; apply (hsvd_topo tr r T l1 n (u ++ parent tr c :: v) m EL Hm)).
            intros q m Hd. induction Hd as [|x y q Hd IH He']; [congruence|]. intros _. destruct (Nat.eq_dec x n) as [->|NE]; auto.
            specialize (IH NE). apply (s_l1 tr r V l1 (u ++ parent tr c :: v) n EL x IH). auto. }
          destruct Hb as [q Hq]. destruct (Nat.eq_dec (parent tr c) n) as [E|NE].
          -- destruct (s_nd tr r V l1 (u ++ parent tr c :: v) n EL) as [_ N2]. apply N2. rewrite E. apply in_or_app. simpl. auto.
          -- specialize (Hlev q _ Hq NE). destruct (s_nd tr r V (l1 ++ n :: u) v (parent tr c) EL2) as [N1 _]. apply N1. apply in_or_app. auto.
        * exfalso. rewrite C4 in Hb. destruct Hb as [q Hq]. destruct q as [|q]; [apply depth_inv0 in Hq; auto|]. apply depth_invS in Hq. destruct Hq as (x & _ & Hx). apply (rt_no_edge tr r T x Hx).
    - intros [[_ ->]|[_ He]]; [apply below_refl|]. apply (below_up tr r n n c T He). right. apply below_refl.
  Qed.
  Lemma hsvd_quasi : forall l2 l1 st st' g, hsvd_nodes tr = l1 ++ l2 -> Inv l1 l2 st -> ofold step l2 st = Some st' ->
    (forall m, In m l2 -> an m = true -> rankn (hs_nx st) (hz l1 (hs_c st)) es (below tr m) (last (shape (nthc (hs_c st') m)) 0%nat) g) ->
    frob2 (hs_Y st) - frob2 (hs_Y st') <= INR (nact act l2) * err2 (hs_Y st) g.
  Proof.
    induction l2 as [|n l2 IH]; intros l1 st st' g EL HI EF HK.
    - cbn [ofold] in EF. inversion EF. subst. cbn. lra.
    - assert (Hn := s_node tr r V l1 l2 n EL). destruct Hn as [Hn Hr]. destruct (s_nd tr r V l1 l2 n EL) as [N1 N2].
      assert (EL' : hsvd_nodes tr = (l1 ++ [n]) ++ l2) by (rewrite <- app_assoc; auto).
      cbn [ofold] in EF. destruct (an n) eqn:Ha.
      + destruct (step_active svd SVD tr r V act mr ltol sA es) with (l1 := l1) (l2 := l2) (n := n) (st := st) as (C & Y' & k & t' & ES & HI' & SC & SY' & Pk & HO & HG & Hz & F1 & F2 & F3 & _ & F4); auto.
        rewrite ES in EF. cbn [bind] in EF.
        destruct (hsvd_loop svd SVD tr r V act mr ltol sA es Hes HPe LA Lmr HR Hint l2 (l1 ++ [n]) _ EL' HI') as (st2 & EF2 & _ & HC & _).
        assert (E2 : st2 = st') by congruence. subst st2. cbn [hs_c] in HC.
        assert (ECn : nthc (hs_c st') n = C).
        { rewrite HC by (apply in_or_app; simpl; auto). unfold node in Hn. rewrite nthc_setc by (rewrite ?(i_len _ _ _ _ _ _ _ _ _ HI); lia). rewrite Nat.eqb_refl. auto. }
        assert (NDx := i_nd _ _ _ _ _ _ _ _ _ HI). assert (Hinc : incl (chs n) (hs_nx st)) by (intros c Hc; apply (s_chs tr r V act mr sA es l1 l2 n st EL HI); auto).
        assert (Hrn := s_rest_n tr r V act mr sA es l1 l2 n st EL HI).
        assert (HPn : Forall (fun x => (0 < x)%nat) (map (hz l1 (hs_c st)) (hs_nx st))).
        { pose proof (i_pos _ _ _ _ _ _ _ _ _ HI) as Q. rewrite (i_shape _ _ _ _ _ _ _ _ _ HI) in Q. apply Forall_app in Q. tauto. }
        assert (G1 : frob2 (hs_Y st) - frob2 Y' <= err2 (hs_Y st) g).
        { apply F4. apply (rankn_rank (hs_nx st) (chs n) (hz l1 (hs_c st)) es NDx (NoDup_chs tr n) Hinc HPn (hs_Y st) (i_shape _ _ _ _ _ _ _ _ _ HI) (below tr n)); auto.
          - intros c Hc. apply (frontier l1 l2 n st); auto.
          - specialize (HK n (or_introl eq_refl) Ha). rewrite ECn, SC, last_last in HK. exact HK. }
        set (g' := down (hs_nx st) (chs n) (hz l1 (hs_c st)) C g).
        assert (G2 : err2 Y' g' <= err2 (hs_Y st) g).
        { apply (err_down (hs_nx st) (chs n) (hz l1 (hs_c st)) es k NDx (NoDup_chs tr n) Hinc C (hs_Y st) Y' (i_shape _ _ _ _ _ _ _ _ _ HI) SY' HO HG). }
        assert (G3 : frob2 Y' - frob2 (hs_Y st') <= INR (nact act l2) * err2 Y' g').
        { apply (IH (l1 ++ [n]) _ st' g' EL' HI' EF). cbn [hs_nx hs_c]. intros m Hm Ham. specialize (HK m (or_intror Hm) Ham).
          assert (Hmn : node tr m) by (apply (in_hsvd_nodes tr r T); rewrite EL; apply in_or_app; simpl; auto).
          apply (rankn_down (hs_nx st) (chs n) (hz l1 (hs_c st)) _ es k n NDx (NoDup_chs tr n) Hinc HPn Hrn Hz C); auto.
          - intros c Hc. apply in_chs in Hc; auto. destruct Hc as [[_ ->]|[_ He]]; [tauto|]. rewrite (below_up tr r m n c T He). split; auto. intros [->|K]; auto. exfalso.
            pose proof (s_child tr r V l1 l2 n EL c He) as Hcl. apply in_split in Hcl. destruct Hcl as (u & v & E). rewrite E in EL. rewrite <- app_assoc in EL. cbn [app] in EL.
            destruct (s_nd tr r V u (v ++ n :: l2) c EL) as [_ Q]. apply Q. apply in_or_app. simpl. auto.
          - apply (below_dec tr r); auto. }
        unfold nact in *. cbn [filter]. rewrite Ha. cbn [length]. rewrite S_INR. pose proof (pos_INR (length (filter (fun n0 => an n0) l2))) as P1.
        assert (INR (length (filter (fun n0 => an n0) l2)) * err2 Y' g' <= INR (length (filter (fun n0 => an n0) l2)) * err2 (hs_Y st) g) by (apply Rmult_le_compat_l; auto).
        lra.
      + destruct (step_inactive svd tr r V act mr ltol sA es) with (l1 := l1) (l2 := l2) (n := n) (st := st) as (st1 & ES & E1 & HI'); auto.
        rewrite ES in EF. cbn [bind] in EF. unfold nact. cbn [filter]. rewrite Ha. subst st1.
        apply (IH (l1 ++ [n]) _ st' g EL' HI' EF). cbn [hs_nx hs_c]. intros m Hm Ham. specialize (HK m (or_intror Hm) Ham).
        eapply rankn_ext; [|exact HK]. intros c Hc. destruct (Nat.eq_dec c n) as [->|NE].
        * unfold HsvdP3.hz. rewrite Ha, !andb_false_r. auto.
        * eapply hz_step; eauto; [apply (i_len _ _ _ _ _ _ _ _ _ HI)|]. apply (i_in _ _ _ _ _ _ _ _ _ HI) in Hc. tauto.
  Qed.
  (** the initial tensor *)
  Lemma rank_rankn cs m k f : node tr m -> (2 <= length (d2i tr))%nat -> rank_at_most (sA ++ es) (dims tr m) k f -> rankn (d2i tr) (hz [] cs) es (below tr m) k f.
  Proof.
    intros Hm H2 (a & b & Hf). pose proof (NoDup_d2i tr r V) as ND.
    assert (Hd : map (hz [] cs) (d2i tr) = sA) by (apply (hz_d2i tr r V act sA); auto).
    exists (fun c z => a c (sel 0%nat z (dims tr m))), (fun c z => b c (sel 0%nat z (filter (fun d => negb (existsb (Nat.eqb d) (dims tr m))) (seq 0 (length (sA ++ es)))))).
    split; [|split].
    - intros c ks ks' e e' V1 V2 _ _ HK _. rewrite Hd in V1, V2. pose proof (valid_length _ _ V1) as L1. pose proof (valid_length _ _ V2) as L2. f_equal. unfold sel. apply map_ext_in. intros mu Hmu.
      apply (in_dims tr r V m mu Hm) in Hmu. destruct Hmu as [Q1 Q2]. rewrite !app_nth1 by lia. specialize (HK (nth mu (d2i tr) 0%nat) (nth_In _ _ Q1) Q2). rewrite !index_of_NoDup in HK by auto. auto.
    - intros c ks ks' e e' V1 V2 _ _ HK HE. rewrite Hd in V1, V2. pose proof (valid_length _ _ V1) as L1. pose proof (valid_length _ _ V2) as L2. specialize (HE I). subst e'. f_equal. unfold sel. apply map_ext_in. intros mu Hmu.
      apply filter_In in Hmu. destruct Hmu as [_ Q]. apply negb_true_iff in Q. change (inb mu (dims tr m) = false) in Q. apply inb_false in Q.
      destruct (Nat.lt_ge_cases mu (length (d2i tr))) as [K|K].
      + rewrite !app_nth1 by lia. specialize (HK (nth mu (d2i tr) 0%nat) (nth_In _ _ K)). rewrite !index_of_NoDup in HK by auto. apply HK. intros B. apply Q. apply (in_dims tr r V m mu Hm). auto.
      + rewrite !app_nth2 by lia. f_equal. lia.
    - intros ks e V1 V2. rewrite Hd in V1. apply Hf. apply valid_app; auto.
  Qed.
End Quasi.
