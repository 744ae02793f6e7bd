(** Truncator.hsvd of a FullTensor: the result. *)
From Coq Require Import List Arith Lia Bool Reals Lra.
From Verif.Base Require Import ListAux CRing Index RealAux.
From Verif.Model Require Import Sorting Numpy FullTensor Diagonal Canonical DimensionTree TreeBased Truncator HSVD.
From Verif.Spec Require Import TensorSpec TreeSpec TreeTensorSpec TruncatorSpec.
From Verif.Proofs Require Import NumpyP FullTensorP FullTensorP4 DimTreeP TreeTensorP TreeTensorP2 TreeTensorP3 TreeTensorP4 TreeTensorP14 TreeTensorP17 TruncatorP TruncatorP2 TruncatorP3 TruncatorP4 FunctionalP4 ProjP PolyP5 HsvdP HsvdP2 HsvdP3.
Import ListNotations.
Local Open Scope R_scope.

Lemma storage_pos (A : nd R) : Forall (fun x => (0 < x)%nat) (shape A) -> negb (ft_storage A =? 0)%nat = true.
Proof. intros H. apply prodn_pos in H. unfold ft_storage, np_size. destruct (Nat.eqb_spec (prodn (shape A)) 0); auto. lia. Qed.

Section Result.
  Variable svd : nd R -> nd R * list R * nd R.
  Hypothesis SVD : svd_contract svd.
  Variables (tr : dtree) (r : nat).
  Hypothesis V : dim_tree tr r.
  Let T : rooted_tree tr r := proj1 V.
  Variables (act : list bool) (mr : list (option nat)) (ltol : R) (sA es : list nat).
  Hypothesis Hes : (length es <= 1)%nat.
  Hypothesis HPe : Forall (fun n => (0 < n)%nat) es.
  Hypothesis HPA : Forall (fun n => (0 < n)%nat) sA.
  Hypothesis LA : length sA = length (d2i tr).
  Hypothesis Lmr : length mr = nbn tr.
  Hypothesis HR : Forall (fun m => m <> Some 0%nat) mr.
  Notation an n := (nth (n - 1) act false).
  Hypothesis Hint : forall n, node tr n -> is_leaf tr n = false -> an n = true.
  Hypothesis H2 : (2 <= length (d2i tr))%nat.
  Notation Inv := (Inv tr r act mr sA es).
  Notation hz := (hz tr act sA).
  Notation chs := (chs tr).
  Notation mu := (mu tr).

  Lemma root_internal : is_leaf tr r = false.
  Proof.
    destruct (is_leaf tr r) eqn:E; auto. exfalso. apply (leaf_iff tr r V) in E. destruct E as [_ E].
    assert (All : forall n, node tr n -> n = r).
    { intros n Hn. destruct (Nat.eq_dec n r) as [|NE]; auto. exfalso. destruct (rt_below tr r T n Hn) as [k Hk].
      destruct k as [|k]; [apply depth_inv0 in Hk; auto|]. apply depth_uncons in Hk. destruct Hk as (b & Hb & _). apply (E b Hb). }
    pose proof (NoDup_d2i tr r V) as ND.
    assert (H0 := d2i_node tr r V 0). assert (H1 := d2i_node tr r V 1). specialize (H0 ltac:(lia)). specialize (H1 ltac:(lia)).
    apply All in H0, H1. rewrite NoDup_nth with (d := 0%nat) in ND. assert (0 = 1)%nat; [|lia]. apply ND; try lia; congruence.
  Qed.
  Lemma leaf_in c : is_leaf tr c = true -> In c (hsvd_nodes tr).
  Proof. intros Hl. apply (in_hsvd_nodes tr r T). split; [apply (leaf_node tr r V); auto|]. intros ->. rewrite root_internal in Hl. discriminate. Qed.
  Lemma hz_nil cs c : hz [] cs c = nth (mu c) sA 0%nat.
  Proof. unfold HsvdP3.hz. reflexivity. Qed.
  Lemma hz_d2i cs : map (hz [] cs) (d2i tr) = sA.
  Proof.
    apply nth_ext' with (d := 0%nat); [rewrite map_length; auto|]. rewrite map_length. intros k Hk. rewrite map_nth_in with (da := 0%nat) by auto.
    rewrite hz_nil. unfold HsvdP3.mu. rewrite index_of_NoDup by (auto; apply (NoDup_d2i tr r V)). auto.
  Qed.
  Lemma inv_init t A : shape A = sA ++ es -> thresholding_parameter t = None \/ thresholding_parameter t = Some 0 ->
    Inv [] (hsvd_nodes tr) (HS t A (d2i tr) (repeat no_core (nbn tr))).
  Proof.
    intros HS Ht. split; cbn [hs_t hs_Y hs_nx hs_c]; auto.
    - apply (NoDup_d2i tr r V).
    - intros c. assert (K : In c (d2i tr) <-> is_leaf tr c = true) by (unfold is_leaf; rewrite inb_spec; tauto). rewrite K. split.
      + intros Hl. pose proof (leaf_in c Hl) as Hin. apply (in_hsvd_nodes tr r T) in Hin. destruct Hin as [Hn Hr]. split; auto. split; auto. split; auto.
        destruct (Nat.eq_dec (parent tr c) r); auto. left. apply (in_hsvd_nodes tr r T). split; auto. apply (parent_is_edge tr r T c Hn Hr).
      + intros (_ & _ & [Hl|[]] & _). auto.
    - rewrite hz_d2i. auto.
    - rewrite HS. apply Forall_app. auto.
    - apply repeat_length.
    - intros n [].
  Qed.

  Section Final.
    Variable st : hstate.
    Hypothesis HI : Inv (hsvd_nodes tr) [] st.
    Notation nx := (hs_nx st).
    Notation cs := (hs_c st).
    Notation h := (hz (hsvd_nodes tr) cs).
    Notation rep := (map (fun c => index_of c nx) (children tr r)).
    Lemma f_in c : In c nx <-> edge tr r c.
    Proof.
      rewrite (i_in _ _ _ _ _ _ _ _ _ HI). split.
      - intros (H1 & H3 & _ & [[]|H4]). rewrite <- H4. apply (parent_is_edge tr r T c H1 H3).
      - intros He. split; [apply He|]. split; [apply (edge_ne tr r T r c He)|]. split; [right; apply (in_hsvd_nodes tr r T); split; [apply He|apply (edge_ne tr r T r c He)]|]. right. apply (parent_edge tr r T r c He).
    Qed.
    Lemma f_incl : incl (children tr r) nx.
    Proof. intros c Hc. apply f_in. apply in_children in Hc; auto. apply T. Qed.
    Lemma f_rest : filter (fun c => negb (inb c (children tr r))) nx = [].
    Proof.
      destruct (filter _ nx) as [|a l] eqn:E; auto. exfalso. assert (Ha : In a (a :: l)) by (simpl; auto). rewrite <- E in Ha. apply filter_In in Ha.
      destruct Ha as [H1 H3]. apply negb_true_iff, inb_false in H3. apply H3. apply in_children; [apply T|]. apply f_in. auto.
    Qed.
    Lemma f_len : length nx = length (children tr r).
    Proof.
      assert (ND := i_nd _ _ _ _ _ _ _ _ _ HI). assert (ND2 := NoDup_children tr r). apply Nat.le_antisymm; apply NoDup_incl_length; auto; [|apply f_incl].
      intros c Hc. apply in_children; [apply T|]. apply f_in. auto.
    Qed.
    Lemma f_perm : is_perm (ndim (hs_Y st)) (rep ++ (if (length es =? 1)%nat then [(ndim (hs_Y st) - 1)%nat] else [])).
    Proof.
      assert (nY : ndim (hs_Y st) = (length nx + length es)%nat) by (unfold ndim; rewrite (i_shape _ _ _ _ _ _ _ _ _ HI), app_length, map_length; auto).
      assert (E : (if (length es =? 1)%nat then [(ndim (hs_Y st) - 1)%nat] else []) = seq (length nx) (length es)).
      { destruct es as [|q [|q' es']]; cbn in Hes |- *; auto; [f_equal; cbn in nY; lia|lia]. }
      rewrite E, nY. apply is_perm_intro.
      - rewrite app_length, map_length, seq_length, f_len. auto.
      - apply ListAux.NoDup_app; [apply pos_inj; [apply NoDup_children|apply f_incl]|apply seq_NoDup|].
        intros x H1 H3. apply in_seq in H3. pose proof (pos_lt nx (children tr r) f_incl) as Q. rewrite Forall_forall in Q. apply Q in H1. lia.
      - apply Forall_app. split; [eapply Forall_impl; [|apply pos_lt, f_incl]; cbn; lia|]. apply Forall_forall. intros x Hx. apply in_seq in Hx. lia.
    Qed.
    Lemma f_core : exists C, ft_transpose (hs_Y st) (rep ++ (if (length es =? 1)%nat then [(ndim (hs_Y st) - 1)%nat] else [])) = Some C /\
      shape C = map h (children tr r) ++ es /\
      forall ks e, valid (map h (children tr r)) ks -> valid es e -> get C (ks ++ e) = get (hs_Y st) (asm (length nx) rep ks [] ++ e).
    Proof.
      destruct (ft_transpose_spec (hs_Y st) _ f_perm) as (C & EC & SC & GC & _). exists C. split; auto.
      assert (nY : ndim (hs_Y st) = (length nx + length es)%nat) by (unfold ndim; rewrite (i_shape _ _ _ _ _ _ _ _ _ HI), app_length, map_length; auto).
      assert (E : (if (length es =? 1)%nat then [(ndim (hs_Y st) - 1)%nat] else []) = seq (length nx) (length es)).
      { destruct es as [|q [|q' es']]; cbn in Hes |- *; auto; [f_equal; cbn in nY; lia|lia]. }
      rewrite E in SC, GC. assert (HF : Forall (fun j => (j < length nx)%nat) rep) by (apply pos_lt, f_incl).
      assert (NDx := i_nd _ _ _ _ _ _ _ _ _ HI). assert (NR : NoDup rep) by (apply pos_inj; [apply NoDup_children|apply f_incl]).
      assert (Cn : compl (length nx) rep = []) by (rewrite (crep nx (children tr r) NDx f_incl), f_rest; auto).
      split.
      - rewrite SC, (i_shape _ _ _ _ _ _ _ _ _ HI), sel_app_ks. f_equal.
        + rewrite sel_app_l by (rewrite map_length; auto). apply srep. apply f_incl.
        + rewrite <- (map_length h nx) at 1. apply sel_app_tail.
      - intros ks e Hk He. pose proof (valid_length _ _ Hk) as L1. pose proof (valid_length _ _ He) as L3. rewrite map_length in L1.
        rewrite <- (GC (asm (length nx) rep ks [] ++ e)).
        + f_equal. rewrite sel_app_ks. rewrite sel_app_l by (rewrite asm_length; auto). rewrite sel_asm by (auto; rewrite map_length; auto). f_equal.
          replace (seq (length nx) (length es)) with (seq (length (asm (length nx) rep ks [])) (length e)) by (rewrite asm_length, L3; auto). symmetry. apply sel_app_tail.
        + rewrite (i_shape _ _ _ _ _ _ _ _ _ HI). apply valid_app; auto. rewrite <- (map_length h nx). apply valid_asm; rewrite ?map_length; auto.
          * rewrite (srep nx (children tr r) h f_incl). auto.
          * rewrite Cn. constructor.
    Qed.

    Variable C : nd R.
    Hypothesis SC : shape C = map h (children tr r) ++ es.
    Hypothesis GC : forall ks e, valid (map h (children tr r)) ks -> valid es e -> get C (ks ++ e) = get (hs_Y st) (asm (length nx) rep ks [] ++ e).
    Let X := TB tr (setc r C cs).
    Lemma x_core n : node tr n -> n <> r -> core X n = nthc cs n.
    Proof.
      intros Hn NE. unfold X, core. cbn [cores]. assert (Hr : node tr r) by apply T. unfold node in *. rewrite nthc_setc by (rewrite ?(i_len _ _ _ _ _ _ _ _ _ HI); lia).
      rewrite (proj2 (Nat.eqb_neq n r)); auto.
    Qed.
    Lemma x_root : core X r = C.
    Proof.
      unfold X, core. cbn [cores]. assert (Hr : node tr r) by apply T. unfold node in *. rewrite nthc_setc by (rewrite ?(i_len _ _ _ _ _ _ _ _ _ HI); lia).
      rewrite Nat.eqb_refl; auto.
    Qed.
    Lemma x_Cpos : Forall (fun x => (0 < x)%nat) (shape C).
    Proof.
      rewrite SC. assert (HP := i_pos _ _ _ _ _ _ _ _ _ HI). rewrite (i_shape _ _ _ _ _ _ _ _ _ HI) in HP. apply Forall_app in HP. apply Forall_app. split; [|tauto].
      apply Forall_forall. intros x Hx. apply in_map_iff in Hx. destruct Hx as (c & <- & Hc). destruct HP as [HP _]. rewrite Forall_forall in HP. apply HP, in_map, f_incl. auto.
    Qed.
    Lemma x_active n : node tr n -> n <> r -> active X n = an n.
    Proof.
      intros Hn NE. assert (K := i_cores _ _ _ _ _ _ _ _ _ HI n). unfold HsvdP3.core_ok in K. specialize (K (proj2 (in_hsvd_nodes tr r T n) (conj Hn NE))).
      unfold active, activec. fold (core X n). rewrite x_core by auto. destruct (an n).
      - destruct K as (k & _ & _ & K & _). apply storage_pos. auto.
      - rewrite K. reflexivity.
    Qed.
    Lemma x_active_r : active X r = true.
    Proof. unfold active, activec. fold (core X r). rewrite x_root. apply storage_pos, x_Cpos. Qed.
    Lemma x_make : tb_make (setc r C cs) tr = Some X.
    Proof.
      unfold tb_make. assert (E : forallb (activec (setc r C cs)) (internal_nodes tr) = true); [|rewrite E; reflexivity].
      apply forallb_forall. intros n Hn. unfold internal_nodes in Hn. apply filter_In in Hn. destruct Hn as [Hn Hl]. apply in_nodes in Hn. apply negb_true_iff in Hl. change (active X n = true).
      destruct (Nat.eq_dec n r) as [->|NE]; [apply x_active_r|]. rewrite x_active by auto. apply Hint; auto.
    Qed.
    (** shapes of the cores *)
    Lemma x_shape n : node tr n -> active X n = true -> exists ext, shape (core X n) = map (fun c => if (c =? n)%nat then nth (mu n) sA 0%nat else h c) (chs n) ++ ext /\
      (n <> r -> exists k, ext = [k]) /\ (length ext <= 1)%nat /\ (n = r -> ext = es).
    Proof.
      intros Hn Ha. destruct (Nat.eq_dec n r) as [->|NE].
      - exists es. rewrite x_root, SC. split; [|split; [congruence|split; auto]]. f_equal. unfold HsvdP3.chs. rewrite root_internal. apply map_ext_in. intros c Hc.
        destruct (Nat.eqb_spec c r) as [->|]; auto. apply in_children in Hc; auto. pose proof (edge_ne tr r T r r Hc). congruence.
      - rewrite x_active in Ha by auto. assert (K := i_cores _ _ _ _ _ _ _ _ _ HI n). unfold HsvdP3.core_ok in K. specialize (K (proj2 (in_hsvd_nodes tr r T n) (conj Hn NE))). rewrite Ha in K.
        destruct K as (k & K & _). exists [k]. rewrite x_core by auto. split; auto. split; [eauto|]. split; [auto|]. congruence.
    Qed.
    Lemma chs_arity n : length (chs n) = arity_at tr n.
    Proof. unfold HsvdP3.chs, arity_at. destruct (is_leaf tr n); auto. Qed.
    Lemma x_heads n : node tr n -> active X n = true -> heads X n = map (fun c => if (c =? n)%nat then nth (mu n) sA 0%nat else h c) (chs n).
    Proof.
      intros Hn Ha. destruct (x_shape n Hn Ha) as (ext & E & _). unfold heads. rewrite E. change (ttree X) with tr. rewrite <- chs_arity. rewrite <- (map_length (fun c => if (c =? n)%nat then nth (mu n) sA 0%nat else h c) (chs n)).
      rewrite firstn_app, Nat.sub_diag, firstn_O, app_nil_r. apply firstn_all.
    Qed.
    Lemma x_exts n ext : shape (core X n) = map (fun c => if (c =? n)%nat then nth (mu n) sA 0%nat else h c) (chs n) ++ ext -> exts X n = ext.
    Proof.
      intros E. unfold exts. rewrite E. change (ttree X) with tr. rewrite <- chs_arity. rewrite <- (map_length (fun c => if (c =? n)%nat then nth (mu n) sA 0%nat else h c) (chs n)).
      rewrite skipn_app, Nat.sub_diag, skipn_O, skipn_all. reflexivity.
    Qed.
    Lemma x_child n c : edge tr n c -> nth (index_of c (children tr n)) (shape (core X n)) 0%nat = h c.
    Proof.
      intros He. assert (Hn : node tr n) by apply He. assert (Hl : is_leaf tr n = false).
      { destruct (is_leaf tr n) eqn:E; auto. apply (leaf_iff tr r V) in E. exfalso. apply (proj2 E c He). }
      assert (Ha : active X n = true) by (destruct (Nat.eq_dec n r) as [->|NE]; [apply x_active_r|rewrite x_active by auto; auto]).
      destruct (x_shape n Hn Ha) as (ext & E & _). rewrite E. unfold HsvdP3.chs. rewrite Hl. assert (Hc : In c (children tr n)) by (apply in_children; auto).
      destruct (index_of_nth (children tr n) c Hc) as [Q1 Q2]. rewrite app_nth1 by (rewrite map_length; auto). rewrite map_nth_in with (da := 0%nat) by auto. rewrite Q2.
      destruct (Nat.eqb_spec c n) as [->|]; auto. exfalso. pose proof (level_edge tr r T n n He). lia.
    Qed.
    Lemma h_active c : node tr c -> c <> r -> an c = true -> h c = last (shape (core X c)) 0%nat.
    Proof.
      intros Hc Hr Ha. unfold HsvdP3.hz. rewrite Ha, andb_true_r. rewrite (proj2 (inb_spec c _)) by (apply (in_hsvd_nodes tr r T); auto). rewrite x_core; auto.
    Qed.
    Lemma x_ok : tb_ok X r.
    Proof.
      split; [exact V|]. split; [cbn [X cores ttree]; rewrite setc_length; apply (i_len _ _ _ _ _ _ _ _ _ HI)|]. split; [apply x_active_r|].
      intros n Hn. change (ttree X) with tr in *. split; [|split].
      - intros Hl. destruct (Nat.eq_dec n r) as [->|NE]; [apply x_active_r|]. rewrite x_active by auto. auto.
      - intros Ha. destruct (x_shape n Hn Ha) as (ext & E & E1 & E2 & E3). rewrite (x_exts n ext E). split; [|split; auto].
        + unfold ndim. rewrite E, app_length, map_length, chs_arity. lia.
        + destruct (Nat.eqb_spec n r) as [->|NE]; auto. destruct (E1 NE) as [k ->]. auto.
      - intros c He Ha. rewrite x_child by auto. assert (c <> r) by apply (edge_ne tr r T n c He). rewrite x_active in Ha by (auto; apply He). apply h_active; auto. apply He.
    Qed.
    Lemma x_tbshape : tb_shape X = sA.
    Proof.
      unfold tb_shape. change (ttree X) with tr. apply nth_ext' with (d := 0%nat); [rewrite map_length; auto|]. rewrite map_length. intros k Hk. rewrite map_nth_in with (da := 0%nat) by auto.
      set (n := nth k (d2i tr) 0%nat). assert (Hl : is_leaf tr n = true) by (apply (d2i_leaf tr); auto). pose proof (leaf_node tr r V n Hl) as Hn.
      assert (NE : n <> r) by (intros E; rewrite E, root_internal in Hl; discriminate). assert (Hmu : mu n = k) by (unfold HsvdP3.mu, n; apply index_of_NoDup; auto; apply (NoDup_d2i tr r V)).
      unfold tb_size. change (ttree X) with tr. destruct (active X n) eqn:Ha.
      - destruct (x_shape n Hn Ha) as (ext & E & _). rewrite E. unfold HsvdP3.chs. rewrite Hl. cbn [map app nth]. rewrite Nat.eqb_refl. congruence.
      - pose proof (parent_is_edge tr r T n Hn NE) as He. destruct (child_number_spec tr r V n (parent tr n) He) as [Q1 Q2].
        rewrite x_active in Ha by auto. pose proof (x_child (parent tr n) n He) as Q.
        replace (child_number tr n - 1)%nat with (index_of n (children tr (parent tr n))) by (rewrite <- Q2 at 1; apply index_of_NoDup; [apply NoDup_children|lia]).
        rewrite Q. unfold HsvdP3.hz. rewrite Ha, andb_false_r. congruence.
    Qed.
    Lemma x_val is e : valid es e ->
      bsum (map h nx) (fun ks => get (hs_Y st) (ks ++ e) * lprod (combine nx ks) (fun p => tval X (fst p) is [snd p])) = tval X r is e.
    Proof.
      intros He. assert (NDx := i_nd _ _ _ _ _ _ _ _ _ HI). rewrite (bsum_nx nx (children tr r) h NDx (NoDup_children tr r) f_incl). rewrite f_rest. cbn [map bsum].
      rewrite (tval_internal X r V r is e) by (try apply T; apply root_internal). rewrite x_heads by (try apply T; apply x_active_r). unfold HsvdP3.chs. rewrite root_internal.
      rewrite (map_ext_in (fun c => if (c =? r)%nat then nth (mu r) sA 0%nat else h c) h).
      2:{ intros c Hc. destruct (Nat.eqb_spec c r) as [->|]; auto. apply in_children in Hc; [|apply T]. pose proof (edge_ne tr r T r r Hc). congruence. }
      apply bsum_ext_R. intros ks Hk. pose proof (valid_length _ _ Hk) as Lk. rewrite map_length in Lk. rewrite x_root, GC by auto.
      rewrite (lprod_split nx h (hs_Y st) es NDx (i_shape _ _ _ _ _ _ _ _ _ HI) (fun c k => tval X c is [k]) (children tr r) ks []); auto; [|apply NoDup_children|apply f_incl|rewrite f_rest; auto].
      cbv beta. rewrite f_rest. cbn [combine lprod]. change (ttree X) with tr. rcbn. ring.
    Qed.
  End Final.

  Notation step := (hsvd_step svd tr act mr (length es =? 1)%nat ltol).
  Lemma hsvd_result t A : shape A = sA ++ es -> thresholding_parameter t = None \/ thresholding_parameter t = Some 0 ->
    exists st rep C X F,
      ofold step (hsvd_nodes tr) (HS t A (d2i tr) (repeat no_core (nbn tr))) = Some st /\ omap (find_pos (hs_nx st)) (children tr r) = Some rep /\
      ft_transpose (hs_Y st) (rep ++ (if (length es =? 1)%nat then [(ndim (hs_Y st) - 1)%nat] else [])) = Some C /\
      tb_make (setc r C (hs_c st)) tr = Some X /\ ttree X = tr /\ tb_ok X r /\ tb_full X = Some F /\ shape F = shape A /\
      (forall n, node tr n -> n <> r -> active X n = an n) /\
      (forall n, node tr n -> n <> r -> an n = true -> orth_cols (core X n) /\ match nth (n - 1) mr None with Some m => (last (shape (core X n)) 0 <= m)%nat | None => True end) /\
      (forall is, valid (shape A) is -> get F is = tval X r (firstn (length sA) is) (skipn (length sA) is)) /\
      err2 A (get F) = frob2 A - frob2 (hs_Y st) /\
      ((forall n, In n (hsvd_nodes tr) -> nth (n - 1) mr None = None) -> 0 < ltol -> err2 A (get F) <= INR (nact act (hsvd_nodes tr)) * (ltol * ltol) * frob2 A) /\
      ((forall n, In n (hsvd_nodes tr) -> nth (n - 1) mr None = None) -> ltol <= 0 -> err2 A (get F) = 0).
  Proof.
    intros HS Ht. pose proof (inv_init t A HS Ht) as HI0.
    destruct (hsvd_loop svd SVD tr r V act mr ltol sA es Hes HPe LA Lmr HR Hint (hsvd_nodes tr) [] _ eq_refl HI0) as (st & EF & HI & _ & F1 & F2 & F3 & G & HGe & HGv).
    cbn [hs_t hs_Y hs_nx hs_c app] in *. destruct (f_core st HI) as (C & EC & SC & GC).
    set (X := TB tr (setc r C (hs_c st))).
    assert (OK : tb_ok X r) by (apply (x_ok st HI C SC)).
    assert (ES : tb_shape X = sA) by (apply (x_tbshape st HI C SC)).
    assert (EE : exts X r = es).
    { destruct (x_shape st HI C SC r (proj1 T)) as (ext & E & _ & _ & E3); [apply (x_active_r st HI C SC)|]. specialize (E3 eq_refl). subst ext. apply (x_exts st C); auto. }
    assert (EO : tb_order X = length sA) by (unfold tb_order; cbn [X ttree]; auto).
    destruct (tb_full_ok X r OK) as (F & HF & HsF & HgF); [rewrite EO; lia|]. rewrite ES, EE in HsF, HgF. rewrite EO in HgF.
    exists st, (map (fun c => index_of c (hs_nx st)) (children tr r)), C, X, F.
    split; auto. split.
    { apply omap_some. intros c Hc. unfold find_pos. rewrite (proj2 (inb_spec c _)); auto. apply f_incl; auto. }
    split; auto. split; [apply (x_make st HI C SC)|]. split; auto. split; auto. split; auto. split; [congruence|]. split; [intros n Hn NE; apply (x_active st HI C n Hn NE)|].
    split; [|split; [rewrite HS; auto|]].
    - intros n Hn NE Ha. assert (K := i_cores _ _ _ _ _ _ _ _ _ HI n (proj2 (in_hsvd_nodes tr r T n) (conj Hn NE))). unfold HsvdP3.core_ok in K. rewrite Ha in K.
      destruct K as (k & K1 & _ & _ & K2 & K3). unfold X. rewrite (x_core st HI C n Hn NE). split; auto. rewrite K1, last_last. auto.
    - assert (Hv : forall is, valid (shape A) is -> get F is = G is).
      { intros z Hz. rewrite HS in Hz. rewrite HgF by auto. apply valid_app_inv in Hz. destruct Hz as (is & e & -> & V1 & V2). pose proof (valid_length _ _ V1) as L1.
        rewrite firstn_app, skipn_app, L1, Nat.sub_diag, firstn_O, skipn_O, app_nil_r, firstn_all2, skipn_all2 by lia. cbn [app].
        pose proof (x_val st HI C SC GC is e V2) as XV. fold X in XV. rewrite <- XV. rewrite <- (HGv X eq_refl) with (1 := fun n Hn => x_core st HI C n (proj1 (proj1 (in_hsvd_nodes tr r T n) Hn)) (proj2 (proj1 (in_hsvd_nodes tr r T n) Hn))) (2 := fun n Hn => x_active st HI C n (proj1 (proj1 (in_hsvd_nodes tr r T n) Hn)) (proj2 (proj1 (in_hsvd_nodes tr r T n) Hn))) by auto.
        rewrite hz_d2i. symmetry.
        assert (W : forall c k, In c (d2i tr) -> wv tr (hsvd_nodes tr) X is c k = if (k =? nth (mu c) is 0)%nat then 1 else 0).
        { intros c k Hc. unfold wv. assert (Hl : is_leaf tr c = true) by (unfold is_leaf; apply inb_spec; auto). rewrite Hl, (proj2 (inb_spec c _)) by (apply leaf_in; auto). reflexivity. }
        rewrite (bsum_single sA is).
        - rewrite lprod_one; [rcbn; ring|]. intros [c k] Hp. cbn [fst snd]. rewrite W by (apply in_combine_l in Hp; auto).
          apply (In_nth _ _ (0%nat, 0%nat)) in Hp. destruct Hp as (j & Hj & Ej). rewrite combine_length in Hj. rewrite combine_nth in Ej by lia. inversion Ej. unfold HsvdP3.mu.
          rewrite index_of_NoDup by (try lia; apply (NoDup_d2i tr r V)). rewrite Nat.eqb_refl. auto.
        - auto.
        - intros js Hj Hne. pose proof (valid_length _ _ Hj) as L2. assert (exists j, (j < length sA)%nat /\ nth j js 0%nat <> nth j is 0%nat) as (j & Hjl & Hjn).
          { clear - Hne L1 L2. assert (D : forall (a b : list nat), length a = length b -> a <> b -> exists j, (j < length a)%nat /\ nth j a 0%nat <> nth j b 0%nat).
            { induction a as [|x a IH]; intros [|y b] L N; cbn in L; try lia; [congruence|]. destruct (Nat.eq_dec x y) as [->|Q].
              - destruct (IH b) as (j & J1 & J2); [lia|congruence|]. exists (S j). cbn. split; [lia|auto].
              - exists 0%nat. cbn. split; [lia|auto]. }
            destruct (D js is) as (j & J1 & J2); auto; [lia|]. exists j. split; auto. lia. }
          rewrite (lprod_zero _ _ (nth j (d2i tr) 0%nat, nth j js 0%nat)); [rcbn; ring| |].
          + rewrite <- combine_nth by lia. apply nth_In. rewrite combine_length. lia.
          + cbn [fst snd]. rewrite W by (apply nth_In; lia). unfold HsvdP3.mu. rewrite index_of_NoDup by (try lia; apply (NoDup_d2i tr r V)). rewrite (proj2 (Nat.eqb_neq _ _)) by auto. auto. }
      assert (EE2 : err2 A (get F) = frob2 A - frob2 (hs_Y st)).
      { rewrite <- HGe. apply bsum_ext_R. intros is Hi. rewrite Hv by auto. auto. }
      split; auto. split.
      + intros Hm Hl. rewrite EE2. apply F2; auto.
      + intros Hm Hl. rewrite EE2, F3 by auto. ring.
  Qed.
End Result.
