(** The ranks of a tree-based tensor bound the ranks of the matricisations; quasi-optimality of hsvd and ttsvd. *)
From Coq Require Import List Arith Lia Bool Reals Lra.
From Verif.Base Require Import ListAux CRing Index RealAux.
From Verif.Model Require Import Sorting Numpy FullTensor Diagonal Canonical DimensionTree TreeBased Truncator HSVD.
From Verif.Spec Require Import TensorSpec TreeSpec TreeTensorSpec TruncatorSpec.
From Verif.Proofs Require Import NumpyP FullTensorP FullTensorP4 DimTreeP TreeTensorP TreeTensorP3 TreeTensorP4 TreeTensorP14 TreeTensorP17 TruncatorP TruncatorP2 TruncatorP3 TruncatorP4 FunctionalP4 ProjP PolyP5 EinsumP HsvdP HsvdP2 HsvdP3 HsvdP4 HsvdP5 HsvdP7 HsvdP8.
Import ListNotations.
Local Open Scope R_scope.

Lemma lprod_pick (cs : list nat) n : NoDup cs -> In n cs -> forall ks (g : nat * nat -> R), length ks = length cs ->
  lprod (combine cs ks) g = g (n, nth (index_of n cs) ks 0%nat) * lprod (combine cs ks) (fun p => if (fst p =? n)%nat then 1 else g p).
Proof.
  induction cs as [|c cs IH]; intros ND Hin ks g Lk; [contradiction|]. destruct ks as [|k ks]; [discriminate|]. inversion ND as [|? ? Hc ND']; subst. cbn [combine lprod index_of fst].
  destruct (Nat.eqb_spec c n) as [->|NE].
  - cbn [nth]. rewrite (lprod_ext (combine cs ks) (fun p => if (fst p =? n)%nat then 1 else g p) g); [rcbn; ring|].
    intros [x y] Hp. apply in_combine_l in Hp. cbn [fst]. destruct (Nat.eqb_spec x n); [subst; contradiction|auto].
  - destruct Hin as [->|Hin]; [contradiction|]. cbn [nth]. rewrite (IH ND' Hin ks g) by (cbn in Lk; lia). rcbn. ring.
Qed.
Lemma nth_skipn' (n : nat) : forall j (l : list nat), nth j (skipn n l) 0%nat = nth (n + j) l 0%nat.
Proof. induction n; intros j l; auto. destruct l; cbn [skipn]; [destruct j; auto|]. apply IHn. Qed.
Lemma rank_le_mono s d k k' f : (k <= k')%nat -> rank_at_most s d k f -> rank_at_most s d k' f.
Proof.
  intros Hk (a & b & Hf). exists (fun c l => if (c <? k)%nat then a c l else 0), b. intros is Hv. rewrite Hf by auto.
  replace k' with (k + (k' - k))%nat by lia. rewrite SpectralP2.rsum_app_R. rewrite (rsum_zero_R (k' - k)).
  - rewrite Rplus_0_r. apply rsum_ext_R. intros c Hc. destruct (Nat.ltb_spec c k); [auto|lia].
  - intros c Hc. destruct (Nat.ltb_spec (k + c) k); [lia|ring].
Qed.

Section TreeRank.
  Variables (X : tbt R) (r : nat).
  Hypothesis O : tb_ok X r.
  Notation t := (ttree X).
  Let V : dim_tree t r := proj1 O.
  Let T : rooted_tree t r := proj1 V.
  (** factorisation of the value of the root at a node *)
  Definition factor (n : nat) : Prop := exists W : list nat -> list nat -> list nat -> R,
    (forall e' e is is', (forall mu, (mu < tb_order X)%nat -> ~ In mu (dims t n) -> nth mu is 0%nat = nth mu is' 0%nat) -> W e' is e = W e' is' e) /\
    forall is e, valid (exts X r) e -> tval X r is e = bsum (exts X n) (fun e' => tval X n is e' * W e' is e).
  Lemma factor_all n : node t n -> active X n = true -> factor n.
  Proof.
    revert n. apply (tree_down_ind t r T (fun n => active X n = true -> factor n)).
    - intros _. exists (fun e' _ e => if list_eqb e' e then 1 else 0). split; auto. intros is e He.
      rewrite (bsum_single (exts X r) e); auto.
      + rewrite (proj2 (list_eqb_spec e e)) by auto. rcbn. ring.
      + intros js _ Hne. destruct (list_eqb js e) eqn:E; [apply list_eqb_spec in E; congruence|]. rcbn. ring.
    - intros p n IH He Ha. assert (Hp : node t p) by apply He. assert (Hn : node t n) by apply He.
      assert (Hl : is_leaf t p = false) by (destruct (is_leaf t p) eqn:E; auto; apply (leaf_iff t r V) in E; exfalso; apply (proj2 E n He)).
      destruct (IH (ok_internal X r O p Hp Hl)) as (W & WL & WV).
      set (cs := children t p). assert (Hin : In n cs) by (apply in_children; auto).
      set (j := index_of n cs). assert (Hj : (j < length cs)%nat) by (apply index_of_nth; auto).
      set (sib := fun is (ks : list nat) => lprod (combine cs ks) (fun q => if (fst q =? n)%nat then 1 else tval X (fst q) is [snd q])).
      exists (fun e' is e => bsum (exts X p) (fun ep => W ep is e * bsum (heads X p) (fun ks => if (nth j ks 0 =? nth 0 e' 0)%nat then get (core X p) (ks ++ ep) * sib is ks else 0))).
      assert (Eh : heads X p = map (csize X) cs) by (apply (heads_internal X r O); auto).
      assert (Er : exts X n = [last (shape (core X n)) 0%nat]) by (apply (ok_exts_rank X r O); auto; apply (edge_ne t r T p n He)).
      assert (Ej : nth j (heads X p) 0%nat = last (shape (core X n)) 0%nat).
      { rewrite Eh. rewrite map_nth_in with (da := 0%nat) by auto. unfold j. rewrite nth_index_of by auto. unfold csize. rewrite Ha. auto. }
      split.
      + intros e' e is is' HK. apply bsum_ext_R. intros ep _. rewrite (WL ep e is is').
        2:{ intros mu Hmu Hd. apply HK; auto. intros Q. apply Hd. apply (in_dims t r V p mu Hp). apply (in_dims t r V n mu Hn) in Q. destruct Q as [Q1 Q2]. split; auto. apply below_step. right. exists n. auto. }
        f_equal. apply bsum_ext_R. intros ks Hks. destruct (nth j ks 0 =? nth 0 e' 0)%nat; auto. f_equal. apply lprod_ext. intros [c k] Hc. apply in_combine_l in Hc. cbn [fst snd].
        destruct (Nat.eqb_spec c n) as [|NE]; auto. assert (Hec : edge t p c) by (apply in_children in Hc; auto).
        apply (tval_local X r V c (proj1 (proj2 Hec))). intros mu Hmu. apply (in_dims t r V c mu (proj1 (proj2 Hec))) in Hmu. destruct Hmu as [Q1 Q2]. apply HK; auto.
        intros Q. apply (in_dims t r V n mu Hn) in Q. apply NE. apply (siblings_disjoint t r T p c n _ Hec He Q2 (proj2 Q)).
      + intros is e Hv. rewrite WV by auto. rewrite Er. cbn [bsum].
        transitivity (rsum (last (shape (core X n)) 0%nat) (fun k => bsum (exts X p) (fun ep => bsum (heads X p) (fun ks => if (nth j ks 0 =? k)%nat then tval X n is [k] * (W ep is e * (get (core X p) (ks ++ ep) * sib is ks)) else 0)))).
        * rewrite <- bsum_rsum_exchange_R. apply bsum_ext_R. intros ep Hep. rewrite <- bsum_rsum_exchange_R. rewrite (tval_internal X r V) by auto. fold cs. rewrite <- bsum_scal_r_R. apply bsum_ext_R. intros ks Hks.
          assert (Lk : length ks = length cs) by (rewrite (valid_length _ _ Hks), Eh, map_length; auto).
          assert (Hkj : (nth j ks 0 < last (shape (core X n)) 0)%nat) by (rewrite <- Ej; apply valid_nth; auto; rewrite Eh, map_length; auto).
          rewrite (rsum_ext_R _ _ (fun k => if (k =? nth j ks 0)%nat then tval X n is [k] * (W ep is e * (get (core X p) (ks ++ ep) * sib is ks)) else 0)) by (intros; rewrite Nat.eqb_sym; auto).
          rewrite LinAlg.rsum_delta_R by auto. rewrite (lprod_pick cs n (NoDup_children t p) Hin ks (fun q => tval X (fst q) is [snd q])) by auto. fold j. cbn [fst snd]. rcbn. unfold sib. ring.
        * apply rsum_ext_R. intros k Hk. rewrite <- bsum_scal_l_R. apply bsum_ext_R. intros ep _. rewrite <- bsum_scal_l_R, <- bsum_scal_l_R. apply bsum_ext_R. intros ks _. cbn [nth].
          destruct (nth j ks 0 =? k)%nat; ring.
  Qed.
  Lemma tree_rank F n : (2 <= tb_order X)%nat -> tb_full X = Some F -> node t n -> n <> r -> active X n = true ->
    rank_at_most (shape F) (dims t n) (last (shape (core X n)) 0%nat) (get F).
  Proof.
    intros H2 HF Hn NE Ha. destruct (full_inv X r F O H2 HF) as (SF & GF). destruct (factor_all n Hn Ha) as (W & WL & WV).
    rewrite (ok_exts_rank X r O n Hn Ha NE) in WV. cbn [bsum] in WV.
    assert (LX : length (tb_shape X) = tb_order X) by (rewrite tb_shape_length; auto).
    set (dn := dims t n). set (cp := filter (fun d => negb (existsb (Nat.eqb d) dn)) (seq 0 (length (shape F)))).
    (* rebuild an index from the selected components *)
    set (fillin := fun (l : list nat) => map (fun mu => nth (index_of mu dn) l 0%nat) (seq 0 (tb_order X))).
    set (fillout := fun (l : list nat) => map (fun mu => nth (index_of mu cp) l 0%nat) (seq 0 (length (shape F)))).
    exists (fun c l => tval X n (fillin l) [c]), (fun c l => W [c] (firstn (tb_order X) (fillout l)) (skipn (tb_order X) (fillout l))).
    intros z Hz. fold cp. pose proof (valid_length _ _ Hz) as Lz. rewrite SF in Hz. apply valid_app_inv in Hz. destruct Hz as (is & e & -> & V1 & V2). rewrite GF by auto. rewrite WV by auto.
    pose proof (valid_length _ _ V1) as L1. pose proof (valid_length _ _ V2) as L2. rewrite LX in L1.
    assert (LF : length (shape F) = (tb_order X + length e)%nat) by (rewrite SF, app_length, LX, L2; auto).
    assert (Cp : forall mu, In mu cp <-> (mu < length (shape F))%nat /\ ~ In mu dn).
    { intros mu. unfold cp. rewrite filter_In, in_seq, negb_true_iff. change (existsb (Nat.eqb mu) dn) with (inb mu dn). rewrite inb_false. intuition lia. }
    assert (Hdn : forall mu, In mu dn -> (mu < tb_order X)%nat) by (intros mu Hmu; apply (in_dims t r V n mu Hn) in Hmu; tauto).
    assert (Fo : forall mu, In mu cp -> nth mu (fillout (sel 0%nat (is ++ e) cp)) 0%nat = nth mu (is ++ e) 0%nat).
    { intros mu Hmu. unfold fillout. rewrite nth_map_seq by (apply Cp in Hmu; tauto). unfold sel. rewrite map_nth_in with (da := 0%nat) by (apply index_of_lt; auto). rewrite nth_index_of by auto. auto. }
    apply rsum_ext_R. intros c Hc. f_equal.
    - apply (tval_local X r V n Hn). intros mu Hmu. fold dn in Hmu. unfold fillin. rewrite nth_map_seq by auto. unfold sel. rewrite map_nth_in with (da := 0%nat) by (apply index_of_lt; auto).
      rewrite nth_index_of by auto. rewrite app_nth1 by (rewrite L1; auto). auto.
    - assert (Le : skipn (tb_order X) (fillout (sel 0%nat (is ++ e) cp)) = e).
      { apply nth_ext' with (d := 0%nat); [rewrite skipn_length; unfold fillout; rewrite map_length, seq_length; lia|]. intros q Hq. rewrite skipn_length in Hq. unfold fillout in Hq. rewrite map_length, seq_length in Hq.
        rewrite nth_skipn'. rewrite Fo by (apply Cp; split; [lia|intros K; apply Hdn in K; lia]). rewrite app_nth2 by lia. f_equal. lia. }
      rewrite Le. apply WL. intros mu Hmu Hd. rewrite nth_firstn_lt by auto. rewrite Fo by (apply Cp; split; [lia|auto]). rewrite app_nth1 by lia. auto.
  Qed.
End TreeRank.

Section Main.
  Variable svd : nd R -> nd R * list R * nd R.
  Hypothesis SVD : svd_contract svd.
  Lemma hsvd_best t A tr r oact act mr X t' F : dim_tree tr r -> (2 <= length (d2i tr))%nat ->
    ndim A = length (d2i tr) \/ ndim A = (length (d2i tr) + 1)%nat -> Forall (fun n => (0 < n)%nat) (shape A) ->
    act = match oact with None => repeat true (nbn tr) | Some a => a end -> length act = nbn tr ->
    (forall n, node tr n -> is_leaf tr n = false -> nth (n - 1) act false = true) ->
    thresholding_parameter t = None \/ thresholding_parameter t = Some 0 ->
    mr = match max_rank t with [m] => repeat m (nbn tr) | l => l end -> length mr = nbn tr -> Forall (fun m => m <> Some 0%nat) mr ->
    hsvd svd t A tr oact = Some (X, t') -> tb_full X = Some F ->
    forall f, (forall n, node tr n -> n <> r -> active X n = true -> rank_at_most (shape A) (dims tr n) (last (shape (core X n)) 0%nat) f) ->
    err2 A (get F) <= INR (count_occ bool_dec act true - 1) * err2 A f.
  Proof.
    intros V H2 HA HP Eact Lact Hint Ht Emr Lmr Hmr EX EFF f Hf. pose proof (proj1 V) as T.
    set (sA := firstn (length (d2i tr)) (shape A)). set (es := skipn (length (d2i tr)) (shape A)).
    assert (LA : length sA = length (d2i tr)) by (unfold sA; rewrite firstn_length; unfold ndim in HA; lia).
    assert (ES : shape A = sA ++ es) by (symmetry; apply firstn_skipn).
    assert (Les : (length es = ndim A - length (d2i tr))%nat) by (unfold es; rewrite skipn_length; auto).
    assert (Les1 : (length es <= 1)%nat) by lia.
    pose proof HP as HP'. rewrite ES in HP'. apply Forall_app in HP'. destruct HP' as [HPA HPe].
    set (ltol := hsvd_tol t act).
    assert (HML := hmr_len t tr mr Emr Lmr). assert (HMP := hmr_pos t tr mr Emr Hmr).
    destruct (hsvd_result svd SVD tr r V act (hsvd_max_rank t tr) ltol sA es) with (t := t) (A := A) as (st & rep & C & X' & F' & E1 & E2 & E3 & E4 & E5 & E6 & E7 & E8 & E9 & E10 & E11 & E12 & _); auto.
    assert (Hrr : (ndim A =? length (d2i tr) + 1)%nat = (length es =? 1)%nat) by (destruct (Nat.eqb_spec (ndim A) (length (d2i tr) + 1)), (Nat.eqb_spec (length es) 1); auto; lia).
    assert (EX' : hsvd svd t A tr oact = Some (X', hs_t st)).
    { unfold hsvd. cbv zeta. rewrite <- Eact. fold ltol. rewrite Hrr, E1. cbn [bind]. rewrite (root_eq tr r T), E2. cbn [bind]. rewrite E3. cbn [bind]. rewrite E4. reflexivity. }
    assert (X' = X) by congruence. subst X'. assert (F' = F) by congruence. subst F'. clear EX' EX.
    assert (Ha : nact act (hsvd_nodes tr) = (count_occ bool_dec act true - 1)%nat).
    { apply (nact_count tr r); auto. apply Hint; [apply T|]. apply (root_int tr r V H2). }
    rewrite E12, <- Ha.
    assert (HI0 := inv_init tr r V act (hsvd_max_rank t tr) sA es Les1 HPe HPA LA HML H2 t A ES Ht).
    apply (hsvd_quasi svd SVD tr r V act (hsvd_max_rank t tr) ltol sA es Les1 HPe LA HML HMP Hint (hsvd_nodes tr) [] (HS t A (d2i tr) (repeat no_core (nbn tr))) st f eq_refl HI0 E1).
    intros m Hm Ham. apply (in_hsvd_nodes tr r T) in Hm. destruct Hm as [Hm NE]. cbn [hs_nx hs_c].
    apply (rank_rankn tr r V act (hsvd_max_rank t tr) sA es Les1 LA HML); auto. rewrite <- ES.
    assert (EC : core X m = nthc (hs_c st) m).
    { unfold tb_make in E4. match type of E4 with (if ?b then _ else _) = _ => destruct b; [|discriminate] end. inversion E4. unfold core, nthc, setc. cbn [cores ttree]. pose proof (proj1 T) as Hr. unfold node in Hm, Hr. apply nth_upd_neq. lia. }
    rewrite <- EC. apply Hf; auto. rewrite E9 by auto. auto.
  Qed.
  (** comparison with the tensors in the same format *)
  Lemma hsvd_best_tree t A tr r oact act mr X t' F : dim_tree tr r -> (2 <= length (d2i tr))%nat ->
    ndim A = length (d2i tr) \/ ndim A = (length (d2i tr) + 1)%nat -> Forall (fun n => (0 < n)%nat) (shape A) ->
    act = match oact with None => repeat true (nbn tr) | Some a => a end -> length act = nbn tr ->
    (forall n, node tr n -> is_leaf tr n = false -> nth (n - 1) act false = true) ->
    thresholding_parameter t = None \/ thresholding_parameter t = Some 0 ->
    mr = match max_rank t with [m] => repeat m (nbn tr) | l => l end -> length mr = nbn tr -> Forall (fun m => m <> Some 0%nat) mr ->
    hsvd svd t A tr oact = Some (X, t') -> tb_full X = Some F ->
    forall Y G, tb_ok Y r -> ttree Y = tr -> tb_full Y = Some G -> shape G = shape A ->
    (forall n, node tr n -> n <> r -> active X n = true -> active Y n = true /\ (last (shape (core Y n)) 0 <= last (shape (core X n)) 0)%nat) ->
    err2 A (get F) <= INR (count_occ bool_dec act true - 1) * err2 A (get G).
  Proof.
    intros V H2 HA HP Eact Lact Hint Ht Emr Lmr Hmr EX EFF Y G OY EY HG SG HK.
    apply (hsvd_best t A tr r oact act mr X t' F); auto. intros n Hn NE Ha. destruct (HK n Hn NE Ha) as [Ha' Hle].
    rewrite <- SG, <- EY. apply (rank_le_mono _ _ (last (shape (core Y n)) 0%nat)); auto. apply (tree_rank Y r OY G n); auto.
    - unfold tb_order. rewrite EY. auto.
    - rewrite EY. auto.
  Qed.
End Main.
