(** Truncator.hsvd of a FullTensor: the theorems. *)
From Coq Require Import List Arith Lia Bool Reals Lra Permutation.
From Verif.Base Require Import ListAux CRing Index RealAux.
From Verif.Model Require Import Sorting Numpy FullTensor Diagonal Canonical DimensionTree TreeBased Truncator HSVD.
From Verif.Spec Require Import TensorSpec TreeSpec TreeTensorSpec TruncatorSpec.
From Verif.Proofs Require Import NumpyP FullTensorP FullTensorP4 DimTreeP DimTreeP2 TreeTensorP TreeTensorP2 TreeTensorP3 TreeTensorP4 DiagonalP TruncatorP TruncatorP2 TruncatorP3 TruncatorP4 PolyP5 HsvdP HsvdP2 HsvdP3 HsvdP4.
Import ListNotations.
Local Open Scope R_scope.

Lemma count_true_seq (act : list bool) : count_occ bool_dec act true = length (filter (fun n => nth (n - 1) act false) (seq 1 (length act))).
Proof.
  assert (K : forall l s pre, length pre = s -> count_occ bool_dec l true = length (filter (fun n => nth (n - 1) (pre ++ l) false) (seq (S s) (length l)))).
  { induction l as [|b l IH]; intros s pre Hs; auto. cbn [length seq filter]. replace (S s - 1)%nat with (length pre + 0)%nat by lia. rewrite app_nth2_plus. cbn [nth].
    specialize (IH (S s) (pre ++ [b])). rewrite app_length in IH. cbn [length] in IH. specialize (IH ltac:(lia)). rewrite <- app_assoc in IH. cbn [app] in IH.
    destruct b; cbn [length].
    - rewrite count_occ_cons_eq by auto. rewrite IH. auto.
    - rewrite count_occ_cons_neq by discriminate. auto. }
  apply (K act 0%nat []). auto.
Qed.
Lemma nact_count tr r act : dim_tree tr r -> length act = nbn tr -> nth (r - 1) act false = true ->
  nact act (hsvd_nodes tr) = (count_occ bool_dec act true - 1)%nat.
Proof.
  intros V L Hr. pose proof (proj1 V) as T. rewrite count_true_seq. unfold nact.
  assert (P : Permutation (seq 1 (length act)) (r :: hsvd_nodes tr)).
  { apply NoDup_Permutation; [apply seq_NoDup| |].
    - constructor; [|apply (NoDup_hsvd_nodes tr r T)]. intros H. apply (in_hsvd_nodes tr r T) in H. tauto.
    - intros n. rewrite in_seq, L. assert (Hn : node tr n <-> (1 <= n < 1 + nbn tr)%nat) by (unfold node; lia). rewrite <- Hn. cbn [In]. rewrite (in_hsvd_nodes tr r T).
      destruct (Nat.eq_dec n r) as [->|]; [split; auto; intros; apply T|]. split; auto. intros [E|[E _]]; auto. congruence. }
  assert (Q : forall l l', Permutation l l' -> length (filter (fun n => nth (n - 1) act false) l) = length (filter (fun n => nth (n - 1) act false) l')).
  { intros l l' H. induction H; cbn [filter]; auto.
    - destruct (nth (x - 1) act false); cbn [length]; auto.
    - destruct (nth (x - 1) act false), (nth (y - 1) act false); cbn [length]; auto.
    - congruence. }
  rewrite (Q _ _ P). cbn [filter]. rewrite Hr. cbn [length]. lia.
Qed.

Lemma bsum_zero_iff_R s : forall (f : list nat -> R), (forall is, valid s is -> 0 <= f is) -> bsum s f = 0 -> forall is, valid s is -> f is = 0.
Proof.
  induction s as [|n s IH]; intros f H E is Hi; inversion Hi as [|x n' l s' Hx Hl]; subst; cbn [bsum] in E; auto.
  assert (E2 := rsum_zero_iff n _ (fun i Hi => bsum_nonneg_R s _ (fun l Hl => H (i :: l) (Forall2_cons i n Hi Hl))) E).
  specialize (E2 x Hx). apply (IH (fun is => f (x :: is))); auto. intros js Hj. apply H. constructor; auto.
Qed.
Lemma err2_zero A f : err2 A f = 0 -> forall is, valid (shape A) is -> f is = get A is.
Proof.
  intros H is Hi. unfold err2 in H. pose proof (bsum_zero_iff_R (shape A) _ (fun l _ => Rle_0_sqr (get A l - f l)) H is Hi) as E. cbv beta in E. unfold Rsqr in E. apply Rmult_integral in E. lra.
Qed.

Lemma err2_nonneg A f : 0 <= err2 A f.
Proof. apply bsum_nonneg_R. intros is _. apply Rle_0_sqr. Qed.

Lemma root_int tr r : dim_tree tr r -> (2 <= length (d2i tr))%nat -> is_leaf tr r = false.
Proof. intros V H. apply (root_internal tr r V (repeat None (nbn tr)) (d2i tr) []); auto. apply repeat_length. Qed.

Section Main.
  Variable svd : nd R -> nd R * list R * nd R.
  Lemma step_t tr act mr rrg ltol st n st' : hsvd_step svd tr act mr rrg ltol st n = Some st' ->
    hs_t st' = if nth (n - 1) act false then set_max_rank (hs_t st) (nth (n - 1) mr None) else hs_t st.
  Proof.
    unfold hsvd_step. destruct (nth (n - 1) act false).
    - destruct (omap _ _) as [rep|]; cbn [bind]; [|discriminate]. destruct (nth_error mr (n - 1)) as [m|] eqn:E; cbn [bind]; [|discriminate].
      destruct (hsvd_split _ _ _ _ _ _ _) as [CY|]; cbn [bind]; [|discriminate]. intros H. inversion H. cbn [hs_t]. f_equal. symmetry. apply nth_error_nth. auto.
    - intros H. inversion H. auto.
  Qed.
  Lemma loop_t tr act mr rrg ltol (m : option nat) l : (forall n, In n l -> nth (n - 1) mr None = m) -> forall st st', max_rank (hs_t st) = [m] -> ofold (hsvd_step svd tr act mr rrg ltol) l st = Some st' -> hs_t st' = hs_t st.
  Proof.
    induction l as [|n l IH]; intros Hm st st' Ht; cbn [ofold]; [congruence|].
    destruct (hsvd_step svd tr act mr rrg ltol st n) as [s1|] eqn:E; cbn [bind]; [|discriminate]. apply step_t in E.
    assert (E1 : hs_t s1 = hs_t st).
    { rewrite E. destruct (nth (n - 1) act false); auto. rewrite Hm by (simpl; auto). unfold set_max_rank. rewrite <- Ht. destruct (hs_t st); auto. }
    intros H. rewrite <- E1. apply IH; auto; [intros; apply Hm; simpl; auto|congruence].
  Qed.
  Lemma hsvd_state t A tr r act X t' (m : option nat) : dim_tree tr r -> max_rank t = [m] -> hsvd svd t A tr act = Some (X, t') -> t' = t.
  Proof.
    intros V Hm. unfold hsvd. cbv zeta. destruct (ofold _ _ _) as [st|] eqn:E; cbn [bind]; [|discriminate].
    destruct (omap _ _) as [rep|]; cbn [bind]; [|discriminate]. destruct (ft_transpose _ _) as [C|]; cbn [bind]; [|discriminate].
    destruct (tb_make _ _) as [X'|]; cbn [bind]; [|discriminate]. intros H. inversion H. apply (loop_t _ _ _ _ _ m) in E; auto.
    intros n Hn. apply (in_hsvd_nodes tr r (proj1 V)) in Hn. unfold hsvd_max_rank. rewrite Hm. rewrite (root_eq tr r (proj1 V)).
    destruct Hn as [Hn NE]. pose proof (proj1 (proj1 V)) as Hr. unfold node in *. rewrite nth_upd_neq by lia. apply nth_repeat_in. lia.
  Qed.

  Hypothesis SVD : svd_contract svd.
  Section Call.
    Variables (t : truncator) (A : nd R) (tr : dtree) (r : nat) (oact : option (list bool)) (act : list bool) (mr : list (option nat)).
    Hypothesis V : dim_tree tr r.
    Hypothesis H2 : (2 <= length (d2i tr))%nat.
    Hypothesis HA : ndim A = length (d2i tr) \/ ndim A = (length (d2i tr) + 1)%nat.
    Hypothesis HP : Forall (fun n => (0 < n)%nat) (shape A).
    Hypothesis Eact : act = match oact with None => repeat true (nbn tr) | Some a => a end.
    Hypothesis Lact : length act = nbn tr.
    Hypothesis Hint : forall n, node tr n -> is_leaf tr n = false -> nth (n - 1) act false = true.
    Hypothesis Ht : thresholding_parameter t = None \/ thresholding_parameter t = Some 0.
    Hypothesis Emr : mr = match max_rank t with [m] => repeat m (nbn tr) | l => l end.
    Hypothesis Lmr : length mr = nbn tr.
    Hypothesis Hmr : Forall (fun m => m <> Some 0%nat) mr.
    Let T : rooted_tree tr r := proj1 V.

    Lemma hmr_len : length (hsvd_max_rank t tr) = nbn tr.
    Proof. unfold hsvd_max_rank. rewrite <- Lmr, Emr at 1. destruct (max_rank t) as [|m [|m' l]]; auto. rewrite upd_length. auto. Qed.
    Lemma hmr_pos : Forall (fun m => m <> Some 0%nat) (hsvd_max_rank t tr).
    Proof.
      unfold hsvd_max_rank. rewrite Emr in Hmr. destruct (max_rank t) as [|m [|m' l]]; auto. apply Forall_forall. intros x Hx.
      apply (In_nth _ _ None) in Hx. destruct Hx as (k & Hk & <-). rewrite upd_length in Hk. destruct (Nat.eq_dec k (root tr - 1)) as [->|NE].
      - rewrite nth_upd_eq by auto. discriminate.
      - rewrite nth_upd_neq by auto. rewrite Forall_forall in Hmr. apply Hmr, nth_In. auto.
    Qed.
    Lemma hmr_nth n : node tr n -> n <> r -> nth (n - 1) (hsvd_max_rank t tr) None = nth (n - 1) mr None.
    Proof.
      intros Hn NE. unfold hsvd_max_rank. rewrite Emr. destruct (max_rank t) as [|m [|m' l]]; auto. rewrite (root_eq tr r T).
      pose proof (proj1 T) as Hr. unfold node in *. rewrite nth_upd_neq by lia. auto.
    Qed.
    Lemma hsvd_main : exists X t' F, hsvd svd t A tr oact = Some (X, t') /\ ttree X = tr /\ tb_ok X r /\ tb_full X = Some F /\ shape F = shape A /\
      (forall n, node tr n -> n <> r -> active X n = nth (n - 1) act false) /\
      (forall n, node tr n -> n <> r -> active X n = true -> orth_cols (core X n) /\ match nth (n - 1) mr None with Some m => (last (shape (core X n)) 0 <= m)%nat | None => True end) /\
      ((forall n, node tr n -> n <> r -> nth (n - 1) mr None = None) -> 0 < tolerance t -> err2 A (get F) <= tolerance t * tolerance t * frob2 A) /\
      ((forall n, node tr n -> n <> r -> nth (n - 1) mr None = None) -> tolerance t <= 0 -> forall is, valid (shape A) is -> get F is = get A is).
    Proof.
      set (sA := firstn (length (d2i tr)) (shape A)). set (es := skipn (length (d2i tr)) (shape A)).
      assert (LA : length sA = length (d2i tr)) by (unfold sA; rewrite firstn_length; unfold ndim in HA; lia).
      assert (ES : shape A = sA ++ es) by (symmetry; apply firstn_skipn).
      assert (Les : (length es = ndim A - length (d2i tr))%nat) by (unfold es; rewrite skipn_length; auto).
      pose proof HP as HP'. rewrite ES in HP'. apply Forall_app in HP'.
      set (ltol := hsvd_tol t act).
      destruct (hsvd_result svd SVD tr r V act (hsvd_max_rank t tr) ltol sA es) with (t := t) (A := A) as (st & rep & C & X & F & E1 & E2 & E3 & E4 & E5 & E6 & E7 & E8 & E9 & E10 & E11 & E12 & E13 & E14); auto; try tauto; [lia|apply hmr_len|apply hmr_pos|].
      assert (Hrr : (ndim A =? length (d2i tr) + 1)%nat = (length es =? 1)%nat) by (destruct (Nat.eqb_spec (ndim A) (length (d2i tr) + 1)), (Nat.eqb_spec (length es) 1); auto; lia).
      exists X, (hs_t st), F. split.
      { unfold hsvd. cbv zeta. rewrite <- Eact. fold ltol. rewrite Hrr, E1. cbn [bind]. rewrite (root_eq tr r T), E2. cbn [bind]. rewrite E3. cbn [bind]. rewrite E4. reflexivity. }
      split; auto. split; auto. split; auto. split; auto. split; auto.
      assert (Ha : nact act (hsvd_nodes tr) = (count_occ bool_dec act true - 1)%nat).
      { apply (nact_count tr r); auto. apply Hint; [apply T|]. apply (root_int tr r V H2). }
      assert (HN : (forall n, node tr n -> n <> r -> nth (n - 1) mr None = None) -> forall n, In n (hsvd_nodes tr) -> nth (n - 1) (hsvd_max_rank t tr) None = None).
      { intros K n Hn. apply (in_hsvd_nodes tr r T) in Hn. rewrite hmr_nth by tauto. apply K; tauto. }
      pose proof (frob2_nonneg A) as NA. split; [|split].
      - intros n Hn NE Ha'. rewrite E9 in Ha' by auto. rewrite <- hmr_nth by auto. apply E10; auto.
      - intros K Htol. specialize (E13 (HN K)). specialize (E14 (HN K)). rewrite Ha in E13. unfold ltol, hsvd_tol in E13, E14.
        destruct (Rle_dec ltol 0) as [Hl|Hl]; [rewrite E14 by exact Hl; nra|].
        destruct (count_occ bool_dec act true - 1)%nat as [|k] eqn:Ek.
        + apply Rnot_le_lt in Hl. eapply Rle_trans; [apply E13; unfold ltol, hsvd_tol in Hl; rewrite Ek in Hl; exact Hl|]. cbn [INR]. nra.
        + assert (Hp : 0 < INR (S k)) by (apply lt_0_INR; lia). assert (Hs : 0 < sqrt (INR (S k))) by (apply sqrt_lt_R0; auto).
          eapply Rle_trans; [apply E13; apply Rdiv_lt_0_compat; auto|]. right.
          replace (INR (S k)) with (sqrt (INR (S k)) * sqrt (INR (S k))) at 1 by (apply sqrt_sqrt; lra). field. lra.
      - intros K Htol. apply err2_zero. specialize (E14 (HN K)). specialize (E13 (HN K)). rewrite Ha in E13.
        destruct (Rle_dec ltol 0) as [Hl|Hl]; [apply E14; exact Hl|]. apply Rnot_le_lt in Hl. specialize (E13 Hl).
        assert (NE := err2_nonneg A (get F)).
        destruct (count_occ bool_dec act true - 1)%nat as [|k] eqn:Ek; [cbn [INR] in E13; nra|]. exfalso.
        assert (Hp : 0 < INR (S k)) by (apply lt_0_INR; lia). assert (Hs : 0 < sqrt (INR (S k))) by (apply sqrt_lt_R0; auto).
        unfold ltol, hsvd_tol in Hl. rewrite Ek in Hl. apply Rinv_0_lt_compat in Hs. unfold Rdiv in Hl. nra.
    Qed.
  End Call.
  (** tt-svd *)
  Lemma fold_upd_false l : forall (a : list bool) n, ~ (n < length a)%nat \/ (forall k, In k l -> (1 <= k)%nat) -> nth n (fold_left (fun a n => upd (n - 1) false a) l a) false = (if inb (S n) l then false else nth n a false).
  Proof.
    induction l as [|x l IH]; intros a n H; auto. cbn [fold_left]. rewrite IH.
    2:{ destruct H; [left; rewrite upd_length; auto|right; intros; apply H; simpl; auto]. }
    destruct (inb (S n) l) eqn:E.
    - rewrite (proj2 (inb_spec (S n) (x :: l))); auto. apply inb_spec in E. simpl. auto.
    - apply inb_false in E. destruct (Nat.eq_dec x (S n)) as [->|NE].
      + rewrite (proj2 (inb_spec _ _)) by (simpl; auto). replace (S n - 1)%nat with n by lia. destruct (Nat.lt_ge_cases n (length a)); [apply nth_upd_eq; auto|]. apply nth_overflow. rewrite upd_length. auto.
      + rewrite (proj2 (inb_false (S n) (x :: l))) by (simpl; tauto). destruct (Nat.lt_ge_cases n (length a)).
        * apply nth_upd_neq. destruct H as [H|H]; [lia|]. specialize (H x (or_introl eq_refl)). lia.
        * rewrite !nth_overflow; auto. rewrite upd_length. auto.
  Qed.
  Lemma ttsvd_main t A mr : (2 <= ndim A)%nat -> Forall (fun n => (0 < n)%nat) (shape A) ->
    thresholding_parameter t = None \/ thresholding_parameter t = Some 0 ->
    mr = match max_rank t with [m] => repeat m (2 * ndim A - 1) | l => l end -> length mr = (2 * ndim A - 1)%nat -> Forall (fun m => m <> Some 0%nat) mr ->
    let tr := dt_linear (ndim A) (seq 0 (ndim A)) in
    exists X t' F, ttsvd svd t A = Some (X, t') /\ ttree X = tr /\ tb_ok X 1 /\ tb_full X = Some F /\ shape F = shape A /\
      (forall n, node tr n -> active X n = false <-> is_leaf tr n = true /\ n <> nth 0 (d2i tr) 0%nat) /\
      (forall n, node tr n -> n <> 1%nat -> active X n = true -> orth_cols (core X n) /\ match nth (n - 1) mr None with Some m => (last (shape (core X n)) 0 <= m)%nat | None => True end) /\
      ((forall n, node tr n -> n <> 1%nat -> nth (n - 1) mr None = None) -> 0 < tolerance t -> err2 A (get F) <= tolerance t * tolerance t * frob2 A) /\
      ((forall n, node tr n -> n <> 1%nat -> nth (n - 1) mr None = None) -> tolerance t <= 0 -> forall is, valid (shape A) is -> get F is = get A is).
  Proof.
    intros HA HP Ht Emr Lmr Hmr tr. assert (V : dim_tree tr 1) by (apply dt_linear_ok; auto; apply Permutation_refl).
    set (act := fold_left (fun a n => upd (n - 1) false a) (tl (d2i tr)) (repeat true (nbn tr))).
    assert (LD : length (d2i tr) = ndim A).
    { unfold tr. cbn [d2i dt_linear]. rewrite (Permutation_length (scatter_perm _ _ (Permutation_refl _))) || erewrite Permutation_length by (apply scatter_perm; cbn [length]; rewrite map_length, rev_length, seq_length; replace (S (ndim A - 1)) with (ndim A) by lia; apply Permutation_refl). cbn [length]. rewrite map_length, rev_length, seq_length. lia. }
    assert (Ln : nbn tr = (2 * ndim A - 1)%nat) by reflexivity.
    assert (La : length act = nbn tr).
    { assert (K : forall l (a : list bool), length (fold_left (fun a n => upd (n - 1) false a) l a) = length a) by (induction l as [|x l IH]; intros a; auto; cbn [fold_left]; rewrite IH, upd_length; auto).
      unfold act. rewrite K, repeat_length. auto. }
    pose proof (NoDup_d2i tr 1 V) as ND. destruct (d2i tr) as [|d0 dl] eqn:Ed; [cbn in LD; lia|].
    assert (Hleaf : forall n, is_leaf tr n = true <-> In n (d0 :: dl)) by (intros n; unfold is_leaf; rewrite Ed, inb_spec; tauto).
    assert (An : forall n, node tr n -> nth (n - 1) act false = negb (inb n dl)).
    { intros n Hn. unfold act. cbn [tl]. rewrite fold_upd_false.
      - unfold node in Hn. replace (S (n - 1)) with n by lia. destruct (inb n dl); auto. cbn [negb]. apply nth_repeat_in. lia.
      - right. intros k Hk. assert (Hl : is_leaf tr k = true) by (apply Hleaf; simpl; auto). apply (leaf_node tr 1 V) in Hl. unfold node in Hl. lia. }
    destruct (hsvd_main t A tr 1 (Some act) act mr) as (X & t' & F & E1 & E2 & E3 & E4 & E5 & E6 & E7 & E8 & E9); auto.
    - rewrite Ed. lia.
    - rewrite Ed. lia.
    - intros n Hn Hl. rewrite An by auto. apply negb_true_iff, inb_false. intros K. assert (is_leaf tr n = true) by (apply Hleaf; simpl; auto). congruence.
    - exists X, t', F. split; [unfold ttsvd; fold tr; rewrite Ed; exact E1|]. split; auto. split; auto. split; auto. split; auto. split; [|split; auto].
      intros n Hn. cbn [nth]. destruct (Nat.eq_dec n 1) as [->|NE].
      + assert (Ha : active X 1 = true) by (destruct E3 as (_ & _ & K & _); exact K). rewrite Ha. split; [discriminate|]. intros [Hl _]. assert (R1 := root_int tr 1 V). rewrite Ed in R1. rewrite R1 in Hl by lia. discriminate.
      + rewrite E6 by auto. rewrite An by auto. rewrite negb_false_iff, inb_spec, Hleaf. inversion ND; subst. simpl. split.
        * intros K. split; auto. intros ->. auto.
        * intros [[->|K] Q]; auto. congruence.
  Qed.
End Main.
