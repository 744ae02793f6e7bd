(** eval_at_indices of a tree-based tensor. *)
From Coq Require Import List Arith Lia Bool Sorted Ring Permutation.
From Verif.Base Require Import ListAux CRing Index.
From Verif.Model Require Import Utils Numpy FullTensor DimensionTree TreeBased TreeEval TreeReduce.
From Verif.Spec Require Import TensorSpec TreeSpec TreeTensorSpec.
From Verif.Proofs Require Import NumpyP FullTensorP FullTensorP3 FullTensorP4 FunctionsP DimTreeP DimTreeP2 DimTreeP4 DimTreeP5 TreeTensorP TreeTensorP2 TreeTensorP3 TreeTensorP4 TreeTensorP5 TreeTensorP18 TreeTensorP19 TreeTensorP20 TreeTensorP22 TreeTensorP24 TreeTensorP25 TreeTensorP27 TreeTensorP28.
Import ListNotations.

Lemma asm_more n m d js is e : Forall (fun k => k < n) d -> NoDup d -> length js = length d -> length is = length (compl n d) -> length e = m ->
  asm (n + m) d js (is ++ e) = asm n d js is ++ e.
Proof.
  intros HF ND Lj Li Le. rewrite Forall_forall in HF. apply asm_ext; auto.
  - rewrite app_length, asm_length. lia.
  - apply Forall_forall. intros k Hk. specialize (HF k Hk). lia.
  - intros k Hk. assert (nth k d 0 < n) by (apply HF, nth_In; auto). rewrite app_nth1 by (rewrite asm_length; auto). apply asm_nth_in; auto. apply Forall_forall; auto.
  - rewrite compl_more by (apply Forall_forall; auto). intros k Hk. rewrite app_length, seq_length in Hk. destruct (Nat.lt_ge_cases k (length (compl n d))) as [Q|Q].
    + rewrite (app_nth1 (compl n d)) by auto. assert (In (nth k (compl n d) 0) (compl n d)) as Hin by (apply nth_In; auto). apply in_compl in Hin.
      rewrite app_nth1 by (rewrite asm_length; lia). rewrite (app_nth1 is) by lia. apply asm_nth_out; auto.
    + rewrite (app_nth2 (compl n d)) by auto. rewrite seq_nth by lia. rewrite app_nth2 by (rewrite asm_length; lia). rewrite asm_length. rewrite (app_nth2 is) by lia. f_equal. lia.
Qed.
Lemma combine_nth_lt {A B} (l : list A) (l' : list B) k a b : k < length l -> k < length l' -> nth k (combine l l') (a, b) = (nth k l a, nth k l' b).
Proof. revert l' k. induction l as [|x l IH]; intros [|y l'] [|k] H H'; cbn in *; auto; try lia. apply IH; lia. Qed.
Lemma app_inj_len {A} (a a' b b' : list A) : a ++ b = a' ++ b' -> length a = length a' -> a = a' /\ b = b'.
Proof. revert a'. induction a as [|x a IH]; intros [|y a'] E L; cbn in *; try discriminate; auto. injection E as -> E. destruct (IH a' E) as [-> ->]; auto. Qed.
Lemma sel_more (l1 l2 : list nat) n ds : length l1 = n -> Forall (fun k => k < n) ds ->
  sel 0 (l1 ++ l2) (compl (n + length l2) ds) = sel 0 l1 (compl n ds) ++ l2.
Proof.
  intros L1 HF. rewrite compl_more by auto. unfold sel at 1. rewrite map_app. f_equal.
  - apply map_ext_in. intros k Hk. apply in_compl in Hk. rewrite app_nth1; auto. lia.
  - rewrite <- L1. apply sel_tail.
Qed.
Lemma put_nth_idx d js is k : NoDup d -> length js = length d -> In k d -> k < length is -> nth k (put d js is) 0 = nth (index_of k d) js 0.
Proof. intros ND L Hk Hl. destruct (index_of_nth d k Hk) as [Q1 Q2]. rewrite <- Q2 at 1. apply put_nth_in; auto. rewrite Q2. auto. Qed.
Lemma fold_upd_nth {A} (f : nat -> A) (a : A) ds : forall s l k, NoDup ds -> Forall (fun d => d < length l) ds ->
  nth k (fold_left (fun l p => upd (snd p) (f (fst p)) l) (combine (seq s (length ds)) ds) l) a = if inb k ds then f (s + index_of k ds) else nth k l a.
Proof.
  induction ds as [|d ds IH]; intros s l k ND HF; cbn [length seq combine fold_left]; auto.
  inversion ND as [|? ? Nd ND']; subst. inversion HF as [|? ? F1 F2]; subst. cbn [fst snd]. rewrite IH; auto.
  2:{ apply Forall_forall. intros x Hx. rewrite upd_length. rewrite Forall_forall in F2. auto. }
  cbn [inb existsb index_of]. destruct (Nat.eqb_spec k d) as [->|Hne].
  - cbn [orb]. rewrite Nat.eqb_refl. rewrite (proj2 (inb_false d ds)) by auto. rewrite nth_upd_eq by auto. f_equal. lia.
  - cbn [orb]. fold (inb k ds). destruct (inb k ds); [f_equal; destruct (Nat.eqb_spec d k); lia|]. apply nth_upd_neq. auto.
Qed.
Lemma fold_upd_length {A} (f : nat -> A) (ps : list (nat * nat)) : forall l, length (fold_left (fun l p => upd (snd p) (f (fst p)) l) ps l) = length l.
Proof. induction ps as [|p ps IH]; intros l; cbn [fold_left]; auto. rewrite IH, upd_length. auto. Qed.

Section AtIndices.
  Context {R : Type} {CR : CRing R}.
  Add Ring Rrt29 : rth.
  Local Open Scope cr_scope.
  Variables (X : tbt R) (r : nat) (A : nd R).
  Hypothesis O : tb_ok X r.
  Hypothesis H2 : (2 <= tb_order X)%nat.
  Hypothesis HA : tb_full X = Some A.
  Local Notation t := (ttree X).

  Lemma sub_tv sl : length sl = tb_order X ->
    (forall k, (k < tb_order X)%nat -> slice_ok (nth k (shape A) 0%nat) (nth k sl All) /\ (0 < slice_len (nth k (shape A) 0%nat) (nth k sl All))%nat) ->
    exists Y F, tb_sub_tensor X sl = Some Y /\ tb_ok Y r /\ ttree Y = ttree X /\ tb_full Y = Some F /\ exts Y r = exts X r /\
      tb_shape Y = map (fun k => slice_len (nth k (shape A) 0%nat) (nth k sl All)) (seq 0 (tb_order X)) /\
      shape F = tb_shape Y ++ exts X r /\
      forall is e, valid (tb_shape Y) is -> valid (exts X r) e ->
        tval Y r is e = get A (map (fun k => slice_idx (nth k sl All) (nth k is 0%nat)) (seq 0 (tb_order X)) ++ e) /\ get F (is ++ e) = tval Y r is e.
  Proof.
    intros Hl Hs. destruct (tb_sub_tensor_full X r sl A O H2 HA Hl Hs) as (Y & EY & OY & TY & F & EF & SF & GF).
    destruct (full_inv X r A O H2 HA) as [SA GA]. assert (LS : length (tb_shape X) = tb_order X) by apply tb_shape_length.
    assert (OrdY : tb_order Y = tb_order X) by (unfold tb_order; rewrite TY; auto). assert (LY : length (tb_shape Y) = tb_order Y) by apply tb_shape_length.
    destruct (full_inv Y r F OY) as [SF' GF']; [lia|auto|].
    assert (Ecomb : map (fun p => slice_len (fst p) (snd p)) (combine (shape A) sl) = map (fun k => slice_len (nth k (shape A) 0%nat) (nth k sl All)) (seq 0 (tb_order X))).
    { apply nth_ext' with (d := 0%nat).
      - rewrite !map_length, combine_length, seq_length, SA, app_length. lia.
      - intros k Hk. rewrite map_length, combine_length in Hk. rewrite map_nth_in with (da := (0%nat, All)) by (rewrite combine_length; auto). rewrite nth_map_seq by lia.
        rewrite combine_nth_lt by (rewrite ?SA, ?app_length in *; lia). auto. }
    assert (Esk : skipn (tb_order X) (shape A) = exts X r). { rewrite SA, <- LS, skipn_app, skipn_all, Nat.sub_diag. auto. }
    rewrite Ecomb, Esk in SF. assert (ES : tb_shape Y = map (fun k => slice_len (nth k (shape A) 0%nat) (nth k sl All)) (seq 0 (tb_order X)) /\ exts Y r = exts X r).
    { rewrite SF in SF'. apply app_inj_len in SF'; [|rewrite map_length, seq_length; lia]. destruct SF'; auto. }
    destruct ES as [ES EE]. exists Y, F. split; auto. split; auto. split; auto. split; auto. split; auto. split; auto. split; [congruence|].
    intros is e Hi He. split; [|apply GF'; rewrite ?EE; auto]. rewrite <- GF' by (rewrite ?EE; auto). rewrite GF.
    - assert (Li : length is = tb_order X) by (rewrite (valid_length _ _ Hi); lia). f_equal. f_equal.
      + apply nth_ext' with (d := 0%nat).
        * rewrite !map_length, combine_length, seq_length, app_length. lia.
        * intros k Hk. rewrite map_length, combine_length in Hk. rewrite map_nth_in with (da := (All, 0%nat)) by (rewrite combine_length; auto). rewrite nth_map_seq by lia.
          rewrite combine_nth_lt by (rewrite ?app_length in *; lia). cbn [fst snd]. rewrite app_nth1 by lia. auto.
      + rewrite <- Li, skipn_app, skipn_all, Nat.sub_diag. auto.
    - rewrite Ecomb, Esk. rewrite ES in Hi. apply valid_app; auto.
  Qed.

  Lemma shapeA_nth k : (k < tb_order X)%nat -> nth k (shape A) 0%nat = nth k (tb_shape X) 0%nat.
  Proof. intros Hk. destruct (full_inv X r A O H2 HA) as [SA _]. rewrite SA, app_nth1; auto. rewrite tb_shape_length. auto. Qed.
  Lemma diag_rows rows : rows <> [] -> Forall (valid (tb_shape X)) rows ->
    exists Y B, tb_sub_tensor X (map (fun k => Pick (column rows k)) (seq 0 (tb_order X))) = Some Y /\ tb_eval_diag Y = Some B /\
      tensor_is B (length rows :: exts X r) (fun is => get A (nth (nth 0 is 0%nat) rows [] ++ skipn 1 is)).
  Proof.
    intros Hne Hv. rewrite Forall_forall in Hv. assert (LS : length (tb_shape X) = tb_order X) by apply tb_shape_length.
    assert (Lr : (0 < length rows)%nat) by (destruct rows; [congruence|cbn; lia]).
    set (sl := map (fun k => Pick (column rows k)) (seq 0 (tb_order X))).
    assert (Hsl : forall k, (k < tb_order X)%nat -> nth k sl All = Pick (column rows k)) by (intros k Hk; unfold sl; apply (nth_map_seq (fun k => Pick (column rows k))); auto).
    destruct (sub_tv sl) as (Y & F & EY & OY & TY & EF & EE & SY & SF & GF).
    - unfold sl. rewrite map_length, seq_length. auto.
    - intros k Hk. rewrite Hsl by auto. cbn [slice_ok slice_len]. unfold column. rewrite map_length. split; auto. apply Forall_forall. intros x Hx. apply in_map_iff in Hx. destruct Hx as (row & <- & Hr).
      rewrite shapeA_nth by auto. apply valid_nth; auto. lia.
    - assert (ES : tb_shape Y = repeat (length rows) (tb_order X)).
      { rewrite SY. apply nth_ext' with (d := 0%nat); [rewrite map_length, seq_length, repeat_length; auto|]. intros k Hk. rewrite map_length, seq_length in Hk.
        rewrite nth_map_seq by auto. rewrite Hsl by auto. cbn [slice_len]. unfold column. rewrite map_length, nth_rep; auto. }
      assert (OrdY : tb_order Y = tb_order X) by (unfold tb_order; rewrite TY; auto).
      destruct (tb_eval_diag_ok Y r (length rows) OY) as (B & EB & SB & GB); try lia; [rewrite OrdY; auto|].
      exists Y, B. split; [exact EY|]. split; [exact EB|]. rewrite EE in *. split; [exact SB|].
      intros is Hi. inversion Hi as [|i ? e ? Hlt He]; subst. cbn [nth skipn]. rewrite GB by auto. rewrite OrdY.
      assert (Hvi : valid (tb_shape Y) (repeat i (tb_order X))).
      { rewrite ES. apply valid_intro; rewrite !repeat_length; auto. intros k Hk. rewrite !nth_rep by auto. auto. }
      rewrite (proj1 (GF _ _ Hvi He)). f_equal. f_equal.
      assert (Hrow : valid (tb_shape X) (nth i rows [])) by (apply Hv, nth_In; auto).
      apply nth_ext' with (d := 0%nat); [rewrite map_length, seq_length, (valid_length _ _ Hrow); auto|]. intros k Hk. rewrite map_length, seq_length in Hk. rewrite nth_map_seq by auto. rewrite Hsl, nth_rep by auto. cbn [slice_idx].
      unfold column. rewrite map_nth_in with (da := []) by auto. auto.
  Qed.
  Theorem eai_all rows : rows <> [] -> Forall (valid (tb_shape X)) rows ->
    exists B, tb_eval_at_indices X (tb_order X) rows None = Some (inl B) /\
      tensor_is B (length rows :: exts X r) (fun is => get A (nth (nth 0 is 0%nat) rows [] ++ skipn 1 is)).
  Proof.
    intros Hne Hv. destruct (diag_rows rows Hne Hv) as (Y & B & EY & EB & HB). exists B. split; auto.
    unfold tb_eval_at_indices. rewrite Nat.eqb_refl. cbn [orb]. rewrite EY. cbn [bind]. rewrite EB. auto.
  Qed.
  (** an array with one row per dimension is transposed *)
  Theorem eai_all_transposed w cols : w <> tb_order X -> w <> 0%nat -> length cols = tb_order X -> Forall (fun c => length c = w) cols ->
    (forall k, (k < tb_order X)%nat -> Forall (fun i => (i < nth k (tb_shape X) 0)%nat) (nth k cols [])) ->
    exists B, tb_eval_at_indices X w cols None = Some (inl B) /\
      tensor_is B (w :: exts X r) (fun is => get A (map (fun c => nth (nth 0 is 0%nat) c 0%nat) cols ++ skipn 1 is)).
  Proof.
    intros Hw H0 Hl Hc Hv. assert (LS : length (tb_shape X) = tb_order X) by apply tb_shape_length. rewrite Forall_forall in Hc.
    destruct (diag_rows (transpose_rows w cols)) as (Y & B & EY & EB & SB & GB).
    - unfold transpose_rows. destruct w; [congruence|]. discriminate.
    - unfold transpose_rows. apply Forall_forall. intros row Hr. apply in_map_iff in Hr. destruct Hr as (j & <- & Hj). apply in_seq in Hj. unfold column. apply valid_intro; [rewrite map_length; lia|]. rewrite LS. intros k Hk.
      rewrite map_nth_in with (da := []) by lia. specialize (Hv k Hk). rewrite Forall_forall in Hv. apply Hv. apply nth_In. rewrite Hc; [lia|]. apply nth_In. lia.
    - exists B. split.
      + unfold tb_eval_at_indices. rewrite (proj2 (Nat.eqb_neq _ _) Hw), Hl, Nat.eqb_refl. cbn [orb]. rewrite EY. cbn [bind]. rewrite EB. auto.
      + unfold transpose_rows in SB at 1. rewrite map_length, seq_length in SB. split; auto. intros is Hi. inversion Hi as [|i ? e ? Hlt He]; subst. unfold transpose_rows in GB at 1. rewrite map_length, seq_length in GB. rewrite GB by auto. cbn [nth skipn]. unfold transpose_rows. rewrite nth_map_seq by auto. auto.
  Qed.

  Section Some.
    Variables (ds : list nat) (rows : list (list nat)).
    Hypothesis ND : NoDup ds.
    Hypothesis HF : Forall (fun k => (k < tb_order X)%nat) ds.
    Hypothesis Hne : rows <> [].
    Hypothesis Hv : Forall (valid (sel 0%nat (shape A) ds)) rows.
    Let sl := fold_left (fun l p => upd (snd p) (Pick (column rows (fst p))) l) (combine (seq 0 (length ds)) ds) (repeat All (tb_order X)).
    Lemma sl_nth k : (k < tb_order X)%nat -> nth k sl All = if inb k ds then Pick (column rows (index_of k ds)) else All.
    Proof.
      intros Hk. unfold sl. rewrite (fold_upd_nth (fun i => Pick (column rows i))); auto; [|rewrite repeat_length; auto]. cbn [Nat.add].
      destruct (inb k ds); auto. apply nth_rep. auto.
    Qed.
    (** the sub-tensor extracted first *)
    Lemma sub_some : exists Y F, tb_sub_tensor X sl = Some Y /\ tb_ok Y r /\ ttree Y = ttree X /\ tb_full Y = Some F /\ exts Y r = exts X r /\
      tb_shape Y = put ds (repeat (length rows) (length ds)) (tb_shape X) /\ shape F = tb_shape Y ++ exts X r /\
      forall is e, valid (tb_shape Y) is -> valid (exts X r) e -> get F (is ++ e) = tval Y r is e /\
        tval Y r is e = get A (put ds (map (fun k => nth k (nth (nth (nth k ds 0%nat) is 0%nat) rows []) 0%nat) (seq 0 (length ds))) is ++ e).
    Proof.
      assert (LS : length (tb_shape X) = tb_order X) by apply tb_shape_length. pose proof (proj1 (Forall_forall _ _) Hv) as Hv'. pose proof (proj1 (Forall_forall _ _) HF) as HF'.
      assert (Lr : (0 < length rows)%nat) by (destruct rows; [congruence|cbn; lia]).
      destruct (sub_tv sl) as (Y & F & EY & OY & TY & EF & EE & SY & SF & GF).
      - unfold sl. rewrite (fold_upd_length (fun i => Pick (column rows i))), repeat_length. auto.
      - intros k Hk. rewrite sl_nth by auto. destruct (inb k ds) eqn:Eb.
        + cbn [slice_ok slice_len]. unfold column. rewrite map_length. split; auto. apply Forall_forall. intros x Hx. apply in_map_iff in Hx. destruct Hx as (row & <- & Hr).
          apply inb_spec in Eb. destruct (index_of_nth ds k Eb) as [Q1 Q2]. pose proof (valid_nth _ _ (index_of k ds) (Hv' row Hr)) as Hn. rewrite sel_length in Hn. specialize (Hn Q1). rewrite sel_nth, Q2 in Hn by auto. auto.
        + cbn [slice_ok slice_len]. split; auto. rewrite shapeA_nth by auto. apply (tb_shape_pos X r k); auto.
      - assert (ES : tb_shape Y = put ds (repeat (length rows) (length ds)) (tb_shape X)).
        { rewrite SY. apply nth_ext' with (d := 0%nat); [rewrite map_length, seq_length, put_length; auto|]. intros k Hk. rewrite map_length, seq_length in Hk.
          rewrite nth_map_seq, sl_nth by auto. destruct (inb k ds) eqn:Eb.
          - apply inb_spec in Eb. destruct (index_of_nth ds k Eb) as [Q1 Q2]. rewrite put_nth_idx; auto; [|rewrite repeat_length; auto|lia]. rewrite nth_rep by auto. cbn [slice_len]. unfold column. apply map_length.
          - apply inb_false in Eb. rewrite put_nth_out by auto. cbn [slice_len]. apply shapeA_nth. auto. }
        exists Y, F. split; [exact EY|]. split; [exact OY|]. split; [exact TY|]. split; [exact EF|]. split; [exact EE|]. split; [exact ES|]. split; [exact SF|].
        intros is e Hi He. destruct (GF is e Hi He) as [G1 G2]. split; [exact G2|]. rewrite G1. f_equal. f_equal.
        assert (Li : length is = tb_order X). { rewrite (valid_length _ _ Hi), ES, put_length. auto. }
        apply nth_ext' with (d := 0%nat); [rewrite map_length, seq_length, put_length; auto|]. intros k Hk. rewrite map_length, seq_length in Hk. rewrite nth_map_seq, sl_nth by auto. destruct (inb k ds) eqn:Eb.
        + apply inb_spec in Eb. destruct (index_of_nth ds k Eb) as [Q1 Q2]. rewrite put_nth_idx; auto; [|rewrite map_length, seq_length; auto|lia]. rewrite nth_map_seq by auto. rewrite Q2. cbn [slice_idx].
          unfold column. rewrite map_nth_in with (da := []); auto. pose proof (valid_nth _ _ k Hi) as Hn. rewrite ES, put_length in Hn. rewrite LS in Hn. specialize (Hn Hk). rewrite put_nth_idx in Hn; auto; [|rewrite repeat_length; auto|lia]. rewrite nth_rep in Hn by auto. auto.
        + apply inb_false in Eb. rewrite put_nth_out by auto. auto.
    Qed.

    (** several dimensions and at least two rows *)
    Theorem eai_rows : (2 <= length ds)%nat -> (length ds < tb_order X)%nat -> length rows <> 1%nat ->
      (exists n, node t n /\ Permutation ds (dims t n)) ->
      exists Z r', tb_eval_at_indices X (length ds) rows (Some ds) = Some (inr Z) /\ tb_ok Z r' /\
        returns (tb_full Z) (length rows :: sel 0%nat (shape A) (compl (ndim A) ds)) (fun is => get A (asm (ndim A) ds (nth (nth 0 is 0%nat) rows []) (skipn 1 is))).
    Proof.
      intros L2 Llt Lr Hn. destruct sub_some as (Y & F & EY & OY & TY & EF & EE & SY & SF & GF).
      assert (LS : length (tb_shape X) = tb_order X) by apply tb_shape_length. assert (OrdY : tb_order Y = tb_order X) by (unfold tb_order; rewrite TY; auto).
      assert (Lr0 : (0 < length rows)%nat) by (destruct rows; [congruence|cbn; lia]).
      pose proof (proj1 (Forall_forall _ _) Hv) as Hv'. pose proof (proj1 (Forall_forall _ _) HF) as HF'. cbn beta in HF'.
      destruct (full_inv X r A O H2 HA) as [SA GA].
      assert (ESc : sel 0%nat (tb_shape Y) (compl (tb_order X) ds) = sel 0%nat (tb_shape X) (compl (tb_order X) ds)).
      { rewrite SY. unfold sel. apply map_ext_in. intros k Hk. apply in_compl in Hk. apply put_nth_out. tauto. }
      destruct (edd_ok Y r (length rows) ds OY) as (Z & self & r' & EZ & OZ & SZ & EZx & GZ); auto; try lia.
      { rewrite TY. auto. }
      { intros k Hk. rewrite SY, put_nth_idx; auto; [|apply repeat_length|rewrite LS; auto]. apply nth_rep. apply (index_of_nth ds k Hk). }
      rewrite OrdY, ESc in *. rewrite EE in *. exists Z, r'. split.
      { unfold tb_eval_at_indices. rewrite Nat.eqb_refl. fold sl. rewrite EY. cbn [bind]. rewrite (proj2 (Nat.ltb_lt _ _)) by lia. rewrite (proj2 (Nat.eqb_neq _ _) Lr), EZ. auto. }
      split; auto.
      assert (Lc : length (compl (tb_order X) ds) = (tb_order X - length ds)%nat).
      { pose proof (app_compl_perm (tb_order X) ds ND HF) as Q. apply Permutation_length in Q. rewrite app_length, seq_length in Q. lia. }
      assert (NA : ndim A = (tb_order X + length (exts X r))%nat) by (unfold ndim; rewrite SA, app_length; lia).
      assert (OrdZ : tb_order Z = S (tb_order X - length ds)). { pose proof (tb_shape_length Z) as Q. rewrite SZ in Q. cbn [length] in Q. rewrite sel_length, Lc in Q. unfold tb_order at 1. lia. }
      apply (full_returns Z r'); auto; [lia| |].
      - rewrite SZ, EZx. cbn [app]. f_equal. rewrite NA, SA. rewrite sel_more; auto.
      - intros is e Hi He. rewrite SZ in Hi. inversion Hi as [|i ? is' ? Hlt Hi']; subst. cbn [app nth skipn]. rewrite EZx in He. rewrite GZ by auto.
        assert (Li : length is' = length (compl (tb_order X) ds)). { rewrite (valid_length _ _ Hi'), sel_length. auto. }
        assert (Lrow : length (nth i rows []) = length ds). { rewrite (valid_length _ _ (Hv' _ (nth_In _ _ Hlt))), sel_length. auto. }
        rewrite NA, asm_more; auto; [|apply (valid_length _ _ He)].
        assert (Hva : valid (tb_shape Y) (asm (tb_order X) ds (repeat i (length ds)) is')).
        { rewrite <- OrdY. unfold tb_order. rewrite <- tb_shape_length. apply valid_asm; auto.
          - rewrite tb_shape_length. fold (tb_order Y). rewrite OrdY. auto.
          - apply valid_intro; [rewrite repeat_length, sel_length; auto|]. rewrite sel_length. intros k Hk. rewrite sel_nth by auto. rewrite nth_rep by auto. rewrite SY, put_nth_in; auto; [rewrite nth_rep; auto|apply repeat_length|rewrite LS; apply HF', nth_In; auto].
          - rewrite tb_shape_length. fold (tb_order Y). rewrite OrdY, ESc. auto. }
        rewrite (proj2 (GF _ _ Hva He)). f_equal. f_equal. symmetry. apply asm_ext; auto.
        + rewrite put_length, asm_length. auto.
        + intros m Hm. rewrite put_nth_in; auto; [|rewrite map_length, seq_length; auto|rewrite asm_length; apply HF', nth_In; auto]. rewrite nth_map_seq by auto. rewrite asm_nth_in by auto. rewrite nth_rep by auto. auto.
        + intros m Hm. rewrite put_nth_out; [apply asm_nth_out; auto|]. assert (Q : In (nth m (compl (tb_order X) ds) 0%nat) (compl (tb_order X) ds)) by (apply nth_In; auto). apply in_compl in Q. tauto.
    Qed.
    (** one row: squeeze() removes the dimensions of size 1 *)
    Section OneRow.
      Variable j : list nat.
      Hypothesis Hj : rows = [j].
      Hypothesis H1 : forall k, (k < tb_order X)%nat -> ~ In k ds -> nth k (shape A) 0%nat <> 1%nat.
      Lemma one_row_sub : exists Y F, tb_sub_tensor X sl = Some Y /\ tb_ok Y r /\ tb_order Y = tb_order X /\ tb_full Y = Some F /\
        shape F = put ds (repeat 1%nat (length ds)) (shape A) /\ 
        (forall is, valid (shape F) is -> get F is = get A (put ds j is)) /\
        (forall k, (k < tb_order X)%nat -> (In k ds <-> nth k (shape F) 0%nat = 1%nat)).
      Proof.
        destruct sub_some as (Y & F & EY & OY & TY & EF & EE & SY & SF & GF). rewrite Hj in SY. cbn [length] in SY.
        assert (LS : length (tb_shape X) = tb_order X) by apply tb_shape_length. pose proof (proj1 (Forall_forall _ _) HF) as HF'. cbn beta in HF'.
        destruct (full_inv X r A O H2 HA) as [SA GA].
        assert (Lj : length j = length ds). { pose proof (proj1 (Forall_forall _ _) Hv j) as Q. rewrite (valid_length _ _ (Q ltac:(rewrite Hj; cbn; auto))). apply sel_length. }
        assert (SF' : shape F = put ds (repeat 1%nat (length ds)) (shape A)).
        { rewrite SF, SY, SA. symmetry. apply put_app_l. rewrite LS. auto. }
        exists Y, F. split; auto. split; auto. split; [unfold tb_order; rewrite TY; auto|]. split; auto. split; auto. split.
        - intros is Hi. rewrite SF in Hi. apply valid_app_inv in Hi. destruct Hi as (a & b & -> & Ha & Hb). destruct (GF a b Ha Hb) as [G1 G2]. rewrite G1, G2.
          assert (La : length a = tb_order X) by (rewrite (valid_length _ _ Ha), SY, put_length; auto).
          rewrite put_app_l by (rewrite La; auto). f_equal. f_equal. f_equal. apply nth_ext' with (d := 0%nat); [rewrite map_length, seq_length; auto|]. intros k Hk. rewrite map_length, seq_length in Hk. rewrite nth_map_seq by auto. f_equal.
          assert (Q : nth (nth k ds 0%nat) a 0%nat = 0%nat).
          { pose proof (valid_nth _ _ (nth k ds 0%nat) Ha) as Hn. rewrite SY, put_length, LS in Hn. specialize (Hn (HF' _ (nth_In _ _ Hk))). rewrite put_nth_in in Hn; auto; [|apply repeat_length|rewrite LS; apply HF', nth_In; auto]. rewrite nth_rep in Hn by auto. lia. }
          rewrite Q, Hj. auto.
        - intros k Hk. assert (HkA : (k < length (shape A))%nat) by (rewrite SA, app_length; lia). rewrite SF'. split; intros Q.
          + rewrite put_nth_idx; auto; [|apply repeat_length]. apply nth_rep. apply (index_of_nth ds k Q).
          + destruct (in_dec Nat.eq_dec k ds); auto. rewrite put_nth_out in Q by auto. destruct (H1 k Hk); auto.
      Qed.
      Theorem eai_one_row : (2 <= length ds)%nat -> (length ds < tb_order X)%nat -> (ndim A = tb_order X \/ (length ds + 2 <= tb_order X)%nat) ->
        exists Z r', tb_eval_at_indices X (length ds) rows (Some ds) = Some (inr Z) /\ tb_ok Z r' /\ tb_order Z = (tb_order X - length ds)%nat /\
          returns (tb_full Z) (sel 0%nat (shape A) (compl (ndim A) ds)) (fun is => get A (asm (ndim A) ds j is)).
      Proof.
        intros L2 Llt Hc. destruct one_row_sub as (Y & F & EY & OY & OrdY & EF & SF & GF & HI). pose proof (proj1 (Forall_forall _ _) HF) as HF'. cbn beta in HF'.
        assert (LS : length (tb_shape X) = tb_order X) by apply tb_shape_length. destruct (full_inv X r A O H2 HA) as [SA GA].
        assert (Lj : length j = length ds). { pose proof (proj1 (Forall_forall _ _) Hv j) as Q. rewrite (valid_length _ _ (Q ltac:(rewrite Hj; cbn; auto))). apply sel_length. }
        assert (HFA : Forall (fun k => (k < ndim A)%nat) ds). { apply Forall_forall. intros k Hk. specialize (HF' k Hk). unfold ndim. rewrite SA, app_length. lia. }
        set (ds' := filter (fun k => nth k (shape F) 0 =? 1)%nat (seq 0 (tb_order Y))).
        assert (Hin : forall k, In k ds' <-> In k ds).
        { intros k. unfold ds'. rewrite filter_In, in_seq, OrdY, Nat.eqb_eq. split; [intros [Q1 Q2]; apply HI; auto; lia|]. intros Q. specialize (HF' k Q). split; [lia|]. apply HI; auto. }
        assert (ND' : NoDup ds') by (apply NoDup_filter, seq_NoDup).
        assert (PL : length ds' = length ds) by (apply Permutation_length, NoDup_Permutation; auto).
        assert (Hcp : forall n, compl n ds' = compl n ds).
        { intros n. unfold compl. apply filter_ext. intros k. f_equal. destruct (inb k ds) eqn:Eb; [apply inb_spec; apply Hin; apply inb_spec; auto|apply inb_false; apply inb_false in Eb; rewrite Hin; auto]. }
        assert (H2Y : (2 <= tb_order Y)%nat) by lia.
        assert (NF : ndim F = ndim A) by (unfold ndim; rewrite SF, put_length; auto).
        destruct (squeeze_full Y r F OY H2Y EF ds') as (Z & r' & G & EZ & OZ & OrdZ & _ & EG & SG & GG); auto.
        { apply Forall_forall. intros k Hk. apply Hin in Hk. rewrite OrdY. auto. }
        { intros k Hk. apply Hin in Hk. apply HI; auto. }
        { lia. }
        { rewrite NF, OrdY, PL. auto. }
        exists Z, r'. split.
        { unfold tb_eval_at_indices. rewrite Nat.eqb_refl. fold sl. rewrite EY. cbn [bind]. rewrite (proj2 (Nat.ltb_lt _ _)) by lia. rewrite Hj. cbn [length Nat.eqb]. rewrite (squeeze_none Y r F OY H2Y EF). auto. }
        split; auto. split; [lia|]. exists G. split; auto. rewrite NF, Hcp in SG, GG.
        assert (Hsc : sel 0%nat (shape F) (compl (ndim A) ds) = sel 0%nat (shape A) (compl (ndim A) ds)).
        { unfold sel. apply map_ext_in. intros k Hk. apply in_compl in Hk. rewrite SF, put_nth_out; tauto. }
        split; [congruence|]. intros is Hi. pose proof (valid_length _ _ Hi) as Li. rewrite sel_length in Li.
        assert (Hva : valid (shape F) (asm (ndim A) ds (repeat 0%nat (length ds)) is)).
        { rewrite <- NF. unfold ndim. apply valid_asm; auto.
          - fold (ndim F). rewrite NF. exact HFA.
          - apply valid_intro; [rewrite repeat_length, sel_length; auto|]. rewrite sel_length. intros k Hk. rewrite sel_nth by auto. rewrite (proj1 (HI _ (HF' _ (nth_In _ _ Hk)))) by (apply nth_In; auto). rewrite nth_rep by auto. lia.
          - fold (ndim F). rewrite NF, Hsc. exact Hi. }
        rewrite <- (sel_asm_compl (ndim A) ds (repeat 0%nat (length ds)) is) at 1 by auto. rewrite GG, GF by auto. f_equal.
        rewrite <- put_asm with (n := ndim A) by (auto; apply asm_length). rewrite sel_asm_compl; auto.
      Qed.
      Theorem eai_one_row_all : (2 <= length ds)%nat -> length ds = tb_order X -> ndim A = tb_order X ->
        exists B, tb_eval_at_indices X (length ds) rows (Some ds) = Some (inl B) /\ tensor_is B [] (fun _ => get A (asm (ndim A) ds j [])).
      Proof.
        intros L2 Leq Hc. destruct one_row_sub as (Y & F & EY & OY & OrdY & EF & SF & GF & HI). pose proof (proj1 (Forall_forall _ _) HF) as HF'. cbn beta in HF'.
        assert (Hp : forall k, (k < tb_order X)%nat -> In k ds).
        { intros k Hk. assert (Hi : incl ds (seq 0 (tb_order X))) by (intros x Hx; apply in_seq; specialize (HF' x Hx); lia).
          apply (NoDup_length_incl ND) in Hi; [|rewrite seq_length; lia]. apply Hi. apply in_seq. lia. }
        assert (Lj : length j = length ds). { pose proof (proj1 (Forall_forall _ _) Hv j) as Q. rewrite (valid_length _ _ (Q ltac:(rewrite Hj; cbn; auto))). apply sel_length. }
        assert (S1 : shape F = repeat 1%nat (tb_order Y)).
        { apply nth_ext' with (d := 0%nat); [rewrite SF, put_length, repeat_length; fold (ndim A); lia|]. intros k Hk. rewrite SF, put_length in Hk. fold (ndim A) in Hk. rewrite Hc in Hk. rewrite nth_rep by lia. apply HI; auto. }
        assert (H2Y : (2 <= tb_order Y)%nat) by lia.
        destruct (squeeze_all Y F H2Y EF (filter (fun k => nth k (shape F) 0 =? 1)%nat (seq 0 (tb_order Y)))) as (B & EB & SB & GB); auto.
        { intros k Hk. apply filter_In. split; [apply in_seq; lia|]. apply Nat.eqb_eq. apply HI; [lia|]. apply Hp. lia. }
        exists B. split.
        { unfold tb_eval_at_indices. rewrite Nat.eqb_refl. fold sl. rewrite EY. cbn [bind]. rewrite (proj2 (Nat.ltb_lt _ _)) by lia. rewrite Hj. cbn [length Nat.eqb]. rewrite (squeeze_none Y r F OY H2Y EF). auto. }
        split; auto. intros is Hi. inversion Hi; subst. rewrite GB, GF.
        - f_equal. rewrite <- put_asm with (n := ndim A); auto; [| |apply Forall_forall; intros k Hk; rewrite Hc; auto].
          + f_equal. replace (compl (ndim A) ds) with (@nil nat); auto. symmetry. apply filter_none. intros x Hx. apply in_seq in Hx. rewrite (proj2 (inb_spec x ds)) by (apply Hp; lia). auto.
          + rewrite repeat_length. lia.
        - rewrite S1. apply valid_intro; [rewrite !repeat_length; auto|]. rewrite repeat_length. intros k Hk. rewrite !nth_rep by auto. lia.
      Qed.
    End OneRow.
  End Some.
  (** one dimension: the slices *)
  Theorem eai_one_dim d ks : (d < tb_order X)%nat -> ks <> [] -> Forall (fun k => (k < nth d (shape A) 0)%nat) ks ->
    exists Z, tb_eval_at_indices X 1 (map (fun k => [k]) ks) (Some [d]) = Some (inr Z) /\ tb_ok Z r /\ ttree Z = ttree X /\
      returns (tb_full Z) (upd d (length ks) (shape A)) (fun is => get A (upd d (nth (nth d is 0%nat) ks 0%nat) is)).
  Proof.
    intros Hd Hne Hk. assert (LS : length (tb_shape X) = tb_order X) by apply tb_shape_length. destruct (full_inv X r A O H2 HA) as [SA GA].
    destruct (sub_some [d] (map (fun k => [k]) ks)) as (Y & F & EY & OY & TY & EF & EE & SY & SF & GF).
    - apply NoDup_single.
    - constructor; auto.
    - destruct ks; [congruence|discriminate].
    - apply Forall_forall. intros x Hx. apply in_map_iff in Hx. destruct Hx as (k & <- & Hin). cbn. constructor; [|constructor]. rewrite Forall_forall in Hk. auto.
    - cbn [length repeat put seq map nth] in *. rewrite map_length in *. exists Y. split; [|split; [exact OY|split; [exact TY|]]].
      + unfold tb_eval_at_indices. cbn [length Nat.eqb seq combine]. cbn [length seq combine] in EY. rewrite EY. cbn [bind]. auto.
      + exists F. split; auto. assert (SF' : shape F = upd d (length ks) (shape A)) by (rewrite SF, SY, SA; symmetry; apply upd_app_l; lia). split; auto. rewrite <- SF'. intros is Hi. rewrite SF in Hi. apply valid_app_inv in Hi. destruct Hi as (a & b & -> & Ha & Hb).
        assert (La : length a = tb_order X) by (rewrite (valid_length _ _ Ha), SY, upd_length; auto).
        destruct (GF a b Ha Hb) as [G1 G2]. rewrite G1, G2, upd_app_l, app_nth1 by lia. f_equal. f_equal. f_equal.
        pose proof (valid_nth _ _ d Ha) as Hn. rewrite SY, upd_length, nth_upd_eq in Hn by lia. specialize (Hn ltac:(lia)). rewrite map_nth_in with (da := 0%nat) by auto. auto.
  Qed.
End AtIndices.

Section EvalDiagFull.
  Context {R : Type} {CR : CRing R}.
  Theorem ed_full (X : tbt R) r A q : tb_ok X r -> 2 <= tb_order X -> tb_full X = Some A -> 0 < q -> tb_shape X = repeat q (tb_order X) ->
    returns (tb_eval_diag X) (q :: exts X r) (fun is => get A (repeat (nth 0 is 0) (tb_order X) ++ skipn 1 is)).
  Proof.
    intros O H2 HA Hq HS. destruct (tb_eval_diag_ok X r q O H2 Hq HS) as (C & EC & SC & GC). destruct (full_inv X r A O H2 HA) as [SA GA].
    exists C. split; auto. split; auto. intros is Hi. inversion Hi as [|i ? e ? Hlt He]; subst. cbn [nth skipn]. rewrite GC by auto. symmetry. apply GA; auto.
    rewrite HS. apply valid_intro; rewrite !repeat_length; auto. intros k Hk. rewrite !nth_rep by auto. auto.
  Qed.
  Theorem edd_full (X : tbt R) r A q ds : tb_ok X r -> 2 <= tb_order X -> tb_full X = Some A -> (exists n, node (ttree X) n /\ Permutation ds (dims (ttree X) n)) ->
    2 <= length ds < tb_order X -> 0 < q -> (forall k, In k ds -> nth k (shape A) 0 = q) ->
    exists Z self r', tb_eval_diag_dims X ds = Some (Z, self) /\ tb_ok Z r' /\
      returns (tb_full Z) (q :: sel 0 (shape A) (compl (ndim A) ds)) (fun is => get A (asm (ndim A) ds (repeat (nth 0 is 0) (length ds)) (skipn 1 is))).
  Proof.
    intros O H2 HA Hn [L2 Llt] Hq HS. destruct (full_inv X r A O H2 HA) as [SA GA]. assert (LS : length (tb_shape X) = tb_order X) by apply tb_shape_length.
    pose proof Hn as (n & Hnn & Hp). pose proof (proj1 O) as V.
    assert (NDs : NoDup ds) by (apply (Permutation_NoDup (Permutation_sym Hp)), (NoDup_dims _ r V n Hnn)).
    assert (HF' : forall k, In k ds -> k < tb_order X). { intros k Hk. apply (Permutation_in k Hp) in Hk. apply (in_dims _ r V n k Hnn) in Hk. apply Hk. }
    assert (HF : Forall (fun k => k < tb_order X) ds) by (apply Forall_forall; auto).
    assert (HS' : forall k, In k ds -> nth k (tb_shape X) 0 = q). { intros k Hk. rewrite <- (HS k Hk), SA, app_nth1; auto. rewrite LS. auto. }
    destruct (edd_ok X r q ds O Hn L2 Llt Hq HS') as (Z & self & r' & EZ & OZ & SZ & EE & GZ). exists Z, self, r'. split; auto. split; auto.
    assert (Lc : length (compl (tb_order X) ds) = tb_order X - length ds).
    { pose proof (app_compl_perm (tb_order X) ds NDs HF) as Q. apply Permutation_length in Q. rewrite app_length, seq_length in Q. lia. }
    assert (NA : ndim A = tb_order X + length (exts X r)) by (unfold ndim; rewrite SA, app_length; lia).
    assert (OrdZ : tb_order Z = S (tb_order X - length ds)). { pose proof (tb_shape_length Z) as Q. rewrite SZ in Q. cbn [length] in Q. rewrite sel_length, Lc in Q. unfold tb_order at 1. lia. }
    apply (full_returns Z r'); auto; [lia| |].
    - rewrite SZ, EE. cbn [app]. f_equal. rewrite NA, SA. rewrite sel_more; auto.
    - intros is e Hi He. rewrite SZ in Hi. inversion Hi as [|i ? is' ? Hlt Hi']; subst. cbn [app nth skipn]. rewrite EE in He. rewrite GZ by auto.
      assert (Li : length is' = length (compl (tb_order X) ds)). { rewrite (valid_length _ _ Hi'), sel_length. auto. }
      rewrite NA, asm_more; auto; [|apply repeat_length|apply (valid_length _ _ He)]. symmetry. apply GA; auto.
      unfold tb_order. rewrite <- tb_shape_length. apply valid_asm; auto.
      + rewrite LS. auto.
      + apply valid_intro; [rewrite repeat_length, sel_length; auto|]. rewrite sel_length. intros k Hk. rewrite sel_nth by auto. rewrite nth_rep by auto. rewrite HS'; auto. apply nth_In; auto.
      + rewrite LS. auto.
  Qed.
End EvalDiagFull.
