(** Proofs about FullTensor (continued): elementwise operations, eval_at_indices, eval_diag, sums,
    diagonal matrices, orthogonalisation. *)
From Coq Require Import List Arith Lia Bool ZArith Permutation.
From Verif.Base Require Import ListAux CRing Index.
From Verif.Model Require Import Sorting Numpy FullTensor.
From Verif.Spec Require Import TensorSpec.
From Verif.Proofs Require Import SortingP NumpyP FullTensorP FullTensorP2.
Import ListNotations.

Lemma compl_ext n d d' : (forall k, In k d <-> In k d') -> compl n d = compl n d'.
Proof.
  intros H. unfold compl. apply filter_ext_in. intros k _. f_equal. apply eq_true_iff_eq.
  rewrite !inb_spec. apply H.
Qed.
Lemma asm_perm n d js is s : NoDup d -> Forall (fun k => k < n) d -> length js = length d ->
  length is = length (compl n d) -> is_perm (length d) s ->
  asm n (sel 0 d s) (sel 0 js s) is = asm n d js is.
Proof.
  intros Hd Hf Hl Hi Hs.
  assert (Hp : Permutation (sel 0 d s) d) by (apply sel_perm with (n := length d); auto).
  assert (Hc : compl n (sel 0 d s) = compl n d).
  { apply compl_ext. intros k. split; apply Permutation_in; auto using Permutation_sym. }
  apply asm_ext.
  - apply asm_length.
  - apply (Permutation_NoDup (Permutation_sym Hp)); auto.
  - rewrite Forall_forall in *. intros k Hk. apply Hf. apply (Permutation_in _ Hp); auto.
  - intros m Hm. rewrite sel_length in Hm. rewrite !sel_nth by auto. apply asm_nth_in; auto.
    pose proof (is_perm_length _ _ Hs). eapply is_perm_nth; eauto. lia.
  - intros m Hm. rewrite Hc in *. apply asm_nth_out; auto.
Qed.
Lemma ins_length k x l : k <= length l -> length (ins k x l) = S (length l).
Proof. intros H. unfold ins. rewrite app_length, firstn_length. simpl. rewrite skipn_length. lia. Qed.
Lemma valid_ins s is k n x : valid s is -> x < n -> valid (ins k n s) (ins k x is).
Proof.
  intros Hv Hx. unfold ins. revert s is Hv. induction k as [|k IH]; intros s is Hv; simpl.
  - constructor; auto.
  - inversion Hv; subst; cbn [firstn skipn app]; [repeat constructor; auto|]. constructor; auto. apply IH; auto.
Qed.

Section FT3.
  Context {R : Type} {CR : CRing R}.
  Add Ring Rr : rth.
  Local Open Scope cr_scope.
  Implicit Types A B C M T : nd R.

  (** * elementwise *)
  Lemma np_binop_scalar_r (f : R -> R -> R) A c : returns (np_binop f A (scalar c)) (shape A) (fun is => f (get A is) c).
  Proof.
    unfold np_binop. cbn [scalar shape]. rewrite bshape_scalar_r. eexists; split; [reflexivity|].
    split; auto. intros is Hv. cbn [get]. rewrite bindex_same by auto. auto.
  Qed.
  Lemma ft_rsub_same A B : shape A = shape B -> returns (ft_rsub A B) (shape A) (fun is => get B is - get A is).
  Proof.
    intros H. unfold ft_rsub, ft_add. destruct (np_binop_same radd (ft_neg A) B) as [C [HC [Hs Hg]]]; auto.
    exists C. split; auto. split; auto. intros is Hv. rewrite Hg by auto. simpl. ring.
  Qed.
  Lemma ft_rsub_scalar A c : returns (ft_rsub A (scalar c)) (shape A) (fun is => c - get A is).
  Proof.
    unfold ft_rsub, ft_add. destruct (np_binop_scalar_r radd (ft_neg A) c) as [C [HC [Hs Hg]]]; auto.
    exists C. split; auto. split; auto. intros is Hv. rewrite Hg by auto. simpl. ring.
  Qed.
  Lemma bshape_rev_none a b : length a = length b -> (exists k, k < length a /\ nth k a 0 <> nth k b 0 /\ nth k a 0 <> 1 /\ nth k b 0 <> 1)%nat ->
    bshape_rev a b = None.
  Proof.
    revert b; induction a as [|x a IH]; intros [|y b] Hl [k [Hk [H1 [H2 H3]]]]; simpl in *; try lia.
    destruct k as [|k].
    - destruct (bshape_rev a b); auto.
      rewrite (proj2 (Nat.eqb_neq x y)), (proj2 (Nat.eqb_neq x 1)), (proj2 (Nat.eqb_neq y 1)) by auto. auto.
    - rewrite IH; [auto|lia|]. exists k. repeat split; auto; lia.
  Qed.
  (** tensors of the same order whose sizes differ (not 1) along some dimension are refused *)
  Lemma np_binop_mismatch (f : R -> R -> R) A B k : ndim A = ndim B -> (k < ndim A)%nat ->
    nth k (shape A) 0%nat <> nth k (shape B) 0%nat -> nth k (shape A) 0%nat <> 1%nat -> nth k (shape B) 0%nat <> 1%nat ->
    np_binop f A B = None.
  Proof.
    intros Hn Hk H1 H2 H3. unfold np_binop, bshape, ndim in *. rewrite bshape_rev_none; auto.
    - rewrite !rev_length; auto.
    - exists (length (shape A) - S k)%nat. rewrite rev_length. split; [lia|].
      rewrite !rev_nth by lia. rewrite <- Hn. replace (length (shape A) - S (length (shape A) - S k))%nat with k by lia. auto.
  Qed.

  (** * eval_at_indices *)
  Lemma rows_all_valid A dims rows : is_perm (ndim A) dims ->
    Forall (fun r => valid (sel 0%nat (shape A) dims) r) rows ->
    Forall (fun r => valid (shape A) (sel 0%nat r (np_argsort dims))) rows.
  Proof.
    intros Hp. apply Forall_impl. intros r Hv. rewrite (np_argsort_perm _ _ Hp).
    rewrite <- (sel_inv_perm 0%nat (ndim A) dims (shape A)) by auto.
    apply sel_valid; auto. apply Forall_forall. intros k Hk. rewrite sel_length.
    rewrite (is_perm_length _ _ Hp). eapply is_perm_in; [apply inv_perm_is_perm; eauto|auto].
  Qed.
  Lemma ft_eval_all_none A rows : Forall (valid (shape A)) rows ->
    returns (ft_eval_at_indices A (ndim A) rows None) [length rows] (fun is => get A (nth (nth 0 is 0%nat) rows [])).
  Proof.
    intros H. unfold ft_eval_at_indices. cbn [bind]. rewrite seq_length, Nat.eqb_refl. cbn [negb].
    assert (E : forallb (validb (shape A)) rows = true).
    { apply forallb_forall. rewrite Forall_forall in H. intros r Hr. apply validb_spec; auto. }
    rewrite E. eexists; split; [reflexivity|]. split; auto.
  Qed.
  Lemma ft_eval_all_some A dims rows : is_perm (ndim A) dims ->
    Forall (fun r => valid (sel 0%nat (shape A) dims) r) rows ->
    returns (ft_eval_at_indices A (ndim A) rows (Some dims)) [length rows]
      (fun is => get A (asm (ndim A) dims (nth (nth 0 is 0%nat) rows []) [])).
  Proof.
    intros Hp H. pose proof (is_perm_length _ _ Hp) as L. unfold ft_eval_at_indices.
    rewrite !L, !Nat.eqb_refl. cbn [negb bind].
    destruct (np_argsort_spec dims) as [Hs _]. pose proof (is_perm_length _ _ Hs) as Ls.
    rewrite sel_length, Ls, L, Nat.eqb_refl. cbn [negb].
    assert (E : forallb (validb (shape A)) (map (fun r => sel 0%nat r (np_argsort dims)) rows) = true).
    { apply forallb_forall. intros r Hr. apply in_map_iff in Hr as [r' [<- Hr]].
      pose proof (rows_all_valid A dims rows Hp H) as Hv. rewrite Forall_forall in Hv. apply validb_spec; auto. }
    rewrite E. rewrite map_length. eexists; split; [reflexivity|]. split; auto.
    intros is Hv. cbn [get]. f_equal.
    assert (Hi : (nth 0 is 0 < length rows)%nat) by (apply (valid_nth _ _ 0%nat) in Hv; auto).
    rewrite (map_nth_in _ _ _ []) by auto.
    set (r := nth (nth 0 is 0%nat) rows []). assert (Hr : valid (sel 0%nat (shape A) dims) r).
    { rewrite Forall_forall in H. apply H. apply nth_In; auto. }
    pose proof (valid_length _ _ Hr) as Lr. rewrite sel_length, L in Lr.
    assert (HF : Forall (fun k => (k < ndim A)%nat) dims) by (apply Forall_forall; intros k Hk; eapply is_perm_in; eauto).
    symmetry. apply asm_ext; auto.
    - rewrite sel_length. lia.
    - eapply is_perm_NoDup; eauto.
    - intros m Hm. rewrite L in Hm. rewrite (np_argsort_perm _ _ Hp).
      pose proof (is_perm_nth _ _ m Hp Hm) as Hk.
      rewrite sel_nth by (rewrite inv_perm_length; lia). rewrite inv_perm_nth' with (n := ndim A); auto.
    - pose proof (compl_length (ndim A) dims (is_perm_NoDup _ _ Hp) HF). lia.
  Qed.
  Lemma ft_eval_single A d ks : (d < ndim A)%nat -> (1 < ndim A)%nat ->
    Forall (fun k => (k < nth d (shape A) 0)%nat) ks ->
    returns (ft_eval_at_indices A 1 (map (fun k => [k]) ks) (Some [d])) (upd d (length ks) (shape A))
      (fun is => get A (upd d (nth (nth d is 0%nat) ks 0%nat) is)).
  Proof.
    intros Hd Hn Hk. unfold ft_eval_at_indices. cbn [length Nat.eqb negb bind].
    change (np_argsort [d]) with [0%nat]. cbn [sel map nth length negb]. cbv zeta. cbn [Nat.eqb negb].
    assert (Hn1 : match ndim A with 1%nat => true | _ => false end = false) by (destruct (ndim A) as [|[|?]]; auto; lia).
    rewrite Hn1. rewrite (proj2 (Nat.ltb_lt _ _) Hd).
    rewrite !map_map. cbn [nth]. rewrite map_id.
    destruct (ft_sub_tensor_spec A (upd d (Pick ks) (repeat All (ndim A)))) as [B [HB [Hs Hg]]].
    { rewrite upd_length, repeat_length; auto. }
    { intros j Hj. rewrite nth_upd, repeat_length. destruct (Nat.eqb_spec j d) as [->|]; simpl.
      - rewrite (proj2 (Nat.ltb_lt _ _) Hd). auto.
      - rewrite nth_repeat. simpl; auto. }
    exists B. split; auto.
    assert (E : map (fun p => slice_len (fst p) (snd p)) (combine (shape A) (upd d (Pick ks) (repeat All (ndim A)))) = upd d (length ks) (shape A)).
    { unfold ndim in *. clear - Hd. revert d Hd. induction (shape A) as [|n s IH]; intros d Hd; simpl in *; [lia|].
      destruct d as [|d]; simpl.
      - f_equal. clear. induction s as [|m s IHs]; simpl; auto. f_equal; auto.
      - f_equal. apply IH. lia. }
    split; [congruence|]. intros is Hv. rewrite Hg by (rewrite E; auto). f_equal.
    pose proof (valid_length _ _ Hv) as L. rewrite upd_length in L.
    unfold ndim in *. clear - Hd L. revert d is L Hd. induction (shape A) as [|n s IH]; intros d [|i is] L Hd; simpl in *; try lia.
    destruct d as [|d]; simpl.
    - f_equal. clear - L. assert (L' : length is = length s) by lia. clear L. revert is L'. induction s as [|m s IHs]; intros [|i is] L; simpl in *; try lia; auto.
      f_equal. apply IHs; lia.
    - f_equal. apply IH; lia.
  Qed.

  (** several (not all) dimensions: the selected entries are the requested ones when the row-major and
      column-major linear indices of every requested row agree *)
  Lemma seq_min_compl n dims m : (forall k, In k dims -> (m <= k)%nat) -> (m <= n)%nat ->
    exists l, compl n dims = seq 0 m ++ l.
  Proof.
    intros H Hm. unfold compl. replace n with (m + (n - m))%nat by lia. rewrite seq_app, filter_app.
    rewrite filter_true; [eexists; reflexivity|]. intros x Hx. apply in_seq in Hx.
    apply negb_true_iff, inb_false. intros Hi. apply H in Hi. lia.
  Qed.
  Definition head_perm (left p : nat) : list nat := seq 1 left ++ [0%nat] ++ seq (left + 1) (p - left).
  Lemma head_perm_is_perm left p : (left <= p)%nat -> is_perm (S p) (head_perm left p).
  Proof.
    intros H. unfold is_perm, head_perm. rewrite app_assoc, (Permutation_app_comm (seq 1 left) [0%nat]).
    cbn [app seq]. constructor. replace (left + 1)%nat with (1 + left)%nat by lia. rewrite <- seq_app. replace (left + (p - left))%nat with p by lia. auto.
  Qed.
  Lemma sel_head_perm left (t : nat) l : (left <= length l)%nat -> sel 0%nat (t :: l) (head_perm left (length l)) = ins left t l.
  Proof.
    intros H. unfold sel, head_perm, ins. rewrite map_app. f_equal; [|cbn [app map nth]; f_equal].
    - rewrite <- seq_shift, map_map. cbn [nth]. clear t. revert l H. induction left as [|m IH]; intros l H; auto.
      destruct l as [|x l]; simpl in *; [lia|]. f_equal. rewrite <- seq_shift, map_map. cbn [nth]. apply IH. lia.
    - replace (left + 1)%nat with (S left) by lia. rewrite <- seq_shift, map_map. cbn [nth].
      clear t. revert l H. induction left as [|m IH]; intros l H.
      + rewrite Nat.sub_0_r. apply map_seq_nth.
      + destruct l as [|x l]; simpl in H; [lia|]. cbn [length skipn]. rewrite <- (IH l) by lia.
        replace (S (length l) - S m)%nat with (length l - m)%nat by lia.
        rewrite <- seq_shift, map_map. auto.
  Qed.
  Lemma ft_eval_sub A dims rows m0 : NoDup dims -> Forall (fun k => (k < ndim A)%nat) dims ->
    (1 < length dims < ndim A)%nat -> rows <> [] ->
    Forall (fun r => valid (sel 0%nat (shape A) dims) r) rows ->
    In m0 dims -> (forall k, In k dims -> (m0 <= k)%nat) ->
    Forall (fun r => sub2indC (sel 0%nat (shape A) (sel 0%nat dims (np_argsort dims))) (sel 0%nat r (np_argsort dims))
                   = sub2indF (sel 0%nat (shape A) (sel 0%nat dims (np_argsort dims))) (sel 0%nat r (np_argsort dims))) rows ->
    exists B, ft_eval_at_indices A (length dims) rows (Some dims) = Some B /\
      shape B = ins m0 (length rows) (sel 0%nat (shape A) (compl (ndim A) dims)) /\
      forall t is, (t < length rows)%nat -> valid (sel 0%nat (shape A) (compl (ndim A) dims)) is ->
        get B (ins m0 t is) = get A (asm (ndim A) dims (nth t rows []) is).
  Proof.
    intros Hnd Hf [H1 H2] Hne Hrv Hm0 Hmin Hlin. unfold ft_eval_at_indices.
    rewrite Nat.eqb_refl. rewrite Nat.eqb_refl. cbn [negb bind].
    destruct (np_argsort_spec dims) as [Hs Hsort]. pose proof (is_perm_length _ _ Hs) as Ls.
    set (s := np_argsort dims) in *. set (sd := sel 0%nat dims s) in *.
    set (sr := map (fun r => sel 0%nat r s) rows).
    assert (Lsd : length sd = length dims) by (unfold sd; rewrite sel_length; auto).
    rewrite Lsd, Nat.eqb_refl. cbn [negb].
    rewrite (proj2 (Nat.eqb_neq (length dims) (ndim A))) by lia.
    rewrite (proj2 (Nat.eqb_neq (length dims) 1)) by lia.
    assert (Hps : Permutation sd dims) by (apply sel_perm with (n := length dims); auto).
    assert (Hc : compl (ndim A) sd = compl (ndim A) dims).
    { apply compl_ext. intros k. split; apply Permutation_in; auto using Permutation_sym. }
    assert (Hsd : NoDup sd) by (apply (Permutation_NoDup (Permutation_sym Hps)); auto).
    assert (Hsf : Forall (fun k => (k < ndim A)%nat) sd).
    { rewrite Forall_forall in *. intros k Hk. apply Hf. apply (Permutation_in _ Hps); auto. }
    assert (Hsrv : forall r, In r rows -> valid (sel 0%nat (shape A) sd) (sel 0%nat r s)).
    { intros r Hr. rewrite Forall_forall in Hrv. specialize (Hrv r Hr).
      unfold sd. replace (sel 0%nat (shape A) (sel 0%nat dims s)) with (sel 0%nat (sel 0%nat (shape A) dims) s).
      - apply sel_valid; auto. apply Forall_forall. intros k Hk. rewrite sel_length. eapply is_perm_in; eauto.
      - apply sel_sel. apply Forall_forall. intros k Hk. eapply is_perm_in; eauto. }
    assert (E : forallb (validb (sel 0%nat (shape A) sd)) sr = true).
    { apply forallb_forall. intros r Hr. apply in_map_iff in Hr as [r' [<- Hr]]. apply validb_spec; auto. }
    rewrite E. cbn [negb]. rewrite ft_matricize_default, Hc.
    destruct (ft_matricize_spec A sd (compl (ndim A) dims)) as [M [HM [HsM HgM]]].
    { rewrite <- Hc. apply app_compl_perm; auto. }
    rewrite HM. cbn [bind].
    set (no := sel 0%nat (shape A) (compl (ndim A) dims)) in *.
    set (lin := map (sub2indC (sel 0%nat (shape A) sd)) sr).
    destruct (ft_sub_tensor_spec M [Pick lin; All]) as [E1 [HE1 [HsE1 HgE1]]].
    { unfold ndim. rewrite HsM. auto. }
    { unfold ndim. rewrite HsM. intros [|[|j]] Hj; cbn [nth length] in *; try lia; simpl; auto.
      unfold lin, sr. rewrite map_map. apply Forall_forall. intros k Hk. apply in_map_iff in Hk as [r [<- Hr]].
      apply sub2indC_lt; auto. }
    rewrite HE1. cbn [bind]. rewrite HsM in HsE1, HgE1. cbn [combine map fst snd slice_len] in HsE1, HgE1.
    assert (Llin : length lin = length rows) by (unfold lin, sr; rewrite !map_length; auto). rewrite Llin in *.
    assert (Lsr : length sr = length rows) by (unfold sr; rewrite map_length; auto). rewrite Lsr.
    destruct (ft_reshape_spec E1 (length rows :: no)) as [E2 [HE2 [HsE2 HgE2]]].
    { rewrite HsE1. simpl. lia. }
    rewrite HE2. cbn [bind].
    assert (Hleft : nth 0 sd 0%nat = m0).
    { assert (Hi : In (nth 0 sd 0%nat) dims) by (apply (Permutation_in _ Hps); apply nth_In; lia).
      apply Hmin in Hi. assert (Hj : In m0 sd) by (apply (Permutation_in _ (Permutation_sym Hps)); auto).
      apply In_nth with (d := 0%nat) in Hj as [j [Hj He]]. destruct j as [|j]; auto.
      specialize (Hsort 0%nat (S j) ltac:(lia) ltac:(lia)). fold sd in Hsort. lia. }
    rewrite Hleft.
    assert (Hm0n : (m0 < ndim A)%nat) by (rewrite Forall_forall in Hf; auto).
    pose proof (compl_length _ _ Hnd Hf) as Lc.
    assert (Lno : length no = (ndim A - length dims)%nat) by (unfold no; rewrite sel_length; lia).
    assert (Hml : (m0 <= length no)%nat).
    { destruct (seq_min_compl (ndim A) dims m0 Hmin) as [l Hl]; [lia|].
      unfold no. rewrite sel_length, Hl, app_length, seq_length. lia. }
    rewrite <- Lno. fold (head_perm m0 (length no)).
    pose proof (head_perm_is_perm m0 (length no) Hml) as Hhp.
    destruct (ft_transpose_spec E2 (head_perm m0 (length no))) as [B [HB [HsB [HgB _]]]].
    { unfold ndim. rewrite HsE2. auto. }
    exists B. split; [exact HB|]. split.
    - rewrite HsB, HsE2. apply sel_head_perm; auto.
    - intros t is Ht Hv. pose proof (valid_length _ _ Hv) as Li.
      rewrite <- (sel_head_perm m0 t is) by lia. rewrite Li.
      rewrite HgB by (rewrite HsE2; constructor; auto).
      rewrite (HgE2 (t :: is) [t; sub2indF no is]).
      + rewrite HgE1.
        2:{ constructor; auto. constructor; [|constructor]. apply sub2indF_lt; auto. }
        cbn [combine map fst snd slice_idx].
        assert (Hr : In (nth t rows []) rows) by (apply nth_In; auto).
        rewrite Forall_forall in Hlin. pose proof (Hlin _ Hr) as Hl.
        assert (Hn : nth t lin 0%nat = sub2indF (sel 0%nat (shape A) sd) (sel 0%nat (nth t rows []) s)).
        { unfold lin, sr. rewrite map_map. rewrite (map_nth_in _ _ _ []) by auto. exact Hl. }
        rewrite Hn.
        assert (Lr : length (nth t rows []) = length dims).
        { rewrite Forall_forall in Hrv. rewrite (valid_length _ _ (Hrv _ Hr)), sel_length. auto. }
        set (full := asm (ndim A) dims (nth t rows []) is).
        assert (Lis : length is = length (compl (ndim A) dims)) by (rewrite Li; unfold no; rewrite sel_length; auto).
        assert (Hfv : valid (shape A) full).
        { unfold full, ndim. apply valid_asm; auto. rewrite Forall_forall in Hrv; auto. }
        rewrite <- (HgM full Hfv).
        replace (sel 0%nat full sd) with (sel 0%nat (nth t rows []) s).
        2:{ unfold full. rewrite <- (asm_perm (ndim A) dims (nth t rows []) is s) by auto. fold sd.
            symmetry. apply sel_asm; auto. rewrite sel_length; lia. }
        replace (sel 0%nat full (compl (ndim A) dims)) with is; [auto|].
        unfold full. rewrite sel_asm_compl; auto.
      + constructor; auto.
      + rewrite HsE1. constructor; auto. constructor; [|constructor]. apply sub2indF_lt; auto.
      + rewrite HsE1. simpl. lia.
  Qed.

  (** * eval_diag *)
  Lemma sub2ind_const n k i : sub2indC (repeat n k) (repeat i k) = sub2indF (repeat n k) (repeat i k).
  Proof.
    unfold sub2indC. assert (E : forall (x : nat) j, rev (repeat x j) = repeat x j).
    { intros x j. induction j as [|j IH]; auto. simpl. rewrite IH. clear IH. induction j; simpl; auto. f_equal; auto. }
    rewrite !E. auto.
  Qed.
  Lemma sel_const (l : list nat) n ks : (forall k, In k ks -> nth k l 0%nat = n) -> sel 0%nat l ks = repeat n (length ks).
  Proof. induction ks as [|k ks IH]; simpl; intros H; auto. rewrite H, IH; auto. Qed.
  Lemma sel_repeat (i : nat) k ks : Forall (fun x => (x < k)%nat) ks -> sel 0%nat (repeat i k) ks = repeat i (length ks).
  Proof.
    intros H. apply sel_const. rewrite Forall_forall in H. intros x Hx. apply H in Hx.
    rewrite (nth_indep _ 0%nat i) by (rewrite repeat_length; auto). apply nth_repeat.
  Qed.
  Lemma valid_repeat n k i : (i < n)%nat -> valid (repeat n k) (repeat i k).
  Proof. intros H. induction k; simpl; constructor; auto. Qed.

  Lemma ft_eval_diag_all A n : (0 < ndim A)%nat -> shape A = repeat n (ndim A) ->
    returns (ft_eval_diag A None) [n] (fun is => get A (repeat (nth 0 is 0%nat) (ndim A))).
  Proof.
    intros Hp Hs. unfold ft_eval_diag. rewrite seq_length. set (N := ndim A) in *.
    destruct (Nat.eqb_spec N 1) as [E|E].
    { exists A. split; auto. split; [rewrite Hs, E; auto|]. rewrite E.
      intros is Hv. inversion Hv as [|i ? ? ? Hi Hn]; subst. inversion Hn; subst. auto. }
    destruct N as [|N'] eqn:EN; [lia|]. rewrite <- EN in *. assert (Hn0 : seq 0 N = 0%nat :: seq 1 N') by (rewrite EN; auto).
    rewrite Hn0. rewrite <- Hn0.
    assert (Hall : forall x, In x (seq 0 N) -> nth x (shape A) 0%nat = n).
    { intros x Hx. apply in_seq in Hx. rewrite Hs. rewrite (nth_indep _ 0%nat n) by (rewrite repeat_length; lia). apply nth_repeat. }
    assert (Hz : nth 0 (shape A) 0%nat = n) by (apply Hall, in_seq; lia). rewrite Hz.
    assert (E1 : forallb (fun x => nth x (shape A) 0%nat =? n) (seq 0 N) = true).
    { apply forallb_forall. intros x Hx. apply Nat.eqb_eq; auto. }
    rewrite E1.
    assert (Hperm : is_perm (ndim A) (seq 0 N)) by (fold N; unfold is_perm; auto).
    destruct (ft_eval_all_some A (seq 0 N) (map (fun i => repeat i N) (seq 0 n)) Hperm) as [B [HB [HsB HgB]]].
    { apply Forall_forall. intros r Hr. apply in_map_iff in Hr as [i [<- Hi]]. apply in_seq in Hi.
      rewrite (sel_const _ n) by auto. rewrite seq_length. apply valid_repeat; lia. }
    exists B. split; [exact HB|]. rewrite map_length, seq_length in *. split; auto.
    intros is Hv. rewrite HgB by auto. apply (valid_nth _ _ 0%nat) in Hv; [|simpl; lia]. cbn [nth] in Hv.
    rewrite nth_map_seq by auto. f_equal. fold N. rewrite asm_all; auto. apply repeat_length.
  Qed.

  Lemma ft_eval_diag_sub A n dims m0 : NoDup dims -> Forall (fun k => (k < ndim A)%nat) dims ->
    (1 < length dims < ndim A)%nat -> (0 < n)%nat -> (forall k, In k dims -> nth k (shape A) 0%nat = n) ->
    In m0 dims -> (forall k, In k dims -> (m0 <= k)%nat) ->
    exists B, ft_eval_diag A (Some dims) = Some B /\
      shape B = ins m0 n (sel 0%nat (shape A) (compl (ndim A) dims)) /\
      forall i is, (i < n)%nat -> valid (sel 0%nat (shape A) (compl (ndim A) dims)) is ->
        get B (ins m0 i is) = get A (asm (ndim A) dims (repeat i (length dims)) is).
  Proof.
    intros Hnd Hf [H1 H2] Hn Hsz Hm0 Hmin. unfold ft_eval_diag.
    rewrite (proj2 (Nat.eqb_neq (length dims) 1)) by lia.
    assert (Hd : forall X Y : option (nd R), match dims with [] => X | _ => Y end = Y) by (destruct dims; simpl in *; auto; lia).
    assert (E1 : forall d0, In d0 dims -> forallb (fun x => nth x (shape A) 0%nat =? nth d0 (shape A) 0%nat) dims = true).
    { intros d0 H0. apply forallb_forall. intros x Hx. apply Nat.eqb_eq. rewrite !Hsz; auto. }
    destruct (np_argsort_spec dims) as [Hs _]. pose proof (is_perm_length _ _ Hs) as Ls.
    assert (Hps : Permutation (sel 0%nat dims (np_argsort dims)) dims) by (apply sel_perm with (n := length dims); auto).
    destruct (ft_eval_sub A dims (map (fun i => repeat i (length dims)) (seq 0 n)) m0) as [B [HB [HsB HgB]]]; auto.
    { destruct n; [lia|discriminate]. }
    { apply Forall_forall. intros r Hr. apply in_map_iff in Hr as [i [<- Hi]]. apply in_seq in Hi.
      rewrite (sel_const _ n) by auto. apply valid_repeat; lia. }
    { apply Forall_forall. intros r Hr. apply in_map_iff in Hr as [i [<- Hi]].
      rewrite sel_repeat, Ls.
      - rewrite (sel_const (shape A) n).
        + rewrite sel_length, Ls. apply sub2ind_const.
        + intros k Hk. apply Hsz. apply (Permutation_in _ Hps); auto.
      - apply Forall_forall. intros k Hk. eapply is_perm_in; eauto. }
    rewrite map_length, seq_length in *. exists B. split; [|split; auto].
    - destruct dims as [|d0 dims']; [simpl in *; lia|]. rewrite E1 by (simpl; auto). rewrite (Hsz d0) by (simpl; auto). exact HB.
    - intros i is Hi Hv. rewrite HgB by auto. rewrite nth_map_seq by auto. auto.
  Qed.
  (** sizes that differ along the diagonal are refused *)
  Lemma ft_eval_diag_mismatch A d0 d1 dims : In d1 dims -> nth d1 (shape A) 0%nat <> nth d0 (shape A) 0%nat ->
    ft_eval_diag A (Some (d0 :: dims)) = None.
  Proof.
    intros Hi Hne. unfold ft_eval_diag. destruct dims as [|d dims]; [destruct Hi|].
    cbn [length Nat.eqb]. destruct (forallb _ (d0 :: d :: dims)) eqn:E; auto. rewrite forallb_forall in E.
    exfalso. apply Hne. apply Nat.eqb_eq. apply E. simpl in *. tauto.
  Qed.

  (** * sums *)
  Lemma ft_reduce_sum_spec A dims : NoDup dims -> Forall (fun k => (k < ndim A)%nat) dims ->
    returns (ft_reduce_sum A (Some dims)) (put dims (repeat 1%nat (length dims)) (shape A))
      (fun is => bsum (sel 0%nat (shape A) dims) (fun js => get A (put dims js is))).
  Proof.
    intros Hn Hf. unfold ft_reduce_sum, np_sum_keep. rewrite (proj2 (forallb_ltb _ _)), (proj2 (nodupb_spec _)) by auto.
    eexists; split; [reflexivity|].
    assert (E : map (fun k => if inb k dims then 1%nat else nth k (shape A) 0%nat) (seq 0 (ndim A)) = put dims (repeat 1%nat (length dims)) (shape A)).
    { apply nth_ext' with (d := 0%nat); [rewrite map_length, seq_length, put_length; auto|].
      intros k Hk. rewrite map_length, seq_length in Hk. rewrite nth_map_seq by auto. simpl.
      destruct (inb k dims) eqn:Ei.
      - apply inb_spec in Ei. apply index_of_nth in Ei as [Hi He]. rewrite <- He.
        rewrite put_nth_in; auto; [|rewrite repeat_length; auto|rewrite He; auto].
        rewrite (nth_indep _ 0%nat 1%nat) by (rewrite repeat_length; auto). rewrite nth_repeat; auto.
      - apply inb_false in Ei. rewrite put_nth_out; auto. }
    split; cbn [shape get]; [exact E|]. intros is Hv. apply bsum_ext. intros js Hj. f_equal.
    apply put_asm; auto.
    - rewrite (valid_length _ _ Hv), put_length. auto.
    - rewrite (valid_length _ _ Hj), sel_length. auto.
  Qed.

  (** * diagonal matrices *)
  Lemma ft_tdmp_spec A vs dims :
    NoDup dims -> Forall (fun k => (k < ndim A)%nat) dims -> length vs = length dims ->
    (forall k, (k < length dims)%nat -> shape (nth k vs (scalar r0)) = [nth (nth k dims 0%nat) (shape A) 0%nat]) ->
    returns (ft_tensor_diagonal_matrix_product A vs (Some dims)) (shape A)
      (fun is => get A is * vfactors_at vs dims is).
  Proof.
    intros Hn Hf HL HM. unfold ft_tensor_diagonal_matrix_product. rewrite HL, Nat.eqb_refl. cbn [negb].
    set (D := fun v : nd R => np_diag (ND [np_size v] (fun is => get v (ind2subC (shape v) (nth 0 is 0%nat))))).
    assert (Hnth : forall k, (k < length dims)%nat -> nth k (map D vs) (scalar r0) = D (nth k vs (scalar r0))).
    { intros k Hk. apply map_nth_in. lia. }
    destruct (ft_tensor_matrix_product_spec A (map D vs) dims Hn Hf) as [T [HT [HsT HgT]]].
    { rewrite map_length; auto. }
    { intros k Hk. rewrite Hnth by auto. exists (np_size (nth k vs (scalar r0))). simpl. unfold np_size. rewrite HM by auto. simpl. rewrite Nat.mul_1_r. auto. }
    exists T. split; [exact HT|].
    assert (Es : put dims (map (fun M : nd R => nth 0 (shape M) 0%nat) (map D vs)) (shape A) = shape A).
    { replace (map (fun M : nd R => nth 0 (shape M) 0%nat) (map D vs)) with (sel 0%nat (shape A) dims); [apply put_sel; auto|].
      apply nth_ext' with (d := 0%nat); [rewrite sel_length, !map_length; auto|].
      intros k Hk. rewrite sel_length in Hk. rewrite sel_nth by auto. rewrite map_map, (map_nth_in _ _ _ (scalar r0)) by lia.
      simpl. unfold np_size. rewrite HM by auto. simpl. lia. }
    split; [congruence|]. intros is Hv. rewrite HgT by (rewrite Es; auto). rewrite Es in *.
    pose proof (valid_length _ _ Hv) as Li.
    assert (Hfi : Forall (fun k => (k < length is)%nat) dims) by (rewrite Li; auto).
    assert (Hvs : valid (sel 0%nat (shape A) dims) (sel 0%nat is dims)) by (apply sel_valid; auto).
    rewrite (bsum_single _ (sel 0%nat is dims)); auto.
    - rewrite put_sel by auto. f_equal. unfold vfactors_at.
      assert (Hl2 : length (sel 0%nat is dims) = length vs) by (rewrite sel_length; auto).
      assert (HM' : forall k, (k < length vs)%nat -> shape (nth k vs (scalar r0)) = [nth k (sel 0%nat (shape A) dims) 0%nat]).
      { intros k Hk. rewrite sel_nth by lia. apply HM. lia. }
      clear - Hvs Hl2 HM'. revert Hvs HM'. generalize (sel 0%nat (shape A) dims) as s. revert Hl2. generalize (sel 0%nat is dims) as x.
      clear. induction vs as [|v vs IH]; intros [|i x] Hl s Hv HM; simpl in *; try lia; auto.
      inversion Hv as [|? n ? s' Hi Hv']; subst. rewrite Nat.eqb_refl. f_equal.
      + pose proof (HM 0%nat ltac:(lia)) as H0. simpl in H0. rewrite H0. unfold ind2subC. cbn [rev app ind2subF].
        cbn [app rev]. rewrite Nat.mod_small by auto. auto.
      + apply IH with (s := s'); auto. intros k Hk. apply (HM (S k)). lia.
    - intros js Hj Hne.
      assert (Hz : factors (map D vs) (sel 0%nat is dims) js = r0).
      { assert (Hl2 : length (sel 0%nat is dims) = length vs) by (rewrite sel_length; auto).
        assert (Hl3 : length js = length vs) by (rewrite (Forall2_length' _ _ _ Hj), sel_length; auto).
        clear - Hne Hl2 Hl3. revert js Hne Hl2 Hl3. generalize (sel 0%nat is dims) as x. clear. induction vs as [|v vs IH]; intros x js Hne Hx Hj.
        - destruct x, js; simpl in *; try lia. congruence.
        - destruct x as [|i x], js as [|j js]; simpl in *; try lia.
          destruct (Nat.eqb_spec i j) as [->|]; [|ring]. rewrite (IH x js); [ring| |lia|lia]. congruence. }
      rewrite Hz. ring.
  Qed.

  (** * orth *)
  Lemma ft_orth_spec (qr : nd R -> nd R * nd R) A dim : qr_contract qr -> (dim < ndim A)%nat ->
    exists Q Rm k, ft_orth qr A dim = Some (Q, Rm) /\ k = Nat.min (prodn (sel 0%nat (shape A) (compl (ndim A) [dim]))) (nth dim (shape A) 0%nat) /\ shape Q = upd dim k (shape A) /\ shape Rm = [k; nth dim (shape A) 0%nat] /\
      (forall is, valid (shape A) is -> get A is = rsum k (fun c => get Q (upd dim c is) * get Rm [c; nth dim is 0%nat])) /\
      (forall a b, (a < k)%nat -> (b < k)%nat ->
         bsum (sel 0%nat (shape A) (compl (ndim A) [dim]))
           (fun is => get Q (ins dim a is) * get Q (ins dim b is)) = if a =? b then r1 else r0).
  Proof.
    intros Hqr Hd. unfold ft_orth.
    set (N := ndim A) in *. set (n := nth dim (shape A) 0%nat) in *.
    set (no := sel 0%nat (shape A) (compl N [dim])) in *.
    assert (Hdims : seq 0 dim ++ seq (dim + 1) (N - dim - 1) ++ [dim] = compl N [dim] ++ [dim]).
    { rewrite compl_single by auto. rewrite <- app_assoc. replace (dim + 1)%nat with (S dim) by lia. replace (N - dim - 1)%nat with (N - S dim)%nat by lia. auto. }
    rewrite Hdims. set (p := compl N [dim] ++ [dim]).
    assert (Hp : is_perm N p) by (apply compl_app_perm; [apply NoDup_single|apply Forall_lt_single; auto]).
    pose proof (compl_length N [dim] (NoDup_single dim) (Forall_lt_single _ _ Hd)) as Lc. simpl in Lc.
    assert (Hsel : forall l : list nat, sel 0%nat l p = sel 0%nat l (compl N [dim]) ++ [nth dim l 0%nat]) by (intros; unfold p, sel; rewrite map_app; auto).
    destruct (ft_transpose_spec A p Hp) as [T [HT [HsT [HgT _]]]]. rewrite HT. cbn [bind].
    rewrite Hsel in HsT. fold no n in HsT. rewrite HsT, removelast_last, last_last.
    destruct (ft_reshape_spec T [prodn no; n]) as [M [HM [HsM HgM]]].
    { rewrite HsT, prodn_app. simpl. lia. }
    rewrite HM. cbn [bind]. destruct (Hqr M _ _ HsM) as [k [Hk [HsQ [HsR [Hprod Horth]]]]].
    destruct (qr M) as [Q0 Rm]. cbn [fst snd] in *. rewrite HsR. cbn [nth].
    destruct (ft_reshape_spec Q0 (no ++ [k])) as [Q1 [HQ1 [HsQ1 HgQ1]]].
    { rewrite HsQ, prodn_app. simpl. lia. }
    rewrite HQ1. cbn [bind].
    assert (Hsh : sel 0%nat (upd dim k (shape A)) p = no ++ [k]).
    { rewrite Hsel. f_equal.
      - unfold no, sel. apply map_ext_in. intros j Hj. apply in_compl in Hj. rewrite nth_upd_neq; auto. intros ->. apply (proj2 Hj). simpl; auto.
      - rewrite nth_upd_eq; auto. }
    assert (HndQ : ndim Q1 = N).
    { unfold ndim. rewrite HsQ1, app_length. unfold no. rewrite sel_length. simpl. lia. }
    rewrite ft_itranspose_eq by (rewrite HndQ; auto). cbn [bind].
    assert (Hno : forall is, valid (shape A) is -> valid no (sel 0%nat is (compl N [dim]))).
    { intros is Hv. apply sel_valid; auto. apply compl_lt. }
    assert (HQval : forall is c, valid no is -> (c < k)%nat -> get Q1 (is ++ [c]) = get Q0 [sub2indF no is; c]).
    { intros is c Hv Hc. apply HgQ1.
      - apply valid_app; auto. constructor; auto.
      - rewrite HsQ. constructor; [apply sub2indF_lt; auto|constructor; auto].
      - rewrite HsQ. rewrite sub2indF_app by auto. simpl. lia. }
    do 3 eexists. split; [reflexivity|]. cbn [shape get].
    split; [exact Hk|]. split; [|split; [exact HsR|split]].
    - rewrite HsQ1. rewrite <- Hsh. apply sel_inv_perm with (n := N); auto. apply upd_length.
    - intros is Hv. pose proof (valid_length _ _ Hv) as L. rewrite <- HgT by auto. rewrite Hsel.
      assert (Hdi : (nth dim is 0 < n)%nat) by (apply valid_nth; auto).
      pose proof (Hno is Hv) as Hvn.
      assert (Hlt : (sub2indF no (sel 0%nat is (compl N [dim])) < prodn no)%nat) by (apply sub2indF_lt; auto).
      rewrite <- (HgM [sub2indF no (sel 0%nat is (compl N [dim])); nth dim is 0%nat]).
      + rewrite Hprod by auto. apply rsum_ext. intros c Hc. f_equal.
        rewrite <- HQval by auto. f_equal. fold (sel 0%nat (upd dim c is) p). rewrite Hsel. f_equal.
        * unfold sel. apply map_ext_in. intros j Hj. apply in_compl in Hj. rewrite nth_upd_neq; auto. intros ->. apply (proj2 Hj). simpl; auto.
        * rewrite nth_upd_eq; auto. rewrite L. exact Hd.
      + repeat constructor; auto.
      + rewrite HsT. apply valid_app; auto. constructor; auto.
      + rewrite HsT, sub2indF_app by auto. simpl. lia.
    - intros a b Ha Hb. rewrite <- (Horth a b Ha Hb). rewrite <- bsum_linear'.
      apply bsum_ext. intros is Hv. fold (valid no is) in Hv.
      assert (Li : length is = (N - 1)%nat).
      { rewrite (valid_length _ _ Hv). unfold no. rewrite sel_length. lia. }
      assert (Hins : forall c, sel 0%nat (ins dim c is) p = is ++ [c]).
      { intros c. rewrite Hsel. unfold ins. rewrite <- (asm_ins N) by (auto; lia). rewrite sel_asm_compl by lia.
        f_equal. f_equal. rewrite asm_ins by (auto; lia). rewrite app_nth2; rewrite firstn_length; [|lia].
        replace (dim - Nat.min dim (length is))%nat with 0%nat by lia. auto. }
      fold (sel 0%nat (ins dim a is) p) (sel 0%nat (ins dim b is) p). rewrite !Hins, !HQval by auto. auto.
  Qed.

  (** * tensordot *)
  Lemma ft_tensordot_spec A B d1 d2 : NoDup d1 -> NoDup d2 ->
    Forall (fun k => (k < ndim A)%nat) d1 -> Forall (fun k => (k < ndim B)%nat) d2 ->
    sel 0%nat (shape A) d1 = sel 0%nat (shape B) d2 ->
    exists C, ft_tensordot A B d1 d2 = Some C /\
      shape C = sel 0%nat (shape A) (compl (ndim A) d1) ++ sel 0%nat (shape B) (compl (ndim B) d2) /\
      forall is js, valid (sel 0%nat (shape A) (compl (ndim A) d1)) is -> valid (sel 0%nat (shape B) (compl (ndim B) d2)) js ->
        get C (is ++ js) = bsum (sel 0%nat (shape A) d1)
                 (fun ks => get A (asm (ndim A) d1 ks is) * get B (asm (ndim B) d2 ks js)).
  Proof.
    intros. rewrite np_tensordot_ok by auto. eexists; split; [reflexivity|]. split; auto.
    intros is js Hi Hj. cbn [get]. pose proof (valid_length _ _ Hi) as Li. rewrite sel_length in Li.
    rewrite <- Li. rewrite firstn_app, Nat.sub_diag, firstn_all, firstn_O, app_nil_r.
    rewrite skipn_app, Nat.sub_diag, skipn_all, skipn_O. auto.
  Qed.
End FT3.
