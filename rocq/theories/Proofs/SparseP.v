(** Proofs about SparseTensor. *)
From Coq Require Import List Arith Lia Bool ZArith Permutation.
From Verif.Base Require Import ListAux CRing Index.
From Verif.Model Require Import Sorting MultiIndices Numpy FullTensor Diagonal Sparse.
From Verif.Spec Require Import TensorSpec.
From Verif.Proofs Require Import SortingP MultiIndicesP NumpyP FullTensorP FullTensorP2 FullTensorP3 DiagonalP.
Import ListNotations.

Lemma zrow_inj a b : zrow a = zrow b -> a = b.
Proof. revert b; induction a as [|x a IH]; intros [|y b] H; simpl in *; try discriminate; auto. inversion H. f_equal; [lia|auto]. Qed.
Lemma nrow_zrow a : nrow (zrow a) = a.
Proof. unfold nrow, zrow. rewrite map_map. rewrite <- (map_id a) at 2. apply map_ext. intros; lia. Qed.
Lemma zrow_length a : length (zrow a) = length a. Proof. apply map_length. Qed.
Lemma nth_zrow k a : nth k (zrow a) 0%Z = Z.of_nat (nth k a 0).
Proof. unfold zrow. change 0%Z with (Z.of_nat 0). apply map_nth. Qed.
Lemma sel_zrow a ks : sel 0%Z (zrow a) ks = zrow (sel 0 a ks).
Proof. unfold sel. unfold zrow at 2. rewrite map_map. apply map_ext. intros k. apply nth_zrow. Qed.
Lemma zrow_in_shape s is : valid s is -> row_in_shape s (zrow is) = true.
Proof.
  intros H. unfold row_in_shape. rewrite zrow_length, (valid_length _ _ H), Nat.eqb_refl. simpl.
  induction H; simpl; auto. rewrite IHForall2, andb_true_r. apply andb_true_iff. split; [apply Z.leb_le; lia|apply Z.ltb_lt; lia].
Qed.

Section Sp.
  Context {R : Type} {CR : CRing R} {ZT : ZeroTest R}.
  Add Ring Rr : rth.
  Local Open Scope cr_scope.

  Definition eqr (a b : list Z) : bool := if list_eq_dec Z.eq_dec a b then true else false.
  Lemma eqr_spec a b : eqr a b = true <-> a = b.
  Proof. unfold eqr. destruct (list_eq_dec Z.eq_dec a b); split; intros; auto; try discriminate; contradiction. Qed.
  Lemma eqr_refl a : eqr a a = true. Proof. apply eqr_spec; auto. Qed.
  Lemma eqr_row a b : row_eqb a b = eqr a b.
  Proof. apply eq_true_iff_eq. rewrite row_eqb_spec, eqr_spec. tauto. Qed.
  Lemma eqr_sym a b : eqr a b = eqr b a.
  Proof. apply eq_true_iff_eq. rewrite !eqr_spec. split; auto. Qed.
  Lemma eqr_neq a b : a <> b -> eqr a b = false.
  Proof. intros H. destruct (eqr a b) eqn:E; auto. apply eqr_spec in E. contradiction. Qed.
  Definition rv (rows : list row) (data : list R) (r : row) : R :=
    rsum (length rows) (fun j => if eqr (nth j rows []) r then nth j data r0 else r0).
  Lemma sp_val_rv rows data is : sp_val rows data is = rv rows data (zrow is).
  Proof. unfold sp_val, rv, eqr, zrow. apply rsum_ext. intros j Hj. destruct (list_eq_dec Z.eq_dec (nth j rows []) (map Z.of_nat is)); auto. Qed.
  Lemma rv_lsum rows data r : length data = length rows ->
    rv rows data r = lsum (combine rows data) (fun p => if eqr (fst p) r then snd p else r0).
  Proof.
    intros L. rewrite <- (map_seq_nth ([], r0) (combine rows data)), lsum_map, combine_length, L, Nat.min_id, lsum_seq.
    apply rsum_ext. intros j Hj. rewrite combine_nth by auto. auto.
  Qed.
  Lemma rv_cons a rows d data r : length data = length rows ->
    rv (a :: rows) (d :: data) r = (if eqr a r then d else r0) + rv rows data r.
  Proof. intros L. rewrite !rv_lsum by (simpl; lia). reflexivity. Qed.
  Lemma rv_in rows data j : NoDup rows -> (j < length rows)%nat -> rv rows data (nth j rows []) = nth j data r0.
  Proof.
    intros Hn Hj. unfold rv. rewrite (rsum_single _ j); auto; [rewrite eqr_refl; auto|].
    intros i Hi Hne. rewrite eqr_neq; auto. intros E. apply Hne. apply (proj1 (NoDup_nth rows []) Hn); auto.
  Qed.
  Lemma rv_out rows data r : ~ In r rows -> rv rows data r = r0.
  Proof. intros H. unfold rv. apply rsum_zero. intros j Hj. rewrite eqr_neq; auto. intros <-. apply H, nth_In; auto. Qed.
  Lemma rv_map {A} (f : A -> row) (g : A -> R) l r : rv (map f l) (map g l) r = lsum l (fun a => if eqr (f a) r then g a else r0).
  Proof.
    rewrite rv_lsum by (rewrite !map_length; auto). induction l; simpl; auto. rewrite IHl. auto.
  Qed.
  Lemma row_dec (r : row) l : {In r l} + {~ In r l}. Proof. apply in_dec, list_eq_dec, Z.eq_dec. Qed.

  Definition okv (x : sp R) : Prop := sp_ok (sp_rows x) (sp_data x) (sp_shape x).

  (** * full *)
  Lemma set_fold (rows : list row) : forall (data : list R) D, length data = length rows -> NoDup rows ->
    Forall (fun r => exists is, r = zrow is) rows ->
    let D' := fold_left (fun D p => np_set D (nrow (fst p)) (snd p)) (combine rows data) D in
    shape D' = shape D /\ forall is, get D' is = if row_dec (zrow is) rows then rv rows data (zrow is) else get D is.
  Proof.
    induction rows as [|r rows IH]; intros [|d data] D L Hn Hf; try discriminate.
    - simpl. split; auto. intros is. destruct (row_dec (zrow is) []) as [[]|]; auto.
    - inversion Hn; subst. inversion Hf as [|? ? [js ->] Hf']; subst. simpl.
      destruct (IH data (np_set D (nrow (zrow js)) d)) as [Hs Hg]; auto. split; [rewrite Hs; auto|].
      intros is. rewrite Hg. rewrite rv_cons by (simpl in L; lia).
      destruct (row_dec (zrow is) rows) as [Hi|Hi].
      + rewrite eqr_neq; [|intros E; rewrite E in H1; contradiction].
        destruct (row_dec (zrow is) (zrow js :: rows)) as [_|Hc]; [ring|exfalso; apply Hc; simpl; auto].
      + simpl. rewrite nrow_zrow. destruct (list_eqb is js) eqn:E.
        * apply list_eqb_spec in E. subst js. rewrite eqr_refl.
          destruct (row_dec (zrow is) (zrow is :: rows)) as [_|Hc]; [|exfalso; apply Hc; simpl; auto].
          rewrite (rv_out rows data) by auto. ring.
        * destruct (row_dec (zrow is) (zrow js :: rows)) as [[Hc|Hc]|Hc]; auto; [|contradiction].
          apply zrow_inj in Hc. subst. rewrite list_eqb_refl in E. discriminate.
  Qed.
  Lemma rows_in_shape (x : sp R) : okv x -> forallb (row_in_shape (sp_shape x)) (sp_rows x) = true.
  Proof.
    intros [_ [_ H]]. apply forallb_forall. rewrite Forall_forall in H. intros r Hr. destruct (H r Hr) as [is [Hv ->]].
    apply zrow_in_shape; auto.
  Qed.
  Lemma rows_zrow (x : sp R) : okv x -> Forall (fun r => exists is, r = zrow is) (sp_rows x).
  Proof. intros [_ [_ H]]. eapply Forall_impl; [|exact H]. intros r [is [_ ->]]. exists is. auto. Qed.
  Theorem sp_full_spec (x : sp R) : okv x -> returns (sp_full x) (sp_shape x) (sp_val (sp_rows x) (sp_data x)).
  Proof.
    intros H. unfold sp_full. rewrite rows_in_shape by auto. pose proof H as [L [Hn _]]. rewrite L, Nat.eqb_refl. cbn [andb].
    destruct (set_fold (sp_rows x) (sp_data x) (np_zeros (sp_shape x)) L Hn (rows_zrow x H)) as [Hs Hg].
    eexists; split; [reflexivity|]. split; [exact Hs|]. intros is Hv. rewrite Hg, sp_val_rv.
    destruct (row_dec (zrow is) (sp_rows x)); auto. rewrite rv_out; auto.
  Qed.

  (** * conversions *)
  Lemma isz_false a : isz a = false <-> a <> r0.
  Proof. rewrite <- isz_ok. destruct (isz a); split; intros; congruence. Qed.
  Theorem ft_sparse_spec (A : nd R) :
    exists x, ft_sparse A = Some x /\ okv x /\ sp_shape x = shape A /\
      (forall is, valid (shape A) is -> sp_val (sp_rows x) (sp_data x) is = get A is) /\
      (forall is, valid (shape A) is -> (In (zrow is) (sp_rows x) <-> get A is <> r0)) /\
      sp_zd x = (length (sp_rows x) =? 1).
  Proof.
    unfold ft_sparse. set (s := shape A). set (l := filter _ _).
    assert (Hl : forall k, In k l -> (k < prodn s)%nat /\ get A (ind2subF s k) <> r0).
    { intros k Hk. apply filter_In in Hk as [Hk Hz]. apply in_seq in Hk. unfold np_size in Hk. fold s in Hk. split; [lia|].
      apply isz_false. apply negb_true_iff. auto. }
    unfold ind2sub.
    assert (E : forallb (fun k => k <? prodn s) l = true).
    { apply forallb_forall. intros k Hk. apply Nat.ltb_lt. apply Hl; auto. }
    rewrite E. cbn [bind]. unfold sp_make. cbn [mi_rows]. rewrite !map_length, Nat.eqb_refl. eexists; split; [reflexivity|].
    unfold okv, sp_ok, sp_rows. cbn [sp_ind sp_data sp_shape mi_rows sp_zd]. rewrite !map_length. split; [split; [|split]|split; [|split; [|split]]]; auto.
    - apply NoDup_map_inj; [|apply NoDup_filter', seq_NoDup]. intros a b Ha Hb He. apply zrow_inj in He.
      rewrite <- (sub2indF_ind2subF s a), <- (sub2indF_ind2subF s b), He; auto; apply Hl; auto.
    - apply Forall_forall. intros r Hr. apply in_map_iff in Hr as [k [<- Hk]]. exists (ind2subF s k). split; auto. apply ind2subF_valid, Hl; auto.
    - intros is Hv. rewrite sp_val_rv, rv_map. unfold l. rewrite lsum_filter. unfold np_size. fold s. rewrite lsum_seq.
      rewrite (rsum_single _ (sub2indF s is)); [|apply sub2indF_lt; auto|].
      + rewrite ind2subF_sub2indF by auto. unfold zrow at 1. rewrite eqr_refl. destruct (isz (get A is)) eqn:Ez; auto.
        apply isz_ok in Ez. auto.
      + intros k Hk Hne. destruct (negb _); auto. rewrite eqr_neq; auto. intros He. apply zrow_inj in He. apply Hne.
        rewrite <- He, sub2indF_ind2subF; auto.
    - intros is Hv. rewrite in_map_iff. split.
      + intros [k [He Hk]]. apply zrow_inj in He. subst is. apply Hl; auto.
      + intros Hne. exists (sub2indF s is). rewrite ind2subF_sub2indF by auto. split; auto. apply filter_In. split.
        * apply in_seq. split; [lia|]. unfold np_size. fold s. apply sub2indF_lt; auto.
        * rewrite ind2subF_sub2indF by auto. apply negb_true_iff, isz_false. auto.
  Qed.
  Lemma filter_nth_seq (P : R -> bool) (l : list R) : filter P l = map (fun k => nth k l r0) (filter (fun k => P (nth k l r0)) (seq 0 (length l))).
  Proof.
    induction l as [|a l IH]; simpl; auto.
    rewrite <- seq_shift. 
    assert (E : forall m, filter (fun k => P (nth k (a :: l) r0)) (map S m) = map S (filter (fun k => P (nth k l r0)) m)).
    { induction m as [|k m IHm]; simpl; auto. simpl in IHm. rewrite IHm. destruct (P (nth k l r0)); simpl; auto. }
    destruct (P a) eqn:Ea; simpl; rewrite E, map_map, IH; auto.
  Qed.
  Theorem dt_sparse_spec (v : list R) order : (0 < order)%nat ->
    exists x, dt_sparse (dt_make v order) = Some x /\ okv x /\ sp_shape x = repeat (length v) order /\
      (forall is, valid (sp_shape x) is -> sp_val (sp_rows x) (sp_data x) is = diag_val v is) /\
      sp_zd x = (length (sp_rows x) =? 1).
  Proof.
    intros Ho. unfold dt_sparse. cbn [dt_make dt_data dt_order dt_shape].
    rewrite (filter_nth_seq (fun a => negb (isz a))). set (l := filter _ _).
    assert (Hl : forall k, In k l -> (k < length v)%nat).
    { intros k Hk. apply filter_In in Hk as [Hk Hz]. apply in_seq in Hk. lia. }
    unfold sp_make. cbn [mi_rows]. rewrite !map_length, Nat.eqb_refl. eexists; split; [reflexivity|].
    unfold okv, sp_ok, sp_rows. cbn [sp_ind sp_data sp_shape mi_rows sp_zd]. rewrite !map_length.
    assert (Hz : forall k, repeat (Z.of_nat k) order = zrow (repeat k order)) by (intros k; unfold zrow; rewrite map_repeat; auto).
    split; [split; [|split]|split; [|split]]; auto.
    - apply NoDup_map_inj; [|apply NoDup_filter', seq_NoDup]. intros a b Ha Hb He. destruct order; [lia|]. simpl in He. inversion He. lia.
    - apply Forall_forall. intros r Hr. apply in_map_iff in Hr as [k [<- Hk]]. exists (repeat k order). split; [|apply Hz].
      apply valid_repeat. apply Hl; auto.
    - intros is Hv. rewrite sp_val_rv, rv_map. unfold l. rewrite lsum_filter, lsum_seq. rewrite (diag_val_sum v (length v) order) by auto.
      apply rsum_ext. intros k Hk. rewrite Hz. destruct (list_eqb is (repeat k order)) eqn:E.
      + apply list_eqb_spec in E. subst is. rewrite eqr_refl. destruct (isz (nth k v r0)) eqn:Ez; auto. apply isz_ok in Ez; auto.
      + rewrite eqr_neq; [destruct (negb _); auto|]. intros He. apply zrow_inj in He. subst. rewrite list_eqb_refl in E. discriminate.
  Qed.

  (** * addition *)
  Lemma pos_of_spec r l : In r l -> (pos_of r l < length l)%nat /\ nth (pos_of r l) l [] = r.
  Proof.
    induction l as [|s l IH]; intros H; [contradiction|]. simpl. destruct (row_eqb r s) eqn:E.
    - apply row_eqb_spec in E. subst. split; auto. lia.
    - destruct H as [->|H]; [rewrite (proj2 (row_eqb_spec r r)) in E by auto; discriminate|]. destruct (IH H). split; auto. lia.
  Qed.
  Lemma filter_pos (U : list row) r : NoDup U -> In r U ->
    filter (fun i => row_eqb (nth i U []) r) (seq 0 (length U)) = [pos_of r U].
  Proof.
    intros Hn Hr. destruct (pos_of_spec r U Hr) as [Hp He].
    assert (E : forall i, In i (seq 0 (length U)) -> row_eqb (nth i U []) r = (i =? pos_of r U)).
    { intros i Hi. apply in_seq in Hi. apply eq_true_iff_eq. rewrite row_eqb_spec, Nat.eqb_eq. split; intros H.
      - apply (proj1 (NoDup_nth U []) Hn); auto; try lia. congruence.
      - subst; auto. }
    rewrite (filter_ext_in _ _ _ E). 
    assert (Hs : seq 0 (length U) = seq 0 (pos_of r U) ++ pos_of r U :: seq (S (pos_of r U)) (length U - S (pos_of r U))).
    { replace (length U) with (pos_of r U + S (length U - S (pos_of r U)))%nat at 1 by lia. rewrite seq_app. auto. }
    rewrite Hs, filter_app. simpl. rewrite Nat.eqb_refl, !filter_none; auto.
    - intros i Hi. apply in_seq in Hi. apply Nat.eqb_neq. lia.
    - intros i Hi. apply in_seq in Hi. apply Nat.eqb_neq. lia.
  Qed.
  Lemma intersect_pos (U J : mi) : NoDup (mi_rows U) -> incl (mi_rows J) (mi_rows U) ->
    snd (fst (intersect_indices U J)) = map (fun r => pos_of r (mi_rows U)) (mi_rows J).
  Proof.
    intros Hn Hi. simpl. unfold eq_pairs.
    transitivity (map (fun r => pos_of r (mi_rows U)) (map (fun k => nth k (mi_rows J) []) (seq 0 (length (mi_rows J))))); [rewrite map_map|rewrite map_seq_nth; auto].
    assert (Hall : forall j, In j (seq 0 (length (mi_rows J))) -> In (nth j (mi_rows J) []) (mi_rows U)).
    { intros j Hj. apply Hi, nth_In. apply in_seq in Hj. lia. }
    revert Hall. generalize (seq 0 (length (mi_rows J))) as l. induction l as [|j l IH]; intros Hall; auto. simpl.
    rewrite filter_pos by (auto; apply Hall; simpl; auto). simpl. f_equal. apply IH. intros; apply Hall; simpl; auto.
  Qed.
  Lemma add_at_fold (U : list row) (base : list R) : NoDup U -> forall rows v d, length v = length rows -> NoDup rows -> incl rows U ->
    length d = length U ->
    let res := fold_left (fun d p => upd (fst p) (nth (fst p) base r0 + snd p) d) (combine (map (fun r => pos_of r U) rows) v) d in
    length res = length U /\
    forall i, (i < length U)%nat -> nth i res r0 = if row_dec (nth i U []) rows then nth i base r0 + rv rows v (nth i U []) else nth i d r0.
  Proof.
    intros HU. induction rows as [|r rows IH]; intros [|a v] d L Hn Hi Ld; try discriminate.
    - simpl. split; auto. intros i _. destruct (row_dec (nth i U []) []) as [[]|]; auto.
    - inversion Hn; subst. simpl. assert (Hr : In r U) by (apply Hi; simpl; auto). destruct (pos_of_spec r U Hr) as [Hp He].
      destruct (IH v (upd (pos_of r U) (nth (pos_of r U) base r0 + a) d)) as [Hl Hg]; auto.
      { intros z Hz; apply Hi; simpl; auto. } { rewrite upd_length; auto. }
      split; auto. intros i Hil. rewrite Hg by auto. simpl in L. rewrite rv_cons by lia.
      destruct (row_dec (nth i U []) rows) as [H|H].
      + rewrite eqr_neq by (intros ->; contradiction). destruct (row_dec (nth i U []) (r :: rows)) as [_|Hc]; [ring|exfalso; apply Hc; simpl; auto].
      + destruct (Nat.eq_dec i (pos_of r U)) as [->|Hne].
        * rewrite nth_upd_eq by lia. rewrite He, eqr_refl. destruct (row_dec r (r :: rows)) as [_|Hc]; [|exfalso; apply Hc; simpl; auto].
          rewrite rv_out by (rewrite He in H; auto). ring.
        * rewrite nth_upd_neq by auto. destruct (row_dec (nth i U []) (r :: rows)) as [[Hc|Hc]|Hc]; auto; [|contradiction].
          exfalso. apply Hne. apply (proj1 (NoDup_nth U []) HU); auto; congruence.
  Qed.
  Theorem sp_add_spec (x y : sp R) : okv x -> okv y -> sp_shape x = sp_shape y -> sp_rows x <> [] ->
    exists z, sp_add x y = Some z /\ okv z /\ sp_shape z = sp_shape x /\ sp_zd z = (length (sp_rows z) =? 1) /\
      (forall r, In r (sp_rows z) <-> In r (sp_rows x) \/ In r (sp_rows y)) /\
      forall is, sp_val (sp_rows z) (sp_data z) is = sp_val (sp_rows x) (sp_data x) is + sp_val (sp_rows y) (sp_data y) is.
  Proof.
    intros Hx Hy Hs Hne. pose proof Hx as [Lx [Nx Fx]]. pose proof Hy as [Ly [Ny Fy]].
    unfold sp_add. set (I := add_indices (sp_ind x) (sp_ind y)). set (U := mi_rows I).
    assert (HU : NoDup U) by apply add_indices_NoDup.
    assert (HUi : forall r, In r U <-> In r (sp_rows x) \/ In r (sp_rows y)) by (intros r; apply add_indices_rows; auto).
    rewrite (intersect_pos I (sp_ind x)) by (auto; intros r Hr; apply HUi; auto).
    rewrite (intersect_pos I (sp_ind y)) by (auto; intros r Hr; apply HUi; auto). fold U (sp_rows x) (sp_rows y).
    unfold add_at. rewrite !map_length, Lx, Ly, !Nat.eqb_refl. cbn [bind].
    destruct (add_at_fold U (repeat r0 (length U)) HU (sp_rows x) (sp_data x) (repeat r0 (length U)) Lx Nx) as [L1 G1].
    { intros r Hr; apply HUi; auto. } { apply repeat_length. }
    set (d1 := fold_left _ _ _) in *.
    destruct (add_at_fold U d1 HU (sp_rows y) (sp_data y) d1 Ly Ny) as [L2 G2]; auto.
    { intros r Hr; apply HUi; auto. }
    set (d2 := fold_left _ _ d1) in *.
    unfold sp_make. rewrite L2. fold U. rewrite Nat.eqb_refl. eexists; split; [reflexivity|].
    unfold okv, sp_ok, sp_rows. cbn [sp_ind sp_data sp_shape sp_zd]. fold U.
    split; [split; [|split]|split; [|split; [|split]]]; auto.
    - apply Forall_forall. intros r Hr. rewrite Forall_forall in Fx, Fy. apply HUi in Hr as [Hr|Hr]; auto. rewrite Hs. auto.
    - intros is. rewrite !sp_val_rv. destruct (row_dec (zrow is) U) as [H|H].
      + apply (In_nth _ _ []) in H as [i [Hi He]]. rewrite <- He. rewrite rv_in by auto. rewrite G2 by auto. rewrite G1 by auto.
        rewrite nth_repeat.
        destruct (row_dec (nth i U []) (sp_rows y)) as [H1|H1], (row_dec (nth i U []) (sp_rows x)) as [H2|H2];
          fold (sp_rows x) (sp_rows y); rewrite ?(rv_out (sp_rows y)), ?(rv_out (sp_rows x)) by auto; ring.
      + rewrite !rv_out; auto; [ring|..]; intros Hc; apply H, HUi; auto.
  Qed.

  (** * products *)
  Lemma pairs_sum (I J : mi) (f : nat -> nat -> R) :
    lsum (eq_pairs I J) (fun p => f (snd p) (fst p)) =
    rsum (length (mi_rows J)) (fun j => rsum (length (mi_rows I)) (fun i => if eqr (nth i (mi_rows I) []) (nth j (mi_rows J) []) then f i j else r0)).
  Proof.
    unfold eq_pairs. rewrite lsum_concat, lsum_seq. apply rsum_ext. intros j Hj. rewrite lsum_map, lsum_filter, lsum_seq. apply rsum_ext.
    intros i Hi. rewrite eqr_row. auto.
  Qed.
  Lemma combine_map2 {A B C} (f : A -> B) (g : A -> C) l : combine (map f l) (map g l) = map (fun a => (f a, g a)) l.
  Proof. induction l; simpl; congruence. Qed.
  Theorem sp_dot_spec (x y : sp R) : okv x -> okv y -> sp_shape x = sp_shape y -> sp_zd x = false -> sp_zd y = false ->
    sp_dot x y = Some (bsum (sp_shape x) (fun is => sp_val (sp_rows x) (sp_data x) is * sp_val (sp_rows y) (sp_data y) is)).
  Proof.
    intros Hx Hy Hs Zx Zy. unfold sp_dot, intersect_indices, sp_take. rewrite Zx, Zy. cbn [bind]. f_equal.
    rewrite !map_map, combine_map2, lsum_map. cbn [fst snd].
    rewrite (pairs_sum _ _ (fun i j => nth i (sp_data x) r0 * nth j (sp_data y) r0)). fold (sp_rows x) (sp_rows y).
    rewrite (bsum_ext _ _ (fun is => rsum (length (sp_rows y)) (fun j => rsum (length (sp_rows x)) (fun i =>
       (if eqr (nth j (sp_rows y) []) (zrow is) then if eqr (nth i (sp_rows x) []) (zrow is) then nth i (sp_data x) r0 * nth j (sp_data y) r0 else r0 else r0))))).
    - rewrite bsum_rsum_exchange. apply rsum_ext. intros j Hj. rewrite bsum_rsum_exchange. apply rsum_ext. intros i Hi.
      destruct Hy as [_ [_ Fy]]. rewrite Forall_nth' with (d := []) in Fy. destruct (Fy j Hj) as [js [Hv Ej]].
      rewrite (bsum_single _ js); [|rewrite Hs; auto|].
      + rewrite Ej. unfold zrow. rewrite eqr_refl. auto.
      + intros is Hi' Hne. rewrite eqr_neq; auto. rewrite Ej. intros E. apply Hne. symmetry. apply zrow_inj. auto.
    - intros is His. rewrite !sp_val_rv. unfold rv. rewrite rmul_rsum, rsum_exchange. apply rsum_ext. intros j Hj. apply rsum_ext. intros i Hi.
      destruct (eqr (nth i (sp_rows x) []) (zrow is)), (eqr (nth j (sp_rows y) []) (zrow is)); ring.
  Qed.
  Theorem sp_mul_spec (x y : sp R) : okv x -> okv y -> sp_shape x = sp_shape y -> sp_zd x = false -> sp_zd y = false ->
    exists z, sp_mul x y = Some z /\ okv z /\ sp_shape z = sp_shape x /\ sp_zd z = false /\
      (forall r, In r (sp_rows z) <-> In r (sp_rows x) /\ In r (sp_rows y)) /\
      forall is, sp_val (sp_rows z) (sp_data z) is = sp_val (sp_rows x) (sp_data x) is * sp_val (sp_rows y) (sp_data y) is.
  Proof.
    intros Hx Hy Hs Zx Zy. pose proof (intersect_rows (sp_ind x) (sp_ind y)) as Hin.
    pose proof (intersect_NoDup (sp_ind x) (sp_ind y)) as Hnd. pose proof Hx as [Lx [Nx Fx]]. pose proof Hy as [Ly [Ny Fy]].
    unfold sp_mul. unfold intersect_indices in *. unfold sp_take. rewrite Zx, Zy. cbn [bind fst snd mi_rows] in *.
    eexists; split; [reflexivity|]. unfold okv, sp_ok, sp_rows in *. cbn [sp_ind sp_data sp_shape sp_zd mi_rows].
    split; [split; [|split]|split; [|split; [|split]]]; auto.
    - rewrite sel_length, map_length, combine_length, !map_length. apply Nat.min_id.
    - apply Forall_forall. intros r Hr. rewrite Forall_forall in Fx. apply Fx. apply Hin in Hr. tauto.
    - intros is. rewrite !sp_val_rv. unfold sel. rewrite !map_map, combine_map2, map_map, rv_map. cbn [fst snd].
      rewrite (pairs_sum _ _ (fun i j => if eqr (nth i (mi_rows (sp_ind x)) []) (zrow is) then nth i (sp_data x) r0 * nth j (sp_data y) r0 else r0)).
      unfold rv. rewrite rmul_rsum, rsum_exchange. apply rsum_ext. intros i Hi. apply rsum_ext. intros j Hj.
      destruct (eqr (nth i (mi_rows (sp_ind x)) []) (zrow is)) eqn:E1, (eqr (nth j (mi_rows (sp_ind y)) []) (zrow is)) eqn:E2.
      + apply eqr_spec in E1, E2. rewrite E1, E2, eqr_refl. ring.
      + apply eqr_spec in E1. rewrite E1, eqr_sym, E2. ring.
      + destruct (eqr (nth i (mi_rows (sp_ind x)) []) (nth j (mi_rows (sp_ind y)) [])); ring.
      + destruct (eqr (nth i (mi_rows (sp_ind x)) []) (nth j (mi_rows (sp_ind y)) [])); ring.
  Qed.

  (** * transpose, reshape *)
  Theorem sp_transpose_spec (x : sp R) p : okv x -> (1 < sp_order x)%nat -> is_perm (sp_order x) p ->
    exists z, sp_transpose x p = Some z /\ okv z /\ sp_shape z = sel 0%nat (sp_shape x) p /\ sp_zd z = sp_zd x /\
      forall is, valid (sp_shape x) is -> sp_val (sp_rows z) (sp_data z) (sel 0%nat is p) = sp_val (sp_rows x) (sp_data x) is.
  Proof.
    intros Hx Ho Hp. pose proof Hx as [Lx [Nx Fx]]. unfold sp_transpose. rewrite (proj2 (Nat.leb_gt _ _)) by auto.
    assert (Hf : Forall (fun k => (k < sp_order x)%nat) p) by (apply Forall_forall; intros k Hk; eapply is_perm_in; eauto).
    assert (E : forallb (fun k => k <? sp_order x) p = true) by (apply forallb_ltb; auto). rewrite E.
    eexists; split; [reflexivity|]. unfold okv, sp_ok, sp_rows in *. cbn [sp_ind sp_data sp_shape sp_zd mi_rows].
    rewrite Forall_forall in Fx.
    assert (Hinj : forall is js, valid (sp_shape x) is -> valid (sp_shape x) js -> sel 0%nat is p = sel 0%nat js p -> is = js).
    { intros is js Hi Hj He. rewrite <- (sel_inv_perm 0%nat _ p is Hp (valid_length _ _ Hi)), He. apply (sel_inv_perm 0%nat _ p js Hp (valid_length _ _ Hj)). }
    split; [split; [|split]|split; [|split]]; auto.
    - rewrite map_length. auto.
    - apply NoDup_map_inj; auto. intros a b Ha Hb He. destruct (Fx a Ha) as [ia [Va ->]], (Fx b Hb) as [ib [Vb ->]].
      fold (zrow ia) (zrow ib) in *. rewrite !sel_zrow in He. apply zrow_inj in He. f_equal. auto.
    - apply Forall_forall. intros r Hr. apply in_map_iff in Hr as [q [<- Hq]]. destruct (Fx q Hq) as [iq [Vq ->]].
      exists (sel 0%nat iq p). split; [apply sel_valid; auto|]. apply sel_zrow.
    - intros is Hv. rewrite !sp_val_rv. unfold rv. rewrite map_length. apply rsum_ext. intros j Hj.
      rewrite (map_nth_in _ _ _ []) by auto. destruct (Fx (nth j (mi_rows (sp_ind x)) []) (nth_In _ _ Hj)) as [ij [Vj ->]]. fold (zrow ij).
      rewrite sel_zrow. assert (E2 : eqr (zrow (sel 0%nat ij p)) (zrow (sel 0%nat is p)) = eqr (zrow ij) (zrow is)).
      { apply eq_true_iff_eq. rewrite !eqr_spec. split; intros H; apply zrow_inj in H; f_equal; auto. congruence. }
      rewrite E2. auto.
  Qed.
  Theorem sp_reshape_spec (x : sp R) s : okv x -> prodn s = prodn (sp_shape x) ->
    exists z, sp_reshape x s = Some z /\ okv z /\ sp_shape z = s /\ sp_zd z = sp_zd x /\
      forall is js, valid (sp_shape x) is -> valid s js -> sub2indF (sp_shape x) is = sub2indF s js ->
        sp_val (sp_rows z) (sp_data z) js = sp_val (sp_rows x) (sp_data x) is.
  Proof.
    intros Hx Hp. pose proof Hx as [Lx [Nx Fx]]. pose proof (rows_in_shape x Hx) as E. unfold sp_reshape, sub2ind.
    unfold sp_rows in *. rewrite E. cbn [bind]. unfold ind2sub. set (f := sp_shape x) in *. rewrite Forall_forall in Fx.
    assert (E2 : forallb (fun k => k <? prodn s) (map (fun r => sub2indF f (map Z.to_nat r)) (mi_rows (sp_ind x))) = true).
    { apply forallb_forall. intros k Hk. apply in_map_iff in Hk as [r [<- Hr]]. destruct (Fx r Hr) as [is [Hv ->]].
      fold (zrow is) (nrow (zrow is)). rewrite nrow_zrow. apply Nat.ltb_lt. rewrite Hp. apply sub2indF_lt; auto. }
    rewrite E2. cbn [bind]. eexists; split; [reflexivity|]. unfold okv, sp_ok, sp_rows. cbn [sp_ind sp_data sp_shape sp_zd mi_rows].
    rewrite map_map.
    assert (Hrow : forall is, map Z.of_nat (ind2subF s (sub2indF f (map Z.to_nat (zrow is)))) = zrow (ind2subF s (sub2indF f is))).
    { intros is. fold (nrow (zrow is)). rewrite nrow_zrow. auto. }
    assert (Hlt : forall is, valid f is -> (sub2indF f is < prodn s)%nat) by (intros; rewrite Hp; apply sub2indF_lt; auto).
    split; [split; [|split]|split; [|split]]; auto.
    - rewrite map_length. auto.
    - apply NoDup_map_inj; auto. intros a b Ha Hb He. destruct (Fx a Ha) as [ia [Va ->]], (Fx b Hb) as [ib [Vb ->]].
      fold (zrow ia) (zrow ib) in *. rewrite !Hrow in He. apply zrow_inj in He. f_equal.
      apply sub2indF_inj with (ns := f); auto. rewrite <- (sub2indF_ind2subF s (sub2indF f ia)), He, sub2indF_ind2subF; auto.
    - apply Forall_forall. intros r Hr. apply in_map_iff in Hr as [q [<- Hq]]. destruct (Fx q Hq) as [iq [Vq ->]].
      fold (zrow iq). rewrite Hrow. eexists; split; [|reflexivity]. apply ind2subF_valid; auto.
    - intros is js Hvi Hvj He. rewrite !sp_val_rv. unfold rv. rewrite map_length. apply rsum_ext. intros j Hj.
      rewrite (map_nth_in _ _ _ []) by auto. destruct (Fx (nth j (mi_rows (sp_ind x)) []) (nth_In _ _ Hj)) as [ij [Vj ->]]. fold (zrow ij).
      rewrite Hrow. assert (E3 : eqr (zrow (ind2subF s (sub2indF f ij))) (zrow js) = eqr (zrow ij) (zrow is)).
      { apply eq_true_iff_eq. rewrite !eqr_spec. split; intros H; apply zrow_inj in H; f_equal.
        - apply sub2indF_inj with (ns := f); auto. rewrite He, <- H, sub2indF_ind2subF; auto.
        - rewrite H, He. apply ind2subF_sub2indF; auto. }
      rewrite E3. auto.
  Qed.

  (** * evaluation *)
  Lemma last_wins (rows : list row) : forall (data : list R) r acc, length data = length rows -> NoDup rows ->
    fold_left (fun acc p => if row_eqb r (fst p) then snd p else acc) (combine rows data) acc =
    if row_dec r rows then rv rows data r else acc.
  Proof.
    induction rows as [|q rows IH]; intros [|d data] r acc L Hn; try discriminate; [simpl; destruct (row_dec r []) as [[]|]; auto|].
    inversion Hn; subst. simpl. rewrite IH by auto. simpl in L. rewrite rv_cons by lia. rewrite eqr_row, (eqr_sym r q).
    destruct (row_dec r rows) as [H|H].
    - rewrite eqr_neq by (intros ->; contradiction). destruct (row_dec r (q :: rows)) as [_|Hc]; [ring|exfalso; apply Hc; simpl; auto].
    - destruct (eqr q r) eqn:E.
      + apply eqr_spec in E. subst. destruct (row_dec r (r :: rows)) as [_|Hc]; [|exfalso; apply Hc; simpl; auto]. rewrite rv_out by auto. ring.
      + destruct (row_dec r (q :: rows)) as [[->|Hc]|Hc]; auto; [rewrite eqr_refl in E; discriminate|contradiction].
  Qed.
  Theorem sp_eval_at_indices_spec (x : sp R) (l : list (list nat)) : okv x -> sp_zd x = false ->
    sp_eval_at_indices x (map zrow l) = Some (map (sp_val (sp_rows x) (sp_data x)) l).
  Proof.
    intros [L [Hn _]] Hz. unfold sp_eval_at_indices. rewrite Hz. f_equal. rewrite map_map. apply map_ext. intros is.
    rewrite last_wins by auto. rewrite sp_val_rv. destruct (row_dec (zrow is) (sp_rows x)); auto. rewrite rv_out; auto.
  Qed.
  Lemma factors_seq (Ms : list (nd R)) : forall i js, length js = length Ms ->
    factors Ms (repeat i (length Ms)) js = lprod (seq 0 (length Ms)) (fun k => get (nth k Ms (scalar r0)) [i; nth k js 0%nat]).
  Proof.
    induction Ms as [|M Ms IH]; intros i [|j js] L; simpl in *; try lia; auto. rewrite IH by lia. f_equal. rewrite <- seq_shift, lprod_map. auto.
  Qed.
  Theorem sp_tmp_eval_diag_spec (x : sp R) Ms n : okv x -> sp_zd x = false -> (0 < sp_order x)%nat -> length Ms = sp_order x ->
    (forall k, (k < sp_order x)%nat -> shape (nth k Ms (scalar r0)) = [n; nth k (sp_shape x) 0%nat]) ->
    returns (sp_tensor_matrix_product_eval_diag x Ms) [n]
      (fun is => bsum (sp_shape x) (fun js => sp_val (sp_rows x) (sp_data x) js * factors Ms (repeat (nth 0 is 0%nat) (sp_order x)) js)).
  Proof.
    intros Hx Hz Ho HL HM. pose proof Hx as [Lx [Nx Fx]]. unfold sp_tensor_matrix_product_eval_diag. rewrite Hz.
    rewrite (HM 0%nat Ho). cbn [nth]. rewrite Forall_forall in Fx.
    match goal with |- returns (if ?b && _ && _ then _ else _) _ _ => assert (E : b = true) end.
    { apply forallb_forall. intros k Hk. apply in_seq in Hk. unfold ndim. rewrite HM by lia. cbn [length nth]. rewrite !Nat.eqb_refl. cbn [andb].
      apply forallb_forall. intros r Hr. destruct (Fx r Hr) as [is [Hv ->]]. fold (zrow is). rewrite nth_zrow.
      pose proof (valid_nth _ _ k Hv ltac:(apply Hk)). apply andb_true_iff. split; [apply Z.leb_le; lia|apply Z.ltb_lt; lia]. }
    rewrite E, (proj2 (Nat.ltb_lt _ _) Ho), Lx, Nat.eqb_refl. cbn [andb]. eexists; split; [reflexivity|]. split; auto. cbn [get]. intros is _.
    set (i := nth 0 is 0%nat).
    rewrite <- (map_seq_nth ([], r0) (combine (sp_rows x) (sp_data x))), lsum_map, combine_length, Lx, Nat.min_id, lsum_seq.
    rewrite (bsum_ext _ _ (fun js => rsum (length (sp_rows x)) (fun j => (if eqr (nth j (sp_rows x) []) (zrow js) then nth j (sp_data x) r0 else r0) * factors Ms (repeat i (sp_order x)) js))).
    2:{ intros js Hj. rewrite sp_val_rv. unfold rv. rewrite rsum_scal_r. auto. }
    rewrite bsum_rsum_exchange. apply rsum_ext. intros j Hj. rewrite combine_nth by auto. cbn [fst snd].
    destruct (Fx _ (nth_In _ [] Hj)) as [js [Vj Ej]]. rewrite Ej. fold (zrow js).
    rewrite (bsum_single _ js); auto.
    - rewrite eqr_refl. rewrite <- HL, factors_seq by (rewrite HL, (valid_length _ _ Vj); auto).
      rewrite (lprod_ext _ (fun k => get (nth k Ms (scalar r0)) [i; Z.to_nat (nth k (zrow js) 0%Z)]) (fun k => get (nth k Ms (scalar r0)) [i; nth k js 0%nat])).
      2:{ intros k Hk. rewrite nth_zrow, Nat2Z.id. auto. } ring.
    - intros ks Hk Hne. rewrite eqr_neq; [ring|]. intros E'. apply Hne. symmetry. apply zrow_inj; auto.
  Qed.
End Sp.
