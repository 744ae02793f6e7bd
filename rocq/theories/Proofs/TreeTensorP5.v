(** Tree-based tensors: sub-tensors and products with diagonal matrices. *)
From Coq Require Import List Arith Lia Bool ZArith Ring Permutation.
From Verif.Base Require Import ListAux CRing Index.
From Verif.Model Require Import Sorting Numpy FullTensor DimensionTree TreeBased.
From Verif.Spec Require Import TensorSpec TreeSpec TreeTensorSpec.
From Verif.Proofs Require Import NumpyP FullTensorP FullTensorP2 FullTensorP3 FullTensorP4 DimTreeP DimTreeP2 TreeTensorP TreeTensorP2 TreeTensorP3 TreeTensorP4 DiagonalP.
Import ListNotations.

Section Sub.
  Context {R : Type} {CR : CRing R}.
  Add Ring Rrsb : rth.
  Local Open Scope cr_scope.

  (** matrices with one nonzero entry per row *)
  Lemma factors_single (Ms : list (nd R)) (phi : list (nat -> nat)) (w : list (nat -> R)) : forall is js ms,
    length Ms = length ms -> length phi = length ms -> length w = length ms -> length is = length ms -> length js = length ms ->
    (forall k, (k < length ms)%nat -> forall j, (j < nth k ms 0)%nat ->
        get (nth k Ms (scalar r0)) [nth k is 0%nat; j] = if j =? nth k phi (fun _ => 0%nat) (nth k is 0%nat) then nth k w (fun _ => r0) (nth k is 0%nat) else r0) ->
    valid ms js ->
    factors Ms is js = if list_eqb js (map (fun p => fst p (snd p)) (combine phi is)) then lprod (combine w is) (fun p => fst p (snd p)) else r0.
  Proof.
    revert phi w. induction Ms as [|M Ms IH]; intros [|f phi] [|v w] [|i is] [|j js] [|m ms] L1 L2 L3 L4 L5 H Hv; simpl in *; try lia; auto.
    inversion Hv; subst. rewrite (IH phi w is js ms); auto; try lia.
    - rewrite (H 0%nat) by lia. cbn [nth]. destruct (Nat.eqb_spec j (f i)); simpl.
      + destruct (list_eqb js _); ring.
      + ring.
    - intros k Hk. apply (H (S k)). lia.
  Qed.
  Definition slice_mat (m : nat) (s : slice) : nd R :=
    ND [slice_len m s; m] (fun l => if nth 1 l 0%nat =? slice_idx s (nth 0 l 0%nat) then r1 else r0).

  Lemma eval_slice_axis m s : (0 < m)%nat -> slice_ok m s -> axis_op (fun A d => ft_eval_slice A s d) (slice_mat m s) m.
  Proof.
    intros Hm Hok A s1 s2 HA Hnd. unfold mrows. cbn [slice_mat shape nth].
    assert (HnA : ndim A = S (length s1 + length s2)) by (unfold ndim; rewrite HA, app_length; simpl; lia).
    assert (Hmid : nth (length s1) (shape A) 0%nat = m) by (rewrite HA, app_nth2, Nat.sub_diag by lia; auto).
    destruct s as [|ks]; cbn [ft_eval_slice slice_len].
    - destruct (Nat.eqb_spec (ndim A) 1); [lia|]. destruct (Nat.ltb_spec (length s1) (ndim A)); [|lia].
      assert (Hin : forall j, nth j (repeat All (ndim A)) All = All).
      { intros j. destruct (le_lt_dec (ndim A) j); [apply nth_overflow; rewrite repeat_length; auto|apply nth_repeat]. }
      destruct (ft_sub_tensor_spec A (repeat All (ndim A))) as (C & HC & HsC & HgC).
      { apply repeat_length. }
      { intros j Hj. rewrite Hin. exact Logic.I. }
      assert (E1 : forall (l : list nat), length l = ndim A -> map (fun p => slice_len (fst p) (snd p)) (combine l (repeat All (ndim A))) = l).
      { intros l. generalize (ndim A). induction l as [|x l IH]; intros [|nn] Hl; simpl in *; try lia; auto. f_equal. apply IH; lia. }
      assert (E2 : forall (l : list nat), length l = ndim A -> map (fun p => slice_idx (fst p) (snd p)) (combine (repeat All (ndim A)) l) = l).
      { intros l. generalize (ndim A). induction l as [|x l IH]; intros [|nn] Hl; simpl in *; try lia; auto. f_equal. apply IH; lia. }
      rewrite E1 in HsC, HgC by auto. exists C. split; auto. split; [congruence|].
      intros a1 i a2 H1 Hi H2. assert (Hv : valid (shape A) (a1 ++ i :: a2)) by (rewrite HA; apply valid_app; auto; constructor; auto).
      rewrite HgC by auto. rewrite E2 by (rewrite (valid_length _ _ Hv); auto).
      rewrite (rsum_single _ i); auto.
      + cbn. rewrite Nat.eqb_refl. ring.
      + intros j Hj Hne. cbn. destruct (Nat.eqb_spec j i); [contradiction|ring].
    - destruct (ft_eval_single A (length s1) ks) as (C & HC & HsC & HgC); try lia.
      { rewrite Hmid. exact Hok. }
      assert (Eu : forall (a b : list nat) x y, upd (length a) x (a ++ y :: b) = a ++ x :: b).
      { intros a b x y. rewrite upd_app_r, Nat.sub_diag by lia. auto. }
      rewrite HA, Eu in HsC, HgC. exists C. split; auto. split; auto.
      intros a1 i a2 H1 Hi H2. assert (Hv : valid (s1 ++ length ks :: s2) (a1 ++ i :: a2)) by (apply valid_app; auto; constructor; auto).
      rewrite HgC by auto. pose proof (valid_length _ _ H1) as L1. rewrite <- L1, app_nth2, Nat.sub_diag by lia. cbn [nth]. rewrite Eu.
      assert (Hk : (nth i ks 0 < m)%nat) by (cbn in Hok; rewrite Forall_forall in Hok; apply Hok, nth_In; auto).
      rewrite (rsum_single _ (nth i ks 0%nat)); auto.
      + cbn. rewrite Nat.eqb_refl. ring.
      + intros j Hj Hne. cbn. destruct (Nat.eqb_spec j (nth i ks 0%nat)); [contradiction|ring].
  Qed.

  Lemma tb_shape_pos X r mu : tb_ok X r -> (2 <= tb_order X)%nat -> (mu < tb_order X)%nat -> (0 < nth mu (tb_shape X) 0)%nat.
  Proof.
    intros O H2 Hmu. destruct (target_axis_split X r mu O H2 Hmu) as (s1 & s2 & L1 & Hs & _).
    assert (Ha : active X (target X mu) = true) by (apply (ax_tg_active X r mu O Hmu (root_not_leaf X r O H2))).
    apply active_prod in Ha. rewrite Hs, prodn_app in Ha. simpl in Ha. destruct (nth mu (tb_shape X) 0%nat); [|lia]. simpl in Ha. lia.
  Qed.

  (** products with matrices that have one nonzero entry per row, along all listed dimensions *)
  Lemma sub_chain X r sl : tb_ok X r -> (2 <= tb_order X)%nat -> length sl = tb_order X ->
    (forall k, (k < tb_order X)%nat -> slice_ok (nth k (tb_shape X) 0%nat) (nth k sl All) /\ (0 < slice_len (nth k (tb_shape X) 0%nat) (nth k sl All))%nat) ->
    exists Z, tb_sub_tensor X sl = Some Z /\ chain X (seq 0 (tb_order X)) (map (fun p => slice_mat (fst p) (snd p)) (combine (tb_shape X) sl)) Z.
  Proof.
    intros O H2 Hl Hsl. unfold tb_sub_tensor. rewrite Hl, Nat.eqb_refl.
    assert (HF : Forall (fun mu => (mu < tb_order X)%nat) (seq 0 (tb_order X))) by (apply Forall_forall; intros x Hx; apply in_seq in Hx; lia).
    assert (Lc : length (combine (tb_shape X) sl) = tb_order X) by (rewrite combine_length, tb_shape_length, Hl; unfold tb_order; lia).
    destruct (dim_fold X r (fun mu A d => ft_eval_slice A (nth mu sl All) d) (seq 0 (tb_order X))
       (map (fun p => slice_mat (fst p) (snd p)) (combine (tb_shape X) sl)) X) as (l & Hf & Hc); auto using seq_NoDup.
    - rewrite map_length, seq_length. auto.
    - rewrite seq_length. intros k Hk. cbv zeta. rewrite seq_nth by auto. cbn [plus].
      rewrite map_nth_in with (da := (0%nat, All)) by lia. rewrite combine_nth by (rewrite tb_shape_length, Hl; auto). cbn [fst snd].
      destruct (Hsl k Hk). split; [cbn; auto|]. apply eval_slice_axis; auto. apply (tb_shape_pos X r); auto.
    - rewrite Hf. exists (TB (ttree X) l). split; auto. apply (tb_make_ok l (ttree X) r).
      destruct (chain_ok X _ _ _ r Hc O) as (OZ & _); auto using seq_NoDup. apply (root_not_leaf X r); auto.
  Qed.
  Lemma bsum_list_single ns ks (f : list nat -> R) w : valid ns ks -> bsum ns (fun js => f js * (if list_eqb js ks then w else r0)) = f ks * w.
  Proof.
    intros Hv. rewrite (bsum_single _ ks); auto.
    - rewrite list_eqb_refl. auto.
    - intros js Hj Hne. destruct (list_eqb js ks) eqn:E; [apply list_eqb_spec in E; contradiction|ring].
  Qed.
  Theorem tb_sub_tensor_full X r sl A : tb_ok X r -> (2 <= tb_order X)%nat -> tb_full X = Some A -> length sl = tb_order X ->
    (forall k, (k < tb_order X)%nat -> slice_ok (nth k (shape A) 0%nat) (nth k sl All) /\ (0 < slice_len (nth k (shape A) 0%nat) (nth k sl All))%nat) ->
    exists Z, tb_sub_tensor X sl = Some Z /\ tb_ok Z r /\ ttree Z = ttree X /\
      returns (tb_full Z) (map (fun p => slice_len (fst p) (snd p)) (combine (shape A) sl) ++ skipn (tb_order X) (shape A))
        (fun is => get A (map (fun p => slice_idx (fst p) (snd p)) (combine sl is) ++ skipn (tb_order X) is)).
  Proof.
    intros O H2 HA Hl Hsl. destruct (full_inv X r A O H2 HA) as [HsA HgA].
    assert (LS : length (tb_shape X) = tb_order X) by apply tb_shape_length.
    assert (Hsl' : forall k, (k < tb_order X)%nat -> slice_ok (nth k (tb_shape X) 0%nat) (nth k sl All) /\ (0 < slice_len (nth k (tb_shape X) 0%nat) (nth k sl All))%nat).
    { intros k Hk. specialize (Hsl k Hk). rewrite HsA, app_nth1 in Hsl by lia. auto. }
    destruct (sub_chain X r sl O H2 Hl Hsl') as (Z & HZ & HC).
    assert (HF : Forall (fun mu => (mu < tb_order X)%nat) (seq 0 (tb_order X))) by (apply Forall_forall; intros x Hx; apply in_seq in Hx; lia).
    destruct (chain_full X r _ _ Z A O H2 (seq_NoDup _ _) HF HC HA) as (OZ & H2Z & B & HB & HsB & HgB).
    exists Z. split; auto. split; auto. split; [apply (chain_tree _ _ _ _ HC)|]. exists B. split; auto.
    assert (Ec : combine (shape A) sl = combine (tb_shape X) sl).
    { rewrite HsA. assert (Hq : length (tb_shape X) = length sl) by lia. revert Hq. clear. generalize (tb_shape X), (exts X r). clear.
      intros a b. revert sl. induction a; intros [|x l] Hq; simpl in *; try lia; auto. - destruct b; auto. - f_equal. apply IHa. lia. }
    assert (Es : put (seq 0 (tb_order X)) (map mrows (map (fun p => slice_mat (fst p) (snd p)) (combine (tb_shape X) sl))) (shape A)
       = map (fun p => slice_len (fst p) (snd p)) (combine (shape A) sl) ++ skipn (tb_order X) (shape A)).
    { rewrite Ec. rewrite HsA at 1. rewrite put_app_l by (rewrite LS; auto). rewrite put_all; auto.
      - rewrite map_map. f_equal. rewrite HsA, <- LS, skipn_app, skipn_all, Nat.sub_diag. auto.
      - rewrite !map_length, combine_length. lia. }
    split; [congruence|]. rewrite <- Es, <- HsB. intros is Hv. rewrite HgB by (rewrite <- HsB; auto).
    rewrite HsB, Es in Hv. apply valid_app_inv in Hv. destruct Hv as (a & e & -> & Ha & He).
    assert (La : length a = tb_order X) by (rewrite (valid_length _ _ Ha), map_length, Ec, combine_length; lia).
    rewrite HsA. rewrite !sel_app_l by (rewrite ?LS, ?La; auto).
    assert (Es1 : sel 0%nat (tb_shape X) (seq 0 (tb_order X)) = tb_shape X) by (rewrite <- LS; apply sel_seq).
    assert (Es2 : sel 0%nat a (seq 0 (tb_order X)) = a) by (rewrite <- La; apply sel_seq).
    rewrite Es1, Es2. clear Es1 Es2.
    set (phi := map slice_idx sl).
    set (w := repeat (fun _ : nat => @r1 R CR) (tb_order X)).
    assert (Hphi : map (fun p => fst p (snd p)) (combine phi a) = map (fun p => slice_idx (fst p) (snd p)) (combine sl a)).
    { unfold phi. clear. revert a. induction sl as [|s sl IH]; intros [|x a]; simpl; auto. f_equal. auto. }
    assert (Hvid : valid (tb_shape X) (map (fun p => slice_idx (fst p) (snd p)) (combine sl a))).
    { rewrite Ec in Ha. revert Ha Hsl'. assert (Hq : length sl = length (tb_shape X)) by lia. revert Hq. rewrite <- LS. generalize (tb_shape X). clear.
      intros s. revert s a. induction sl as [|x sl IH]; intros [|m s] a Hq Ha Hsl; simpl in *; try lia.
      - inversion Ha; subst. constructor.
      - inversion Ha as [|i m' a' l' Hi Ha']; subst. constructor.
        + destruct (Hsl 0%nat) as [Hok _]; [lia|]. simpl in Hok. destruct x as [|ks]; simpl in *; auto.
          rewrite Forall_forall in Hok. apply Hok, nth_In; auto.
        + apply (IH s a'); auto. intros k Hk. apply (Hsl (S k)). lia. }
    transitivity (bsum (tb_shape X) (fun js => get A (js ++ e) * (if list_eqb js (map (fun p => slice_idx (fst p) (snd p)) (combine sl a)) then r1 else r0))).
    - apply bsum_ext. intros js Hjs. assert (Lj : length js = tb_order X) by (rewrite (valid_length _ _ Hjs); auto).
      rewrite put_app_l by (rewrite La; auto). rewrite put_all by auto. f_equal.
      rewrite (factors_single _ phi w a js (tb_shape X)); auto; rewrite ?LS; auto.
      + rewrite Hphi. destruct (list_eqb js _); auto. apply lprod_one. intros [f x] Hi. apply in_combine_l in Hi. apply repeat_spec in Hi. cbn. rewrite Hi. auto.
      + rewrite map_length, combine_length. lia.
      + unfold phi. rewrite map_length. auto.
      + unfold w. apply repeat_length.
      + intros k Hk j Hj. rewrite map_nth_in with (da := (0%nat, All)) by (rewrite combine_length; lia).
        rewrite combine_nth by lia. unfold phi. rewrite map_nth_in with (da := All) by lia. unfold w. rewrite nth_repeat_in by auto. cbn. auto.
    - rewrite bsum_list_single by auto. rewrite <- La, skipn_app, skipn_all, Nat.sub_diag. cbn [skipn app].
      replace (combine sl (a ++ e)) with (combine sl a); [ring|]. assert (Hq : length sl = length a) by lia. revert Hq. clear. revert a.
      induction sl as [|x l IH]; intros [|y a] Hq; simpl in *; try lia; auto. f_equal. apply IH; lia.
  Qed.

  Lemma returns_trans (o o' : option (nd R)) s s' f g : returns o s f -> returns o s' g -> returns o' s f -> returns o' s' g.
  Proof.
    intros (A & HA & HsA & HgA) (B & HB & HsB & HgB) (C & HC & HsC & HgC). rewrite HA in HB. injection HB as <-.
    exists C. split; auto. split; [congruence|]. intros is Hv. rewrite HgC by congruence. rewrite <- HgA by congruence. auto.
  Qed.
  Theorem tb_tdmp_full X r vs mus A : tb_ok X r -> (2 <= tb_order X)%nat -> tb_full X = Some A ->
    NoDup mus -> Forall (fun k => (k < tb_order X)%nat) mus -> length vs = length mus ->
    (forall k, (k < length mus)%nat -> shape (nth k vs (scalar r0)) = [nth (nth k mus 0%nat) (shape A) 0%nat]) ->
    exists Z, tb_tdmp X vs (Some mus) = Some Z /\ tb_ok Z r /\ ttree Z = ttree X /\
      returns (tb_full Z) (shape A) (fun is => get A is * vfactors_at vs mus is).
  Proof.
    intros O H2 HA ND HF L HV. destruct (full_inv X r A O H2 HA) as [HsA HgA].
    assert (HF' : Forall (fun k => (k < ndim A)%nat) mus).
    { eapply Forall_impl; [|apply HF]. intros k Hk. unfold ndim. rewrite HsA, app_length, tb_shape_length. unfold tb_order in Hk. lia. }
    assert (HM : forall k, (k < length mus)%nat -> exists q, (0 < q)%nat /\ shape (nth k (map diag_of_vector vs) (scalar r0)) = [q; nth (nth k mus 0%nat) (shape A) 0%nat]).
    { intros k Hk. rewrite map_nth_in with (da := scalar r0) by lia. specialize (HV k Hk). unfold diag_of_vector, np_diag. cbn [shape nth].
      unfold np_size. rewrite HV. cbn [prodn fold_right]. exists (nth (nth k mus 0%nat) (shape A) 0%nat). split; [|cbn; rewrite Nat.mul_1_r; auto].
      assert (Hk' : (nth k mus 0 < tb_order X)%nat) by (rewrite Forall_forall in HF; apply HF, nth_In; auto).
      rewrite HsA, app_nth1 by (rewrite tb_shape_length; auto). apply (tb_shape_pos X r); auto. }
    destruct (tb_tmp_full X r (map diag_of_vector vs) mus A O H2 HA ND HF) as (Z & HZ & OZ & TZ & RZ); auto; [rewrite map_length; auto|].
    exists Z. split; auto. split; auto. split; auto.
    eapply returns_trans; [| |exact RZ].
    - apply ft_tensor_matrix_product_spec; auto; [rewrite map_length; auto|]. intros k Hk. destruct (HM k Hk) as (q & _ & Hs). exists q. exact Hs.
    - pose proof (ft_tdmp_spec A vs mus ND HF' L HV) as HT. unfold ft_tensor_diagonal_matrix_product in HT. rewrite L, Nat.eqb_refl in HT. exact HT.
  Qed.
  Lemma tb_tmp_default (X : tbt R) Ms : tb_tmp X Ms None = tb_tmp X Ms (Some (seq 0 (tb_order X))).
  Proof. auto. Qed.
End Sub.
