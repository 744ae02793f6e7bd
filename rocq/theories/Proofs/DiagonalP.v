(** Proofs about DiagonalTensor. *)
From Coq Require Import List Arith Lia Bool ZArith Permutation.
From Verif.Base Require Import ListAux CRing Index.
From Verif.Model Require Import Sorting Numpy FullTensor Diagonal.
From Verif.Spec Require Import TensorSpec.
From Verif.Proofs Require Import SortingP NumpyP FullTensorP FullTensorP2 FullTensorP3.
Import ListNotations.

Lemma const_list (is : list nat) i : Forall (fun j => j = i) is -> is = repeat i (length is).
Proof. induction 1; simpl; congruence. Qed.

Lemma nth_repeat_in {A} (a d : A) n k : k < n -> nth k (repeat a n) d = a.
Proof. intros H. rewrite (nth_indep _ d a) by (rewrite repeat_length; auto). apply nth_repeat. Qed.

Lemma map_repeat {A B} (f : A -> B) a n : map f (repeat a n) = repeat (f a) n.
Proof. induction n; simpl; congruence. Qed.

Section Diag.
  Context {R : Type} {CR : CRing R}.
  Add Ring Rr : rth.
  Local Open Scope cr_scope.

  Lemma forallb_eq_spec (is : list nat) i : forallb (fun j => j =? i) is = true <-> is = repeat i (length is).
  Proof.
    rewrite forallb_forall. split.
    - intros H. apply const_list, Forall_forall. intros x Hx. apply Nat.eqb_eq; auto.
    - intros -> x Hx. apply repeat_spec in Hx. apply Nat.eqb_eq; auto.
  Qed.
  Lemma diag_val_repeat v i d : (0 < d)%nat -> diag_val v (repeat i d) = nth i v r0.
  Proof.
    intros Hd. destruct d as [|d]; [lia|]. unfold diag_val. cbn [repeat nth].
    rewrite (proj2 (forallb_eq_spec (i :: repeat i d) i)); auto. simpl. rewrite repeat_length. auto.
  Qed.
  Lemma diag_val_off v is : (forall i, is <> repeat i (length is)) -> diag_val v is = r0.
  Proof.
    intros H. unfold diag_val. destruct (forallb _ is) eqn:E; auto. apply forallb_eq_spec in E.
    exfalso. eapply H; eauto.
  Qed.
  Lemma diag_dec (is : list nat) : {i | is = repeat i (length is)} + {forall i, is <> repeat i (length is)}.
  Proof.
    destruct (forallb (fun j => j =? nth 0 is 0%nat) is) eqn:E.
    - left. exists (nth 0 is 0%nat). apply forallb_eq_spec; auto.
    - right. intros i H. rewrite H in E. destruct is as [|j is]; [discriminate E|]. clear H. cbn [length repeat nth] in E.
      assert (forallb (fun j => j =? i) (i :: repeat i (length is)) = true).
      { apply forallb_eq_spec. cbn [length repeat]. rewrite repeat_length; auto. } congruence.
  Qed.
  Lemma valid_repeat_inv n d i : (0 < d)%nat -> valid (repeat n d) (repeat i d) -> (i < n)%nat.
  Proof. intros Hd H. destruct d; [lia|]. inversion H; auto. Qed.

  Lemma ft_diag_fold order : (0 < order)%nat -> forall (w : list R) a D,
    let D' := fold_left (fun D p => np_set D (repeat (fst p) order) (snd p)) (combine (seq a (length w)) w) D in
    shape D' = shape D /\
    forall is, (forall i, (a <= i < a + length w)%nat -> is = repeat i order -> get D' is = nth (i - a) w r0) /\
               ((forall i, (a <= i < a + length w)%nat -> is <> repeat i order) -> get D' is = get D is).
  Proof.
    intros Ho. induction w as [|x w IH]; intros a D; simpl.
    - split; auto. intros is. split; intros; auto; lia.
    - destruct (IH (S a) (np_set D (repeat a order) x)) as [Hs Hg]. clear IH. split; [rewrite Hs; auto|].
      intros is. destruct (Hg is) as [G1 G2]. split.
      + intros i Hi He. destruct (Nat.eq_dec i a) as [->|Hne].
        * rewrite Nat.sub_diag. rewrite G2.
          -- simpl. rewrite He, list_eqb_refl. auto.
          -- intros j Hj E. rewrite He in E. destruct order; [lia|]. simpl in E. inversion E. lia.
        * rewrite (G1 i); auto; [|lia]. replace (i - a)%nat with (S (i - S a)) by lia. auto.
      + intros H. rewrite G2 by (intros; apply H; lia). simpl.
        destruct (list_eqb is (repeat a order)) eqn:E; auto. apply list_eqb_spec in E. exfalso. apply (H a); auto. lia.
  Qed.
  Lemma ft_diag_spec (v : list R) order : (0 < order)%nat ->
    tensor_is (ft_diag v order) (repeat (length v) order) (diag_val v).
  Proof.
    intros Ho. unfold ft_diag. destruct (ft_diag_fold order Ho v 0 (np_zeros (repeat (length v) order))) as [Hs Hg].
    split; auto. intros is Hv. destruct (Hg is) as [G1 G2].
    pose proof (valid_length _ _ Hv) as L. rewrite repeat_length in L.
    destruct (diag_dec is) as [[i He]|Hne].
    - rewrite L in He. assert (Hi : (i < length v)%nat).
      { rewrite He in Hv. apply valid_repeat_inv in Hv; auto. }
      rewrite (G1 i); auto; [|lia]. rewrite Nat.sub_0_r, He, diag_val_repeat; auto.
    - rewrite G2; [|intros i Hi; rewrite <- L; auto]. rewrite diag_val_off; auto.
  Qed.

  Lemma diag_val_sum (v : list R) r d js : (0 < d)%nat -> valid (repeat r d) js ->
    diag_val v js = rsum r (fun k => if list_eqb js (repeat k d) then nth k v r0 else r0).
  Proof.
    intros Hd Hv. pose proof (valid_length _ _ Hv) as L. rewrite repeat_length in L.
    destruct (diag_dec js) as [[i He]|Hne]; rewrite L in *.
    - subst js. pose proof (valid_repeat_inv _ _ _ Hd Hv) as Hi. rewrite diag_val_repeat by auto.
      rewrite (rsum_single _ i); auto.
      + rewrite list_eqb_refl; auto.
      + intros k Hk Hne. destruct (list_eqb (repeat i d) (repeat k d)) eqn:E; auto.
        apply list_eqb_spec in E. destruct d; [lia|]. simpl in E. inversion E; congruence.
    - rewrite diag_val_off by (rewrite L; auto). symmetry. apply rsum_zero. intros k Hk.
      destruct (list_eqb js (repeat k d)) eqn:E; auto. apply list_eqb_spec in E. exfalso; eapply Hne; eauto.
  Qed.
  Lemma diag_bsum (v : list R) r d F : (0 < d)%nat ->
    bsum (repeat r d) (fun js => diag_val v js * F js) = rsum r (fun k => nth k v r0 * F (repeat k d)).
  Proof.
    intros Hd.
    rewrite (bsum_ext _ _ (fun js => rsum r (fun k => (if list_eqb js (repeat k d) then nth k v r0 else r0) * F js))).
    2:{ intros js Hj. rewrite (diag_val_sum v r d) by auto. rewrite rsum_scal_r. auto. }
    rewrite bsum_rsum_exchange. apply rsum_ext. intros k Hk.
    rewrite (bsum_single _ (repeat k d)).
    - rewrite list_eqb_refl. auto.
    - apply valid_repeat; auto.
    - intros js Hj Hne. destruct (list_eqb js (repeat k d)) eqn:E; [|ring]. apply list_eqb_spec in E. congruence.
  Qed.

  (** * elementwise *)
  Lemma vop_same (f : R -> R -> R) a b : length a = length b ->
    exists c, vop f a b = Some c /\ length c = length a /\ forall i, (i < length a)%nat -> nth i c r0 = f (nth i a r0) (nth i b r0).
  Proof.
    intros L. unfold vop. rewrite L, Nat.eqb_refl. eexists; split; [reflexivity|].
    split; [rewrite map_length, combine_length; lia|].
    intros i Hi. rewrite (map_nth_in _ _ _ (r0, r0)) by (rewrite combine_length; lia).
    rewrite combine_nth by auto. auto.
  Qed.
  Lemma vop_error (f : R -> R -> R) a b : length a <> length b -> length a <> 1%nat -> length b <> 1%nat -> vop f a b = None.
  Proof.
    intros H1 H2 H3. unfold vop. rewrite (proj2 (Nat.eqb_neq _ _) H1).
    destruct a as [|? [|? ?]], b as [|? [|? ?]]; simpl in *; auto; lia.
  Qed.
  Lemma diag_val_ext (a b : list R) (g : R -> R) is n : g r0 = r0 ->
    (forall i, (i < n)%nat -> nth i b r0 = g (nth i a r0)) -> valid (repeat n (length is)) is -> is <> [] ->
    diag_val b is = g (diag_val a is).
  Proof.
    intros H0 H Hv Hne. destruct is as [|i0 is]; [congruence|].
    destruct (diag_dec (i0 :: is)) as [[i He]|Hn].
    - rewrite He in Hv |- *. rewrite repeat_length in Hv. apply valid_repeat_inv in Hv; [|simpl; lia].
      rewrite !diag_val_repeat by (simpl; lia). auto.
    - rewrite !diag_val_off; auto.
  Qed.
  Lemma diag_val_ext2 (a b c : list R) (f : R -> R -> R) is n : f r0 r0 = r0 ->
    (forall i, (i < n)%nat -> nth i c r0 = f (nth i a r0) (nth i b r0)) -> valid (repeat n (length is)) is -> is <> [] ->
    diag_val c is = f (diag_val a is) (diag_val b is).
  Proof.
    intros H0 H Hv Hne. destruct is as [|i0 is]; [congruence|].
    destruct (diag_dec (i0 :: is)) as [[i He]|Hn].
    - rewrite He in Hv |- *. rewrite repeat_length in Hv. apply valid_repeat_inv in Hv; [|simpl; lia].
      rewrite !diag_val_repeat by (simpl; lia). auto.
    - rewrite !diag_val_off; auto.
  Qed.
  Lemma dt_full_get (x : dt R) is : (0 < dt_order x)%nat -> valid (repeat (length (dt_data x)) (dt_order x)) is ->
    get (dt_full x) is = diag_val (dt_data x) is.
  Proof. intros Ho Hv. apply ft_diag_spec; auto. Qed.
  Lemma dt_full_shape (x : dt R) : (0 < dt_order x)%nat -> shape (dt_full x) = repeat (length (dt_data x)) (dt_order x).
  Proof. intros Ho. apply ft_diag_spec; auto. Qed.
  Lemma valid_repeat_ne n d (is : list nat) : (0 < d)%nat -> valid (repeat n d) is -> valid (repeat n (length is)) is /\ is <> [].
  Proof.
    intros Hd Hv. pose proof (valid_length _ _ Hv) as L. rewrite repeat_length in L. rewrite L. split; auto.
    intros ->. simpl in L. lia.
  Qed.

  Lemma dt_binop (f : R -> R -> R) (x y : dt R) : f r0 r0 = r0 -> (0 < dt_order x)%nat -> dt_order y = dt_order x ->
    length (dt_data x) = length (dt_data y) ->
    exists z, (let* d := vop f (dt_data x) (dt_data y) in Some (dt_make d (dt_order x))) = Some z /\
      tensor_is (dt_full z) (shape (dt_full x)) (fun is => f (get (dt_full x) is) (get (dt_full y) is)).
  Proof.
    intros H0 Ho Hoy L. destruct (vop_same f _ _ L) as [c [Hc [Lc Hn]]]. rewrite Hc. cbn [bind].
    eexists; split; [reflexivity|]. rewrite dt_full_shape by auto. split.
    - rewrite dt_full_shape by auto. cbn [dt_data dt_order dt_make]. congruence.
    - intros is Hv. destruct (valid_repeat_ne _ _ _ Ho Hv) as [Hv' Hne].
      rewrite !dt_full_get; auto; cbn [dt_data dt_order dt_make]; rewrite ?Lc, ?Hoy, <- ?L; auto.
      apply diag_val_ext2 with (n := length (dt_data x)); auto.
  Qed.
  Lemma dt_add_spec (x y : dt R) : (0 < dt_order x)%nat -> dt_order y = dt_order x ->
    length (dt_data x) = length (dt_data y) ->
    exists z, dt_add x y = Some z /\
      tensor_is (dt_full z) (shape (dt_full x)) (fun is => get (dt_full x) is + get (dt_full y) is).
  Proof. apply dt_binop. ring. Qed.
  Lemma dt_sub_spec (x y : dt R) : (0 < dt_order x)%nat -> dt_order y = dt_order x ->
    length (dt_data x) = length (dt_data y) ->
    exists z, dt_sub x y = Some z /\
      tensor_is (dt_full z) (shape (dt_full x)) (fun is => get (dt_full x) is - get (dt_full y) is).
  Proof. apply dt_binop. ring. Qed.
  Lemma dt_mul_spec (x y : dt R) : (0 < dt_order x)%nat -> dt_order y = dt_order x ->
    length (dt_data x) = length (dt_data y) ->
    exists z, dt_mul x y = Some z /\
      tensor_is (dt_full z) (shape (dt_full x)) (fun is => get (dt_full x) is * get (dt_full y) is).
  Proof. apply dt_binop. ring. Qed.
  Lemma dt_neg_spec (x : dt R) : (0 < dt_order x)%nat ->
    tensor_is (dt_full (dt_neg x)) (shape (dt_full x)) (fun is => - get (dt_full x) is).
  Proof.
    intros Ho. rewrite dt_full_shape by auto. split.
    - rewrite dt_full_shape by auto. cbn [dt_neg dt_data dt_order dt_make]. rewrite map_length; auto.
    - intros is Hv. destruct (valid_repeat_ne _ _ _ Ho Hv) as [Hv' Hne].
      rewrite !dt_full_get; auto; cbn [dt_neg dt_data dt_order dt_make]; rewrite ?map_length; auto.
      apply diag_val_ext with (g := ropp) (n := length (dt_data x)); auto; [ring|].
      intros i Hi. apply map_nth_in; auto.
  Qed.

  (** * vectors *)
  Lemma rows_prod_ok (vs : list (list R)) n : vs <> [] -> Forall (fun v => length v = n) vs ->
    rows_prod vs = Some (map (fun i => lprod vs (fun w => nth i w r0)) (seq 0 n)).
  Proof.
    intros Hne Hf. destruct vs as [|v vs]; [congruence|]. cbn [rows_prod]. inversion Hf as [|? ? Hv Hvs]; subst.
    assert (E : forallb (fun w => length w =? length v) vs = true).
    { apply forallb_forall. rewrite Forall_forall in Hvs. intros w Hw. apply Nat.eqb_eq; auto. }
    rewrite E. auto.
  Qed.
  Lemma lfactors_repeat (vs : list (list R)) i : lfactors vs (repeat i (length vs)) = lprod vs (fun w => nth i w r0).
  Proof. unfold lfactors. induction vs as [|v vs IH]; simpl; auto. rewrite IH; auto. Qed.
  Lemma rows_prod_vop (v : list R) (vs : list (list R)) n : length v = n ->
    exists c, vop rmul v (map (fun i => lprod vs (fun w => nth i w r0)) (seq 0 n)) = Some c /\ length c = n /\
      forall i, (i < n)%nat -> nth i c r0 = nth i v r0 * lfactors vs (repeat i (length vs)).
  Proof.
    intros L. destruct (vop_same rmul v (map (fun i => lprod vs (fun w => nth i w r0)) (seq 0 n))) as [c [Hc [Lc Hn]]].
    { rewrite map_length, seq_length; auto. }
    exists c. split; auto. split; [lia|]. intros i Hi. rewrite Hn by lia. rewrite nth_map_seq by auto.
    rewrite lfactors_repeat. auto.
  Qed.

  Lemma sel_repeat_const (n d : nat) ks : Forall (fun k => (k < d)%nat) ks -> sel 0%nat (repeat n d) ks = repeat n (length ks).
  Proof. apply sel_repeat. Qed.
  Lemma asm_repeat_iff n dims js is i : NoDup dims -> Forall (fun k => (k < n)%nat) dims -> length js = length dims ->
    length is = length (compl n dims) ->
    (asm n dims js is = repeat i n <-> js = repeat i (length dims) /\ is = repeat i (length (compl n dims))).
  Proof.
    intros Hd Hf Lj Li. split.
    - intros H. split.
      + rewrite <- (sel_asm n dims js is) by auto. rewrite H. apply sel_repeat; auto.
      + rewrite <- (sel_asm_compl n dims js is) by auto. rewrite H. apply sel_repeat. apply compl_lt.
    - intros [-> ->]. apply asm_ext; auto.
      + apply repeat_length.
      + intros m Hm. rewrite Forall_nth' with (d := 0%nat) in Hf. specialize (Hf m Hm).
        rewrite !nth_repeat_in by auto. auto.
      + intros m Hm. pose proof (compl_lt n dims) as Hc. rewrite Forall_nth' with (d := 0%nat) in Hc. specialize (Hc m Hm).
        rewrite !nth_repeat_in by auto. auto.
  Qed.
  (** contraction of the dense diagonal tensor with vectors along any dimensions *)
  Lemma diag_contract (v : list R) n d dims (F : list nat -> R) is : NoDup dims -> Forall (fun k => (k < d)%nat) dims ->
    dims <> [] -> (length dims < d)%nat -> valid (repeat n (length (compl d dims))) is ->
    bsum (repeat n (length dims)) (fun js => diag_val v (asm d dims js is) * F js) =
    diag_val (map (fun i => nth i v r0 * F (repeat i (length dims))) (seq 0 n)) is.
  Proof.
    intros Hd Hf Hne Hlt Hv. pose proof (valid_length _ _ Hv) as Li. rewrite repeat_length in Li.
    pose proof (compl_length d dims Hd Hf) as Lc.
    assert (Hk : (0 < length dims)%nat) by (destruct dims; simpl; [congruence|lia]).
    destruct (diag_dec is) as [[i He]|Hn].
    - rewrite Li in He. assert (Hi : (i < n)%nat) by (rewrite He in Hv; apply valid_repeat_inv in Hv; auto; lia).
      rewrite (bsum_single _ (repeat i (length dims))).
      + rewrite (proj2 (asm_repeat_iff d dims _ _ i Hd Hf (repeat_length _ _) Li) (conj eq_refl He)).
        rewrite He, !diag_val_repeat by lia. rewrite nth_map_seq by auto. auto.
      + apply valid_repeat; auto.
      + intros js Hj Hjne. assert (Lj : length js = length dims) by (rewrite (Forall2_length' _ _ _ Hj), repeat_length; auto).
        rewrite diag_val_off; [ring|]. intros i' He'. rewrite asm_length in He'.
        apply asm_repeat_iff in He'; auto. destruct He' as [-> He2]. apply Hjne. f_equal.
        rewrite He in He2. destruct (length (compl d dims)) eqn:E; [lia|]. simpl in He2. inversion He2; auto.
    - rewrite diag_val_off by auto. apply bsum_zero. intros js Hj.
      assert (Lj : length js = length dims) by (rewrite (Forall2_length' _ _ _ Hj), repeat_length; auto).
      rewrite diag_val_off; [ring|]. intros i He. rewrite asm_length in He.
      apply asm_repeat_iff in He; auto. destruct He as [_ He]. apply (Hn i). rewrite Li. auto.
  Qed.

  Theorem dt_tvp_spec (x : dt R) vs dims : NoDup dims -> Forall (fun k => (k < dt_order x)%nat) dims ->
    vs <> [] -> length vs = length dims -> (length dims < dt_order x)%nat -> Forall (fun v => length v = length (dt_data x)) vs ->
    exists z, dt_tensor_vector_product x vs = Some (inr z) /\
      tensor_is (dt_full z) (sel 0%nat (shape (dt_full x)) (compl (dt_order x) dims))
        (fun is => bsum (sel 0%nat (shape (dt_full x)) dims) (fun js => get (dt_full x) (asm (dt_order x) dims js is) * lfactors vs js)).
  Proof.
    intros Hd Hf Hne Hl Hlt Hvs. unfold dt_tensor_vector_product. set (n := length (dt_data x)) in *. set (d := dt_order x) in *.
    rewrite (rows_prod_ok vs n) by auto. cbn [bind].
    destruct (rows_prod_vop (dt_data x) vs n eq_refl) as [c [Hc [Lc Hn]]]. rewrite Hc. cbn [bind].
    rewrite Hl, (proj2 (Nat.eqb_neq (length dims) d)), (proj2 (Nat.ltb_lt (length dims) d)) by lia.
    eexists; split; [reflexivity|].
    pose proof (compl_length d dims Hd Hf) as Lcm.
    rewrite dt_full_shape by (fold d; lia). fold n d. rewrite !sel_repeat by (auto; apply compl_lt). split.
    - rewrite dt_full_shape; cbn [dt_order dt_make dt_data]; [|lia]. rewrite Lc. f_equal. lia.
    - intros is Hv. pose proof (valid_length _ _ Hv) as Li. rewrite repeat_length in Li.
      rewrite dt_full_get; cbn [dt_order dt_make dt_data]; [|lia|].
      2:{ rewrite Lc. replace (d - length dims)%nat with (length (compl d dims)) by lia. auto. }
      rewrite (bsum_ext _ _ (fun js => diag_val (dt_data x) (asm d dims js is) * lfactors vs js)).
      2:{ intros js Hj. rewrite dt_full_get; auto; [fold d; lia|]. fold n d.
          pose proof (valid_asm (repeat n d) dims js is) as VA. rewrite repeat_length in VA. apply VA; auto;
            rewrite sel_repeat; auto; apply compl_lt. }
      rewrite diag_contract; auto; [|destruct dims; [destruct vs; simpl in *; congruence|congruence]].
      destruct (valid_repeat_ne n (length (compl d dims)) is) as [Hv' Hne']; [lia|auto|].
      apply (diag_val_ext (map (fun i => nth i (dt_data x) r0 * lfactors vs (repeat i (length dims))) (seq 0 n)) c (fun a => a) is n); auto.
      intros i Hi. rewrite Hn by auto. rewrite nth_map_seq by auto. rewrite Hl; auto.
  Qed.
  Theorem dt_tvp_all (x : dt R) vs : (0 < dt_order x)%nat ->
    length vs = dt_order x -> Forall (fun v => length v = length (dt_data x)) vs ->
    dt_tensor_vector_product x vs = Some (inl (bsum (shape (dt_full x)) (fun is => get (dt_full x) is * lfactors vs is))).
  Proof.
    intros Ho Hl Hvs. unfold dt_tensor_vector_product. set (n := length (dt_data x)) in *.
    rewrite (rows_prod_ok vs n) by (auto; intros ->; simpl in *; lia). cbn [bind].
    destruct (rows_prod_vop (dt_data x) vs n eq_refl) as [c [Hc [Lc Hn]]]. rewrite Hc. cbn [bind].
    rewrite Hl, Nat.eqb_refl. do 2 f_equal. rewrite dt_full_shape by auto. fold n.
    rewrite (bsum_ext _ _ (fun is => diag_val (dt_data x) is * lfactors vs is)).
    2:{ intros is Hv. rewrite dt_full_get; auto. }
    rewrite diag_bsum by auto. rewrite <- (map_seq_nth r0 c), Lc, lsum_map, lsum_seq. apply rsum_ext.
    intros i Hi. rewrite Hn by auto. rewrite Hl. auto.
  Qed.
  Theorem dt_tdmp_spec (x : dt R) vs : (0 < dt_order x)%nat -> length vs = dt_order x ->
    Forall (fun v => length v = length (dt_data x)) vs ->
    exists z, dt_tensor_diagonal_matrix_product x vs = Some z /\
      tensor_is (dt_full z) (shape (dt_full x)) (fun is => get (dt_full x) is * lfactors vs is).
  Proof.
    intros Ho Hl Hvs. unfold dt_tensor_diagonal_matrix_product. set (n := length (dt_data x)) in *.
    rewrite (rows_prod_ok vs n) by (auto; intros ->; simpl in *; lia). cbn [bind].
    destruct (vop_same rmul (map (fun i => lprod vs (fun w => nth i w r0)) (seq 0 n)) (dt_data x)) as [c [Hc [Lc Hn]]].
    { rewrite map_length, seq_length; auto. }
    rewrite map_length, seq_length in *. rewrite Hc. cbn [bind]. eexists; split; [reflexivity|].
    rewrite dt_full_shape by auto. fold n. split.
    - rewrite dt_full_shape by auto. cbn [dt_order dt_make dt_data]. congruence.
    - intros is Hv. rewrite !dt_full_get; auto; cbn [dt_order dt_make dt_data]; [|rewrite Lc; auto].
      pose proof (valid_length _ _ Hv) as Li. rewrite repeat_length in Li.
      destruct (diag_dec is) as [[i He]|Hne].
      + rewrite Li in He. rewrite He in Hv |- *. apply valid_repeat_inv in Hv; auto.
        rewrite !diag_val_repeat by auto. rewrite Hn by auto. rewrite nth_map_seq by auto.
        rewrite <- Hl, lfactors_repeat. simpl. ring.
      + rewrite !diag_val_off by auto. ring.
  Qed.

  (** * dot, cat, kron *)
  Theorem dt_dot_spec (x y : dt R) : (0 < dt_order x)%nat -> dt_order y = dt_order x ->
    length (dt_data x) = length (dt_data y) ->
    dt_dot x y = Some (bsum (shape (dt_full x)) (fun is => get (dt_full x) is * get (dt_full y) is)).
  Proof.
    intros Ho Hoy L. unfold dt_dot. destruct (vop_same rmul _ _ L) as [c [Hc [Lc Hn]]]. rewrite Hc. cbn [bind]. f_equal.
    rewrite dt_full_shape by auto.
    rewrite (bsum_ext _ _ (fun is => diag_val (dt_data x) is * diag_val (dt_data y) is)).
    2:{ intros is Hv. rewrite !dt_full_get; auto; rewrite ?Hoy, <- ?L; auto. }
    rewrite diag_bsum by auto. rewrite <- (map_seq_nth r0 c), Lc, lsum_map, lsum_seq. apply rsum_ext.
    intros i Hi. rewrite Hn by auto. rewrite diag_val_repeat; auto.
  Qed.
  Lemma inb_seq k n : (k < n)%nat -> inb k (seq 0 n) = true.
  Proof. intros H. apply inb_spec, in_seq. lia. Qed.
  Lemma cat_shape_all n m d : cat_shape (seq 0 d) (repeat n d) (repeat m d) = repeat (n + m)%nat d.
  Proof.
    unfold cat_shape. rewrite repeat_length. apply nth_ext' with (d := 0%nat).
    - rewrite map_length, seq_length, repeat_length; auto.
    - intros k Hk. rewrite map_length, seq_length in Hk. rewrite nth_map_seq by auto. simpl.
      rewrite inb_seq by auto. rewrite !nth_repeat_in; auto.
  Qed.
  Theorem dt_cat_spec (x y : dt R) : (0 < dt_order x)%nat -> dt_order y = dt_order x ->
    tensor_is (dt_full (dt_cat x y)) (cat_shape (seq 0 (dt_order x)) (shape (dt_full x)) (shape (dt_full y)))
      (cat_entry (seq 0 (dt_order x)) (dt_full x) (dt_full y)).
  Proof.
    intros Ho Hoy. set (d := dt_order x) in *. set (n := length (dt_data x)). set (m := length (dt_data y)).
    rewrite !dt_full_shape by (rewrite ?Hoy; auto). rewrite Hoy. fold d n m. rewrite cat_shape_all. split.
    - rewrite dt_full_shape by auto. cbn [dt_cat dt_make dt_data dt_order]. rewrite app_length. auto.
    - intros is Hv. pose proof (valid_length _ _ Hv) as Li. rewrite repeat_length in Li.
      rewrite dt_full_get; auto; cbn [dt_cat dt_make dt_data dt_order]; [|rewrite app_length; auto].
      unfold cat_entry. rewrite dt_full_shape by auto. fold d n. rewrite repeat_length.
      assert (Hnth : forall k, (k < d)%nat -> nth k (repeat n d) 0%nat = n).
      { intros k Hk. rewrite (nth_indep _ 0%nat n) by (rewrite repeat_length; auto). apply nth_repeat. }
      assert (E1 : forallb (fun k => (nth k is 0 <? nth k (repeat n d) 0)%nat) (seq 0 d) = forallb (fun i => (i <? n)%nat) is).
      { apply eq_true_iff_eq. rewrite !forallb_forall. split.
        - intros H i Hi. apply In_nth with (d := 0%nat) in Hi as [k [Hk He]]. rewrite Li in Hk.
          specialize (H k ltac:(apply in_seq; lia)). rewrite Hnth, He in H; auto.
        - intros H k Hk. apply in_seq in Hk. rewrite Hnth by lia. apply H. apply nth_In. lia. }
      assert (E2 : forallb (fun k => (nth k (repeat n d) 0 <=? nth k is 0)%nat) (seq 0 d) = forallb (fun i => (n <=? i)%nat) is).
      { apply eq_true_iff_eq. rewrite !forallb_forall. split.
        - intros H i Hi. apply In_nth with (d := 0%nat) in Hi as [k [Hk He]]. rewrite Li in Hk.
          specialize (H k ltac:(apply in_seq; lia)). rewrite Hnth, He in H; auto.
        - intros H k Hk. apply in_seq in Hk. rewrite Hnth by lia. apply H. apply nth_In. lia. }
      assert (E3 : map (fun k => if inb k (seq 0 d) then (nth k is 0 - nth k (repeat n d) 0)%nat else nth k is 0%nat) (seq 0 d)
                   = map (fun i => (i - n)%nat) is).
      { apply nth_ext' with (d := 0%nat); [rewrite !map_length, seq_length; auto|].
        intros k Hk. rewrite map_length, seq_length in Hk. rewrite nth_map_seq by auto. simpl. rewrite inb_seq, Hnth by auto.
        rewrite (map_nth_in _ _ _ 0%nat) by lia. auto. }
      rewrite E1, E2, E3. clear E1 E2 E3.
      assert (Hall : forall is', length is' = d -> forallb (fun i => (i <? n)%nat) is' = true -> valid (repeat n d) is').
      { intros is' L' H. rewrite forallb_forall in H. apply valid_intro; [rewrite repeat_length; auto|].
        rewrite repeat_length. intros k Hk. rewrite Hnth by auto. apply Nat.ltb_lt. apply H. apply nth_In. lia. }
      assert (Hvy : forallb (fun i => (n <=? i)%nat) is = true -> valid (repeat m d) (map (fun i => (i - n)%nat) is)).
      { intros H. rewrite forallb_forall in H. apply valid_intro; [rewrite map_length, repeat_length; auto|].
        rewrite repeat_length. intros k Hk. rewrite (map_nth_in _ _ _ 0%nat) by lia.
        pose proof (valid_nth _ _ k Hv) as Hk'. rewrite repeat_length in Hk'. specialize (Hk' Hk).
        rewrite nth_repeat_in in Hk' by auto.
        rewrite nth_repeat_in by auto.
        specialize (H (nth k is 0%nat) ltac:(apply nth_In; lia)). apply Nat.leb_le in H. lia. }
      destruct (diag_dec is) as [[i He]|Hne].
      + rewrite Li in He. assert (Hi : (i < n + m)%nat) by (rewrite He in Hv; apply valid_repeat_inv in Hv; auto).
        rewrite He. rewrite diag_val_repeat by auto.
        destruct (Nat.ltb_spec i n) as [Hlt|Hge].
        * assert (F1 : forallb (fun i => (i <? n)%nat) (repeat i d) = true).
          { apply forallb_forall. intros z Hz. apply repeat_spec in Hz. subst. apply Nat.ltb_lt; auto. }
          assert (F2 : forallb (fun i => (n <=? i)%nat) (repeat i d) = false).
          { destruct d; [lia|]. simpl. rewrite (proj2 (Nat.leb_gt _ _)) by auto. auto. }
          rewrite F1, F2. rewrite dt_full_get; auto; [|apply valid_repeat; auto].
          rewrite diag_val_repeat by auto. rewrite app_nth1 by auto. ring.
        * assert (F1 : forallb (fun i => (i <? n)%nat) (repeat i d) = false).
          { destruct d; [lia|]. simpl. rewrite (proj2 (Nat.ltb_ge _ _)) by auto. auto. }
          assert (F2 : forallb (fun i => (n <=? i)%nat) (repeat i d) = true).
          { apply forallb_forall. intros z Hz. apply repeat_spec in Hz. subst. apply Nat.leb_le; auto. }
          rewrite F1, F2. rewrite map_repeat. rewrite dt_full_get; rewrite ?Hoy; auto; [|apply valid_repeat; fold m; lia].
          rewrite diag_val_repeat by auto. rewrite app_nth2 by auto. fold n. ring.
      + rewrite diag_val_off by auto.
        assert (G1 : (if forallb (fun i => (i <? n)%nat) is then get (dt_full x) is else r0) = r0).
        { destruct (forallb (fun i => (i <? n)%nat) is) eqn:E; auto. rewrite dt_full_get; auto. apply diag_val_off; auto. }
        assert (G2 : (if forallb (fun i => (n <=? i)%nat) is then get (dt_full y) (map (fun i => (i - n)%nat) is) else r0) = r0).
        { destruct (forallb (fun i => (n <=? i)%nat) is) eqn:E; auto. rewrite dt_full_get; rewrite ?Hoy; auto.
          apply diag_val_off. rewrite map_length, Li. intros i He. apply (Hne (i + n)%nat). rewrite Li.
          apply nth_ext' with (d := 0%nat); [rewrite repeat_length; auto|]. intros k Hk.
          rewrite nth_repeat_in by lia.
          assert (Hk2 : nth k (map (fun i => (i - n)%nat) is) 0%nat = i).
          { rewrite He. rewrite nth_repeat_in by lia. auto. }
          rewrite (map_nth_in _ _ _ 0%nat) in Hk2 by auto. rewrite forallb_forall in E.
          specialize (E (nth k is 0%nat) ltac:(apply nth_In; auto)). apply Nat.leb_le in E. lia. }
        rewrite G1, G2. ring.
  Qed.
  Lemma combine_repeat {A B} (a : A) (b : B) k : combine (repeat a k) (repeat b k) = repeat (a, b) k.
  Proof. induction k; simpl; auto. f_equal; auto. Qed.
  Theorem dt_kron_spec (x y : dt R) : (0 < dt_order x)%nat -> dt_order y = dt_order x ->
    exists K, ft_kron (dt_full x) (dt_full y) = Some K /\ teq (dt_full (dt_kron x y)) K.
  Proof.
    intros Ho Hoy. set (d := dt_order x) in *. set (n := length (dt_data x)). set (m := length (dt_data y)).
    destruct (ft_kron_spec (dt_full x) (dt_full y)) as [K [HK [HsK HgK]]].
    { unfold ndim. rewrite !dt_full_shape, !repeat_length by (rewrite ?Hoy; auto). auto. }
    exists K. split; auto.
    rewrite !dt_full_shape in * by (rewrite ?Hoy; auto). rewrite Hoy in *. fold d n m in HsK, HgK.
    rewrite combine_repeat, map_repeat in *. cbn [fst snd] in *.
    assert (Lk : length (dt_data (dt_kron x y)) = (m * n)%nat) by (cbn [dt_kron dt_make dt_data]; rewrite map_length, seq_length; auto).
    assert (Hs : shape (dt_full (dt_kron x y)) = repeat (n * m)%nat d).
    { rewrite dt_full_shape by auto. rewrite Lk. cbn [dt_kron dt_make dt_order]. fold d. f_equal. lia. }
    split; [congruence|]. rewrite Hs. intros is Hv. rewrite HgK by auto.
    rewrite dt_full_get; cbn [dt_kron dt_make dt_order]; auto; [|rewrite Lk; fold d; rewrite Nat.mul_comm; auto].
    pose proof (valid_length _ _ Hv) as Li. rewrite repeat_length in Li.
    assert (Hpos : (0 < n * m)%nat). { destruct d; [lia|]. inversion Hv; subst. lia. }
    assert (Hm : (m <> 0)%nat) by nia.
    assert (Hic : forall is, length is = d -> map (fun p => (fst p / snd p)%nat) (combine is (repeat m d)) = map (fun i => (i / m)%nat) is /\
                  map (fun p => (fst p mod snd p)%nat) (combine is (repeat m d)) = map (fun i => (i mod m)%nat) is).
    { clear. clearbody d m. intros is. revert d. induction is as [|i is IH]; intros d L; simpl in *; auto. destruct d as [|d]; [lia|]. simpl.
      destruct (IH d) as [-> ->]; auto. }
    destruct (Hic is Li) as [-> ->].
    assert (Hlt : forall i, In i is -> (i < n * m)%nat).
    { intros i Hi. apply In_nth with (d := 0%nat) in Hi as [k [Hk <-]]. pose proof (valid_nth _ _ k Hv) as H.
      rewrite repeat_length in H. specialize (H ltac:(lia)). rewrite nth_repeat_in in H by lia. auto. }
    rewrite !dt_full_get; rewrite ?Hoy; auto.
    2:{ fold d m. apply valid_intro; [rewrite map_length, repeat_length; auto|]. rewrite repeat_length. intros k Hk.
        rewrite (map_nth_in _ _ _ 0%nat) by lia. rewrite nth_repeat_in by auto.
        apply Nat.mod_upper_bound; auto. }
    2:{ fold d n. apply valid_intro; [rewrite map_length, repeat_length; auto|]. rewrite repeat_length. intros k Hk.
        rewrite (map_nth_in _ _ _ 0%nat) by lia. rewrite nth_repeat_in by auto.
        apply Nat.div_lt_upper_bound; auto. rewrite Nat.mul_comm. apply Hlt. apply nth_In. lia. }
    destruct (diag_dec is) as [[i He]|Hne].
    - rewrite Li in He. rewrite He. rewrite !map_repeat, !diag_val_repeat by auto.
      assert (Hi : (i < n * m)%nat) by (apply Hlt; rewrite He; destruct d; [lia|simpl; auto]).
      cbn [dt_data dt_kron dt_make]. fold n m. rewrite nth_map_seq by lia. cbn [ind2subF nth].
      rewrite Nat.div_1_r || idtac. rewrite (Nat.mod_small (i / m) n) by (apply Nat.div_lt_upper_bound; auto; lia). simpl. ring.
    - rewrite diag_val_off by auto. symmetry.
      destruct (diag_dec (map (fun i => (i / m)%nat) is)) as [[a Ha]|Hna]; [|rewrite (diag_val_off _ _ Hna); ring].
      destruct (diag_dec (map (fun i => (i mod m)%nat) is)) as [[b Hb]|Hnb]; [|rewrite (diag_val_off _ _ Hnb); ring].
      exfalso. apply (Hne (m * a + b)%nat). rewrite map_length in Ha, Hb. apply const_list, Forall_forall. intros i Hi.
      apply In_nth with (d := 0%nat) in Hi as [k [Hk <-]].
      assert (A1 : (nth k is 0 / m)%nat = a).
      { pose proof (f_equal (fun l => nth k l 0%nat) Ha) as H. cbn beta in H. rewrite (map_nth_in _ _ _ 0%nat) in H by auto.
        rewrite H. rewrite nth_repeat_in by auto. auto. }
      assert (B1 : (nth k is 0 mod m)%nat = b).
      { pose proof (f_equal (fun l => nth k l 0%nat) Hb) as H. cbn beta in H. rewrite (map_nth_in _ _ _ 0%nat) in H by auto.
        rewrite H. rewrite nth_repeat_in by auto. auto. }
      rewrite (Nat.div_mod (nth k is 0%nat) m) by auto. congruence.
  Qed.

  (** * evaluation *)
  Theorem dt_eval_at_indices_spec (x : dt R) rows : (0 < dt_order x)%nat ->
    Forall (valid (shape (dt_full x))) rows ->
    dt_eval_at_indices x rows = Some (map (get (dt_full x)) rows).
  Proof.
    intros Ho H. unfold dt_eval_at_indices. apply omap_some. intros r Hr.
    rewrite Forall_forall in H. specialize (H r Hr). rewrite dt_full_shape in H by auto.
    rewrite dt_full_get by auto. pose proof (valid_length _ _ H) as L. rewrite repeat_length in L.
    unfold diag_val. destruct (forallb (fun j => j =? nth 0 r 0%nat) r) eqn:E; auto.
    apply forallb_eq_spec in E. rewrite L in E.
    assert (Hi : (nth 0 r 0 < length (dt_data x))%nat).
    { pose proof (valid_nth _ _ 0%nat H) as H0. rewrite repeat_length in H0. specialize (H0 Ho).
      rewrite nth_repeat_in in H0 by auto. auto. }
    rewrite (proj2 (Nat.ltb_lt _ _) Hi). auto.
  Qed.
  Theorem dt_eval_diag_all (x : dt R) : (0 < dt_order x)%nat ->
    dt_eval_diag x None = Some (inl (map (fun i => get (dt_full x) (repeat i (dt_order x))) (seq 0 (length (dt_data x))))).
  Proof.
    intros Ho. unfold dt_eval_diag. do 2 f_equal. rewrite <- (map_seq_nth r0 (dt_data x)) at 1.
    apply map_ext_in. intros i Hi. apply in_seq in Hi. rewrite dt_full_get; auto.
    - rewrite diag_val_repeat; auto.
    - apply valid_repeat; lia.
  Qed.
  Theorem dt_transpose_spec (x : dt R) p : (0 < dt_order x)%nat -> is_perm (dt_order x) p ->
    exists B, ft_transpose (dt_full x) p = Some B /\ teq (dt_full (dt_transpose x p)) B.
  Proof.
    intros Ho Hp. destruct (ft_transpose_spec (dt_full x) p) as [B [HB [HsB [_ Hg]]]].
    { unfold ndim. rewrite dt_full_shape, repeat_length by auto. auto. }
    exists B. split; auto. rewrite dt_full_shape in HsB by auto.
    assert (Hf : Forall (fun k => (k < dt_order x)%nat) p) by (apply Forall_forall; intros k Hk; eapply is_perm_in; eauto).
    rewrite sel_repeat, (is_perm_length _ _ Hp) in HsB by auto.
    split; [rewrite dt_full_shape by auto; cbn [dt_transpose dt_data dt_order]; congruence|].
    rewrite dt_full_shape by auto. cbn [dt_transpose dt_data dt_order]. intros is Hv.
    destruct (Hg is ltac:(rewrite HsB; auto)) as [-> Hv2]. rewrite dt_full_shape in Hv2 by auto.
    rewrite !dt_full_get by auto. cbn [dt_transpose dt_data].
    pose proof (valid_length _ _ Hv) as L. rewrite repeat_length in L.
    pose proof (inv_perm_is_perm _ _ Hp) as Hip.
    destruct (diag_dec is) as [[i He]|Hne].
    - rewrite He, L. rewrite sel_repeat.
      + rewrite inv_perm_length, (is_perm_length _ _ Hp). auto.
      + apply Forall_forall. intros k Hk. eapply is_perm_in; eauto.
    - rewrite (diag_val_off _ is) by auto. symmetry. apply diag_val_off. intros i He. apply (Hne i).
      rewrite sel_length, inv_perm_length, (is_perm_length _ _ Hp) in He. rewrite L.
      rewrite <- (sel_inv_perm' 0%nat (dt_order x) p is) by auto. rewrite He. rewrite sel_repeat by auto.
      rewrite (is_perm_length _ _ Hp). auto.
  Qed.

  (** * metrics *)
  Lemma dt_metric_ok (ms : list (nd R)) n1 n2 : ms <> [] -> Forall (fun M => shape M = [n1; n2]) ms ->
    exists P, dt_metric ms n1 n2 (length ms) = Some P /\
      forall i j, (i < n1)%nat -> (j < n2)%nat ->
        P i j = lprod ms (fun M => get M [((i + n1 * j) / n2)%nat; ((i + n1 * j) mod n2)%nat]).
  Proof.
    intros Hne Hf. destruct ms as [|M ms]; [congruence|]. unfold dt_metric.
    assert (Hsz : forall N, In N (M :: ms) -> np_size N = (n1 * n2)%nat).
    { rewrite Forall_forall in Hf. intros N HN. unfold np_size. rewrite Hf by auto. simpl. lia. }
    assert (E : forallb (fun N : nd R => np_size N =? np_size M) ms = true).
    { apply forallb_forall. intros N HN. apply Nat.eqb_eq. rewrite !Hsz; simpl; auto. }
    rewrite E. cbn [negb].
    unfold np_reshapeF. cbn [shape]. rewrite (Hsz M) by (simpl; auto).
    rewrite (proj2 (Nat.eqb_eq (prodn [n1; n2; length (M :: ms)]) (prodn [(n1 * n2)%nat; 1%nat; length (M :: ms)]))) by (cbn [prodn fold_right]; cbv [prodn fold_right]; lia).
    cbn [bind]. eexists; split; [reflexivity|]. intros i j Hi Hj. cbn [get].
    set (L := M :: ms) in *.
    rewrite <- (map_seq_nth (scalar r0) L) at 2. rewrite lprod_map. apply lprod_ext. intros k Hk. apply in_seq in Hk.
    assert (Ek : ind2subF [(n1 * n2)%nat; 1%nat; length L] (sub2indF [n1; n2; length L] [i; j; k]) = [(i + n1 * j)%nat; 0%nat; k]).
    { replace (sub2indF [n1; n2; length L] [i; j; k]) with (sub2indF [(n1 * n2)%nat; 1%nat; length L] [(i + n1 * j)%nat; 0%nat; k]).
      - apply ind2subF_sub2indF. apply Forall2_cons; [nia|]. apply Forall2_cons; [lia|]. apply Forall2_cons; [lia|]. constructor.
      - cbn [sub2indF]. nia. }
    rewrite Ek. cbn [nth]. 
    assert (HN : In (nth k L (scalar r0)) L) by (apply nth_In; lia).
    rewrite Forall_forall in Hf. rewrite (Hf _ HN). f_equal. unfold ind2subC. cbn [rev app ind2subF].
    cbn [rev app]. assert (n2 <> 0)%nat by lia. rewrite (Nat.mod_small ((i + n1 * j) / n2) n1); auto.
    apply Nat.div_lt_upper_bound; auto. nia.
  Qed.
  (** what the code computes *)
  Lemma dt_drom_value (x y : dt R) (ms : list (nd R)) : ms <> [] -> length ms = dt_order x -> (0 < dt_order y)%nat ->
    dt_shape x = repeat (length (dt_data x)) (dt_order x) -> dt_shape y = repeat (length (dt_data y)) (dt_order y) ->
    Forall (fun M => shape M = [length (dt_data x); length (dt_data y)]) ms ->
    dt_dot_with_rank_one_metric x y ms =
      Some (rsum (length (dt_data x)) (fun i => rsum (length (dt_data y)) (fun j =>
        nth i (dt_data x) r0 * nth j (dt_data y) r0 *
        lprod ms (fun M => get M [((i + length (dt_data x) * j) / length (dt_data y))%nat;
                                  ((i + length (dt_data x) * j) mod length (dt_data y))%nat])))).
  Proof.
    intros Hne Hl Hoy Hsx Hsy Hf. unfold dt_dot_with_rank_one_metric.
    assert (E1 : nth 0 (dt_shape x) 0%nat = length (dt_data x)).
    { rewrite Hsx. rewrite <- Hl. destruct ms; [congruence|]. auto. }
    assert (E2 : nth 0 (dt_shape y) 0%nat = length (dt_data y)).
    { rewrite Hsy. destruct (dt_order y); [lia|]. auto. }
    rewrite E1, E2, <- Hl. destruct (dt_metric_ok ms _ _ Hne Hf) as [P [HP HPv]]. rewrite HP. cbn [bind].
    rewrite !Nat.eqb_refl. cbn [andb]. f_equal. apply rsum_ext. intros i Hi. rewrite <- rsum_scal_l. apply rsum_ext.
    intros j Hj. rewrite HPv by auto. ring.
  Qed.
End Diag.
