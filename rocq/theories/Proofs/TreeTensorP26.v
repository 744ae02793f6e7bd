(** tensor_vector_product of a tree-based tensor. *)
From Coq Require Import List Arith Lia Bool Sorted Ring Permutation.
From Verif.Base Require Import ListAux CRing Index.
From Verif.Model Require Import Utils Numpy FullTensor DimensionTree TreeBased TreeEval TreeReduce.
From Verif.Spec Require Import TensorSpec TreeSpec TreeTensorSpec.
From Verif.Proofs Require Import NumpyP FullTensorP FullTensorP3 FullTensorP4 FunctionsP DimTreeP TreeTensorP TreeTensorP2 TreeTensorP3 TreeTensorP4 TreeTensorP5 TreeTensorP18 TreeTensorP19 TreeTensorP20 TreeTensorP22 TreeTensorP24 TreeTensorP25.
Import ListNotations.

Section Tvp.
  Context {R : Type} {CR : CRing R}.
  Add Ring Rrt26 : rth.
  Local Open Scope cr_scope.
  Definition row_v (v : nd R) : nd R := ND [1%nat; np_size v] (fun is => get v (ind2subC (shape v) (sub2indC [1%nat; np_size v] is))).
  Lemma rows_omap vs : omap (fun v : nd R => np_reshapeC v [1%nat; np_size v]) vs = Some (map row_v vs).
  Proof.
    apply omap_some. intros v _. unfold np_reshapeC. replace (prodn [1%nat; np_size v] =? prodn (shape v)) with true; auto. symmetry. apply Nat.eqb_eq. unfold np_size. cbn. lia.
  Qed.
  Lemma row_v_get v n j : shape v = [n] -> (j < n)%nat -> get (row_v v) [0%nat; j] = get v [j].
  Proof. intros Hs Hj. cbn [row_v get]. rewrite Hs. f_equal. unfold np_size. rewrite Hs. cbn [prodn fold_right]. rewrite Nat.mul_1_r. cbn. rewrite ?Nat.mul_1_r, ?Nat.add_0_r. rewrite ?Nat.mod_1_r, ?Nat.div_1_r. rewrite ?Nat.mod_small by lia. f_equal. lia. Qed.
  Lemma factors_rows vs : forall is js dims s, (forall k, (k < length dims)%nat -> shape (nth k vs (scalar r0)) = [nth k s 0%nat]) -> length vs = length dims -> length s = length dims -> valid s js ->
    (forall k, In k dims -> nth k is 0%nat = 0%nat) -> factors (map row_v vs) (sel 0%nat is dims) js = vfactors vs js.
  Proof.
    induction vs as [|v vs IH]; intros is js dims s Hs Ls Ld Hv H0; auto. destruct dims as [|d dims]; [discriminate|]. destruct s as [|n s]; [discriminate|].
    inversion Hv as [|j ? js' ? Hj Hv']; subst. unfold sel. cbn [map factors vfactors]. fold (sel 0%nat is dims). rewrite (IH is js' dims s); auto.
    - rewrite (H0 d) by (simpl; auto). rewrite (row_v_get v n); auto. apply (Hs 0%nat). simpl; lia.
    - intros k Hk. apply (Hs (S k)). simpl; lia.
    - intros k Hk. apply H0; simpl; auto.
  Qed.
  Variables (X : tbt R) (r : nat) (A : nd R) (vs : list (nd R)) (ds : list nat).
  Hypothesis O : tb_ok X r.
  Hypothesis H2 : (2 <= tb_order X)%nat.
  Hypothesis HA : tb_full X = Some A.
  Hypothesis HN : NoDup ds.
  Hypothesis HF : Forall (fun k => (k < tb_order X)%nat) ds.
  Hypothesis HL : length vs = length ds.
  Hypothesis HS : forall k, (k < length ds)%nat -> shape (nth k vs (scalar r0)) = [nth (nth k ds 0%nat) (shape A) 0%nat].
  (** the tensor contracted with rows *)
  Lemma tvp_rows : exists Y T, tb_tmp X (map row_v vs) (Some ds) = Some Y /\ tb_ok Y r /\ ttree Y = ttree X /\ tb_full Y = Some T /\
    shape T = put ds (repeat 1%nat (length ds)) (shape A) /\
    forall is, valid (shape T) is -> get T is = bsum (sel 0%nat (shape A) ds) (fun js => get A (put ds js is) * vfactors vs js).
  Proof.
    destruct (full_inv X r A O H2 HA) as [SA GA]. assert (LS : length (tb_shape X) = tb_order X) by apply tb_shape_length.
    assert (HF' : Forall (fun k => (k < length (shape A))%nat) ds).
    { apply Forall_forall. intros k Hk. rewrite Forall_forall in HF. specialize (HF k Hk). rewrite SA, app_length. lia. }
    assert (Hones : map (fun M : nd R => nth 0 (shape M) 0%nat) (map row_v vs) = repeat 1%nat (length ds)).
    { rewrite map_map. cbn. rewrite <- HL. clear. induction vs; simpl; auto. f_equal; auto. }
    destruct (tb_tmp_full X r (map row_v vs) ds A O H2 HA HN HF) as (Y & EY & OY & TY & T & ET & ST & GT).
    - rewrite map_length; auto.
    - intros k Hk. exists 1%nat. split; [lia|]. rewrite map_nth_in with (da := scalar r0) by lia. cbn [row_v shape]. unfold np_size. rewrite HS by auto. cbn. rewrite Nat.mul_1_r. auto.
    - exists Y, T. split; auto. split; auto. split; auto. split; auto. rewrite Hones in *. split; auto. rewrite ST. intros is Hi. rewrite GT by auto. apply bsum_ext. intros js Hj. f_equal.
      apply factors_rows with (s := sel 0%nat (shape A) ds); auto.
      + intros k Hk. rewrite HS, sel_nth; auto.
      + apply sel_length.
      + intros k Hk. pose proof (proj1 (Forall_forall _ _) HF' k Hk) as Hkl. pose proof (valid_nth _ _ k Hi) as Hn. rewrite put_length in Hn. specialize (Hn Hkl). destruct (index_of_nth ds k Hk) as [Q1 Q2].
        rewrite <- Q2 in Hn at 2. rewrite put_nth_in in Hn; auto; [rewrite nth_rep in Hn by auto; lia|rewrite repeat_length; auto|rewrite Q2; auto].
  Qed.
  Theorem tvp_some : (length ds < tb_order X)%nat -> (ndim A = tb_order X \/ (length ds + 2 <= tb_order X)%nat) ->
    exists Z r', tb_tensor_vector_product X vs (Some ds) = Some (inr Z) /\ tb_ok Z r' /\ tb_order Z = (tb_order X - length ds)%nat /\
      returns (tb_full Z) (sel 0%nat (shape A) (compl (ndim A) ds)) (fun is => bsum (sel 0%nat (shape A) ds) (fun js => get A (asm (ndim A) ds js is) * vfactors vs js)).
  Proof.
    intros Hlt Hc. destruct tvp_rows as (Y & T & EY & OY & TY & ET & ST & GT). destruct (full_inv X r A O H2 HA) as [SA GA]. assert (LS : length (tb_shape X) = tb_order X) by apply tb_shape_length.
    assert (OrdY : tb_order Y = tb_order X) by (unfold tb_order; rewrite TY; auto).
    assert (NT : ndim T = ndim A) by (unfold ndim; rewrite ST, put_length; auto).
    assert (HF' : Forall (fun k => (k < ndim A)%nat) ds).
    { apply Forall_forall. intros k Hk. rewrite Forall_forall in HF. specialize (HF k Hk). unfold ndim. rewrite SA, app_length. lia. }
    assert (Lc : forall k, In k ds -> nth k (shape T) 0%nat = 1%nat).
    { intros k Hk. pose proof (proj1 (Forall_forall _ _) HF' k Hk) as Hkl. destruct (index_of_nth ds k Hk) as [Q1 Q2]. rewrite ST. rewrite <- Q2. rewrite put_nth_in; auto; [apply nth_rep; auto|rewrite repeat_length; auto|rewrite Q2; auto]. }
    destruct (squeeze_full Y r T OY) with (ds := ds) as (Z & r' & F & EZ & OZ & OrdZ & _ & EF & SF & GF); auto; try (rewrite OrdY; auto; fail).
    { rewrite NT, OrdY. auto. }
    exists Z, r'. split.
    { unfold tb_tensor_vector_product. rewrite HL, Nat.eqb_refl, rows_omap. cbn [bind]. rewrite EY. cbn [bind]. auto. }
    split; auto. split; [rewrite OrdZ, OrdY; auto|]. exists F. split; auto.
    assert (Hsc : sel 0%nat (shape T) (compl (ndim A) ds) = sel 0%nat (shape A) (compl (ndim A) ds)).
    { unfold sel. apply map_ext_in. intros k Hk. apply in_compl in Hk. rewrite ST, put_nth_out; tauto. }
    rewrite NT in SF, GF. split; [congruence|]. intros is Hi. pose proof (valid_length _ _ Hi) as Li. rewrite sel_length in Li.
    rewrite <- Hsc in Hi. 
    assert (Hva : valid (shape T) (asm (ndim A) ds (repeat 0%nat (length ds)) is)).
    { rewrite <- NT. unfold ndim. apply valid_asm; auto.
      - unfold ndim in NT. rewrite NT. exact HF'.
      - apply valid_intro; [rewrite repeat_length, sel_length; auto|]. rewrite sel_length. intros k Hk. rewrite sel_nth, Lc by (auto; apply nth_In; auto). rewrite nth_rep by auto. lia.
      - fold (ndim T). rewrite NT. exact Hi. }
    rewrite <- (sel_asm_compl (ndim A) ds (repeat 0%nat (length ds)) is) at 1 by auto. rewrite GF, GT by auto. apply bsum_ext. intros js Hj. f_equal. f_equal.
    pose proof (valid_length _ _ Hj) as Lj. rewrite sel_length in Lj. rewrite <- put_asm with (n := ndim A) by (auto; apply asm_length). rewrite sel_asm_compl; auto.
  Qed.
  Theorem tvp_all : length ds = tb_order X -> ndim A = tb_order X ->
    exists B, tb_tensor_vector_product X vs (Some ds) = Some (inl B) /\ shape B = [] /\
      get B [] = bsum (sel 0%nat (shape A) ds) (fun js => get A (asm (ndim A) ds js []) * vfactors vs js).
  Proof.
    intros Hlt Hc. destruct tvp_rows as (Y & T & EY & OY & TY & ET & ST & GT).
    assert (OrdY : tb_order Y = tb_order X) by (unfold tb_order; rewrite TY; auto).
    assert (Hp : forall k, (k < tb_order X)%nat -> In k ds).
    { intros k Hk. assert (Hi : incl ds (seq 0 (tb_order X))) by (intros x Hx; apply in_seq; rewrite Forall_forall in HF; specialize (HF x Hx); lia).
      apply (NoDup_length_incl HN) in Hi; [|rewrite seq_length; lia]. apply Hi. apply in_seq. lia. }
    assert (S1 : shape T = repeat 1%nat (tb_order X)).
    { rewrite ST. apply nth_ext' with (d := 0%nat); [rewrite put_length, repeat_length; auto|]. intros k Hk. rewrite put_length in Hk. fold (ndim A) in Hk. rewrite Hc in Hk. rewrite nth_rep by auto.
      destruct (index_of_nth ds k (Hp k Hk)) as [Q1 Q2]. rewrite <- Q2. rewrite put_nth_in; auto; [apply nth_rep; auto|rewrite repeat_length; auto|rewrite Q2; fold (ndim A); lia]. }
    assert (H2Y : (2 <= tb_order Y)%nat) by lia.
    destruct (squeeze_all Y T H2Y ET ds) as (B & EB & SB & GB); [rewrite OrdY; auto|rewrite OrdY; auto|]. exists B. split.
    { unfold tb_tensor_vector_product. rewrite HL, Nat.eqb_refl, rows_omap. cbn [bind]. rewrite EY. cbn [bind]. auto. }
    split; auto. rewrite GB, GT.
    - apply bsum_ext. intros js Hj. pose proof (valid_length _ _ Hj) as Lj. rewrite sel_length in Lj. f_equal. f_equal. rewrite OrdY. rewrite <- put_asm with (n := tb_order X); auto; [|apply repeat_length].
      rewrite Hc. f_equal. replace (compl (tb_order X) ds) with (@nil nat); auto. symmetry. apply filter_none. intros x Hx. apply in_seq in Hx. rewrite (proj2 (inb_spec x ds)) by (apply Hp; lia). auto.
    - rewrite S1, OrdY. apply valid_intro; [rewrite !repeat_length; auto|]. rewrite repeat_length. intros k Hk. rewrite !nth_rep by auto. lia.
  Qed.
End Tvp.
