(** Proofs about CanonicalTensor: contraction, evaluation, inner product. *)
From Coq Require Import List Arith Lia Bool ZArith Permutation.
From Verif.Base Require Import ListAux CRing Index.
From Verif.Model Require Import Sorting Numpy FullTensor Diagonal Canonical.
From Verif.Spec Require Import TensorSpec.
From Verif.Proofs Require Import SortingP NumpyP FullTensorP FullTensorP2 FullTensorP3 DiagonalP CanonicalP.
Import ListNotations.

Section CP.
  Context {R : Type} {CR : CRing R}.
  Add Ring Rr : rth.
  Local Open Scope cr_scope.

  Lemma core_fold (sp : list (nd R)) dims : forall c : list R,
    fold_left (fun core d => map (fun k => nth k core r0 * get (nth d sp (scalar r0)) [0%nat; k]) (seq 0 (length core))) dims c
    = map (fun k => nth k c r0 * lprod dims (fun d => get (nth d sp (scalar r0)) [0%nat; k])) (seq 0 (length c)).
  Proof.
    induction dims as [|d dims IH]; intros c; simpl.
    - rewrite <- (map_seq_nth r0 c) at 1. apply map_ext. intros k. ring.
    - rewrite IH. rewrite map_length, seq_length. apply map_ext_in. intros k Hk. apply in_seq in Hk.
      rewrite nth_map_seq by lia. simpl. ring.
  Qed.
  Lemma term_split (sp : list (nd R)) dims is k : NoDup dims -> Forall (fun d => (d < length sp)%nat) dims ->
    length is = length (compl (length sp) dims) ->
    term sp (asm (length sp) dims (repeat 0%nat (length dims)) is) k =
    lprod dims (fun d => get (nth d sp (scalar r0)) [0%nat; k]) *
    term (map (fun e => nth e sp (scalar r0)) (compl (length sp) dims)) is k.
  Proof.
    intros Hn Hf L. unfold term. set (n := length sp) in *.
    rewrite (lprod_perm (seq 0 n) (dims ++ compl n dims)) by (symmetry; apply app_compl_perm; auto).
    rewrite lprod_app. f_equal.
    - apply lprod_ext. intros d Hd. apply index_of_nth in Hd as [Hd He]. rewrite <- He.
      rewrite asm_nth_in by auto. rewrite nth_repeat. rewrite He. auto.
    - rewrite map_length. rewrite <- (map_seq_nth 0%nat (compl n dims)) at 1. rewrite lprod_map. apply lprod_ext.
      intros m Hm. apply in_seq in Hm. rewrite asm_nth_out by lia. rewrite (map_nth_in _ _ _ 0%nat) by lia. auto.
  Qed.
  Lemma sorted_dims dims : Permutation (sel 0%nat dims (np_argsort dims)) dims.
  Proof. apply sel_perm with (n := length dims); auto. apply np_argsort_spec. Qed.
  Lemma squeeze_check (x : cp R) dims : Forall (fun d => (d < cp_order x)%nat) dims ->
    (forall d, In d dims -> nth d (cp_shape x) 0%nat = 1%nat) ->
    forallb (fun k => (k <? cp_order x) && (nth k (cp_shape x) 0%nat =? 1)) dims = true.
  Proof.
    intros Hf H1. apply forallb_forall. intros k Hk. rewrite Forall_forall in Hf. rewrite (proj2 (Nat.ltb_lt _ _) (Hf k Hk)).
    rewrite H1 by auto. auto.
  Qed.
  Lemma cp_squeeze_some (x : cp R) dims : okx x -> NoDup dims -> Forall (fun d => (d < cp_order x)%nat) dims ->
    (forall d, In d dims -> nth d (cp_shape x) 0%nat = 1%nat) -> (length dims < cp_order x)%nat ->
    exists y, cp_squeeze x (Some dims) = Some (inr y) /\ okx y /\ cp_shape y = sel 0%nat (cp_shape x) (compl (cp_order x) dims) /\
      forall is, length is = length (compl (cp_order x) dims) ->
        cp_val (cp_core y) (cp_space y) is =
        cp_val (cp_core x) (cp_space x) (asm (cp_order x) dims (repeat 0%nat (length dims)) is).
  Proof.
    intros Hok Hn Hf H1 Hlt. unfold cp_squeeze. rewrite squeeze_check by auto. cbn [negb].
    assert (Hc : compl (cp_order x) (sel 0%nat dims (np_argsort dims)) = compl (cp_order x) dims).
    { apply compl_ext. intros k. split; apply Permutation_in; [|symmetry]; apply sorted_dims. }
    rewrite Hc. pose proof (compl_length _ _ Hn Hf) as Lc.
    destruct (compl (cp_order x) dims) as [|e0 es] eqn:Ec; [simpl in Lc; lia|]. rewrite <- Ec in *.
    eexists; split; [reflexivity|].
    rewrite core_fold. set (c := cp_core x) in *. set (sp := cp_space x) in *. change (cp_order x) with (length sp) in *.
    set (c' := map _ (seq 0 (length c))). set (sp' := map _ (compl (length sp) dims)).
    assert (Lc' : length c' = length c) by (unfold c'; rewrite map_length, seq_length; auto).
    destruct (ok_intro c' sp' (sel 0%nat (cp_dims sp) (compl (length sp) dims))) as [O1 O2].
    { unfold sp'. rewrite map_length, Ec. simpl; lia. }
    { unfold sp'. rewrite sel_length, map_length. auto. }
    { intros k Hk. unfold sp' in *. rewrite map_length in Hk. rewrite (map_nth_in _ _ _ 0%nat) by auto. rewrite sel_nth by auto.
      rewrite Lc'. apply ok_nth; auto. pose proof (compl_lt (length sp) dims) as H. rewrite Forall_nth' with (d := 0%nat) in H. auto. }
    split; [exact O1|]. split; [exact O2|]. intros is L. cbn [cp_core cp_space].
    rewrite !cp_val_term; [|unfold sp; apply asm_length|unfold sp'; rewrite map_length; auto].
    rewrite Lc'. apply rsum_ext. intros k Hk. fold sp. rewrite term_split by auto. fold sp'. unfold c'. rewrite nth_map_seq by auto.
    simpl. rewrite (lprod_perm _ _ _ (sorted_dims dims)). ring.
  Qed.
  Lemma cp_squeeze_all (x : cp R) dims : okx x -> is_perm (cp_order x) dims ->
    (forall d, (d < cp_order x)%nat -> nth d (cp_shape x) 0%nat = 1%nat) ->
    exists G, cp_squeeze x (Some dims) = Some (inl G) /\
      tensor_is G [] (fun _ => cp_val (cp_core x) (cp_space x) (repeat 0%nat (cp_order x))).
  Proof.
    intros Hok Hp H1. unfold cp_squeeze.
    assert (Hf : Forall (fun d => (d < cp_order x)%nat) dims) by (apply Forall_forall; intros d Hd; eapply is_perm_in; eauto).
    rewrite squeeze_check by (auto; intros d Hd; apply H1; eapply is_perm_in; eauto). cbn [negb].
    assert (Hc : compl (cp_order x) (sel 0%nat dims (np_argsort dims)) = []).
    { rewrite <- (compl_seq (cp_order x)). apply compl_ext. intros k. rewrite in_seq. 
      rewrite (Permutation_in' (eq_refl k) (sorted_dims dims)). rewrite (is_perm_in _ _ k Hp). lia. }
    rewrite Hc. destruct (cp_full_spec x Hok) as [F [HF [HsF HgF]]]. rewrite HF. cbn [bind].
    unfold ft_squeeze, np_squeeze_all.
    assert (Hnd : ndim F = cp_order x) by (unfold ndim; rewrite HsF; unfold cp_shape; rewrite map_length; auto).
    rewrite filter_true.
    2:{ intros k Hk. apply in_seq in Hk. rewrite HsF, H1 by lia. auto. }
    unfold np_squeeze. rewrite Hnd.
    assert (E : forallb (fun k => (k <? cp_order x) && (nth k (shape F) 0%nat =? 1)) (seq 0 (cp_order x)) = true).
    { rewrite HsF. apply squeeze_check.
      - apply Forall_forall. intros k Hk. apply in_seq in Hk. lia.
      - intros k Hk. apply in_seq in Hk. apply H1. lia. }
    rewrite E, (proj2 (nodupb_spec _)) by apply seq_NoDup. cbn [andb bind]. eexists; split; [reflexivity|].
    split; cbn [shape get].
    - rewrite compl_seq. auto.
    - intros is Hv. rewrite seq_length, asm_all by (rewrite repeat_length; auto). apply HgF.
      apply valid_intro; [rewrite repeat_length; unfold cp_shape; rewrite map_length; auto|].
      unfold cp_shape at 1. rewrite map_length. intros k Hk. rewrite nth_repeat, H1 by auto. lia.
  Qed.

  Lemma rows_ok (x : cp R) (vs : list (nd R)) dims : length vs = length dims ->
    (forall k, (k < length dims)%nat -> shape (nth k vs (scalar r0)) = [nth (nth k dims 0%nat) (cp_shape x) 0%nat]) ->
    (forall k, (k < length dims)%nat -> exists m, shape (nth k (map row_of_vector vs) (scalar r0)) = [m; nth (nth k dims 0%nat) (cp_shape x) 0%nat]).
  Proof.
    intros HL HM k Hk. exists 1%nat. rewrite (map_nth_in _ _ _ (scalar r0)) by lia. simpl. unfold np_size. rewrite HM by auto.
    simpl. rewrite Nat.mul_1_r. auto.
  Qed.
  Lemma rows_ones (vs : list (nd R)) : map (fun M : nd R => nth 0 (shape M) 0%nat) (map row_of_vector vs) = repeat 1%nat (length vs).
  Proof. rewrite map_map. simpl. induction vs; simpl; auto. f_equal; auto. Qed.

  Theorem cp_tvp_spec (x : cp R) vs dims : okx x -> NoDup dims -> Forall (fun k => (k < cp_order x)%nat) dims ->
    length vs = length dims -> (length dims < cp_order x)%nat ->
    (forall k, (k < length dims)%nat -> shape (nth k vs (scalar r0)) = [nth (nth k dims 0%nat) (cp_shape x) 0%nat]) ->
    exists y, cp_tensor_vector_product x vs (Some dims) = Some (inr y) /\ okx y /\
      cp_shape y = sel 0%nat (cp_shape x) (compl (cp_order x) dims) /\
      forall is, valid (cp_shape y) is -> cp_val (cp_core y) (cp_space y) is =
        bsum (sel 0%nat (cp_shape x) dims) (fun js => cp_val (cp_core x) (cp_space x) (asm (cp_order x) dims js is) * vfactors vs js).
  Proof.
    intros Hok Hn Hf HL Hlt HM.
    destruct (cp_full_spec x Hok) as [T [HT HV]].
    assert (Lsh : length (cp_shape x) = cp_order x) by apply map_length.
    assert (HndT : ndim T = cp_order x) by (unfold ndim; rewrite (proj1 HV); auto).
    destruct (cp_tmp_dense x (map row_of_vector vs) dims T Hok HV Hn Hf) as [y [T' [E1 [E2 [O [Lo [D V]]]]]]].
    { rewrite map_length; auto. } { apply rows_ok; auto. }
    rewrite rows_ones, HL in D.
    assert (Hy1 : forall d, In d dims -> nth d (cp_shape y) 0%nat = 1%nat).
    { intros d Hd. rewrite Forall_forall in Hf. pose proof (Hf d Hd). apply index_of_nth in Hd as [Hd He]. rewrite <- He.
      rewrite D, put_nth_in; auto; rewrite ?repeat_length; auto.
      - apply nth_repeat_in; auto.
      - rewrite He, Lsh. auto. }
    unfold cp_tensor_vector_product. rewrite HL, Nat.eqb_refl. cbn [negb]. rewrite E1. cbn [bind].
    destruct (cp_squeeze_some y dims O Hn) as [z [Ez [Oz [Sz Vz]]]]; [rewrite Lo; auto|auto|lia|].
    rewrite Ez. exists z. split; auto. split; auto. rewrite Lo in Sz, Vz.
    assert (Hsc : sel 0%nat (cp_shape y) (compl (cp_order x) dims) = sel 0%nat (cp_shape x) (compl (cp_order x) dims)).
    { unfold sel. apply map_ext_in. intros k Hk. apply in_compl in Hk. rewrite D, put_nth_out; tauto. }
    rewrite Hsc in Sz. split; auto. intros is Hv. rewrite Sz in Hv.
    assert (Li : length is = length (compl (cp_order x) dims)) by (rewrite (valid_length _ _ Hv), sel_length; auto).
    rewrite Vz by auto.
    assert (Hva : valid (cp_shape y) (asm (cp_order x) dims (repeat 0%nat (length dims)) is)).
    { assert (Ly : length (cp_shape y) = cp_order x) by (unfold cp_shape; rewrite map_length; auto).
      rewrite <- Ly. apply valid_asm; auto; rewrite ?Ly; auto.
      - apply valid_intro; [rewrite repeat_length, sel_length; auto|]. rewrite sel_length. intros k Hk.
        rewrite sel_nth, Hy1 by (auto; apply nth_In; auto). rewrite nth_repeat. lia.
      - rewrite Hsc. auto. }
    rewrite <- (proj2 V) by auto.
    destruct (ft_tensor_vector_product_spec T vs dims) as [B [HB [HsB HgB]]]; auto.
    { rewrite HndT; auto. } { rewrite (proj1 HV). auto. }
    unfold ft_tensor_vector_product in HB. rewrite HL, Nat.eqb_refl in HB. cbn [negb] in HB. rewrite E2 in HB. cbn [bind] in HB.
    unfold ft_squeeze, np_squeeze in HB. destruct (forallb _ dims && nodupb dims); [|discriminate]. inversion HB; subst B. clear HB.
    cbn [shape get] in *.
    assert (HndT' : ndim T' = cp_order x).
    { unfold ndim. rewrite (proj1 V). unfold cp_shape. rewrite map_length. auto. }
    rewrite HndT', HndT in *. rewrite (proj1 HV) in HgB. rewrite HgB by auto. apply bsum_ext. intros js Hj. f_equal.
    apply (proj2 HV). rewrite <- Lsh. apply valid_asm; auto; rewrite Lsh; auto.
  Qed.

  Theorem cp_tvp_all (x : cp R) vs : okx x -> length vs = cp_order x ->
    (forall k, (k < cp_order x)%nat -> shape (nth k vs (scalar r0)) = [nth k (cp_shape x) 0%nat]) ->
    exists G, cp_tensor_vector_product x vs None = Some (inl G) /\
      tensor_is G [] (fun _ => bsum (cp_shape x) (fun js => cp_val (cp_core x) (cp_space x) js * vfactors vs js)).
  Proof.
    intros Hok HL HM.
    destruct (cp_full_spec x Hok) as [T [HT HV]]. set (n := cp_order x) in *.
    assert (Lsh : length (cp_shape x) = n) by apply map_length.
    assert (HndT : ndim T = n) by (unfold ndim; rewrite (proj1 HV); auto).
    assert (HM' : forall k, (k < length (seq 0 n))%nat -> shape (nth k vs (scalar r0)) = [nth (nth k (seq 0 n) 0%nat) (cp_shape x) 0%nat]).
    { rewrite seq_length. intros k Hk. rewrite seq_nth by auto. apply HM. auto. }
    assert (Hf : Forall (fun k => (k < n)%nat) (seq 0 n)) by (apply Forall_forall; intros k Hk; apply in_seq in Hk; lia).
    assert (HL' : length vs = length (seq 0 n)) by (rewrite seq_length; auto).
    destruct (cp_tmp_dense x (map row_of_vector vs) (seq 0 n) T Hok HV (seq_NoDup _ _) Hf) as [y [T' [E1 [E2 [O [Lo [D V]]]]]]].
    { rewrite map_length; auto. } { apply rows_ok; auto. }
    rewrite rows_ones, HL in D. rewrite put_all in D by (rewrite ?repeat_length; auto). fold n in Lo.
    unfold cp_tensor_vector_product. fold n. rewrite HL', Nat.eqb_refl. cbn [negb]. rewrite E1. cbn [bind].
    destruct (cp_squeeze_all y (seq 0 n) O) as [G [EG [HsG HgG]]].
    { rewrite Lo. apply Permutation_refl. }
    { intros d Hd. rewrite D. apply nth_repeat_in. lia. }
    rewrite EG. exists G. split; auto. split; auto. intros is Hv. rewrite HgG by auto. rewrite Lo.
    assert (Hv0 : valid (cp_shape y) (repeat 0%nat n)) by (rewrite D; apply valid_repeat; lia).
    rewrite <- (proj2 V) by auto.
    destruct (ft_tensor_vector_product_spec T vs (seq 0 n)) as [B [HB [HsB HgB]]]; auto.
    { apply seq_NoDup. } { rewrite HndT; auto. } { rewrite (proj1 HV). auto. }
    unfold ft_tensor_vector_product in HB. rewrite HL', Nat.eqb_refl in HB. cbn [negb] in HB. rewrite E2 in HB. cbn [bind] in HB.
    unfold ft_squeeze, np_squeeze in HB. destruct (forallb _ (seq 0 n) && nodupb (seq 0 n)); [|discriminate]. inversion HB; subst B. clear HB.
    cbn [shape get] in *.
    assert (HndT' : ndim T' = n).
    { unfold ndim. rewrite (proj1 V). unfold cp_shape. rewrite map_length. auto. }
    rewrite HndT', HndT in *. rewrite (proj1 HV) in HgB.
    specialize (HgB []). rewrite seq_length in HgB. rewrite asm_all in HgB by (apply repeat_length). rewrite HgB.
    - rewrite <- Lsh at 1. rewrite sel_seq. apply bsum_ext. intros js Hj. f_equal. rewrite asm_all by (rewrite (valid_length _ _ Hj); auto).
      apply (proj2 HV). auto.
    - rewrite compl_seq. constructor.
  Qed.

  Lemma vfactors_ones ns : forall js, vfactors (map (fun n => np_ones [n]) ns) js = r1 :> R.
  Proof. induction ns as [|n ns IH]; intros [|j js]; simpl; auto. rewrite IH. ring. Qed.
  Theorem cp_reduce_sum_spec (x : cp R) dims : okx x -> NoDup dims -> Forall (fun k => (k < cp_order x)%nat) dims ->
    (length dims < cp_order x)%nat ->
    exists y, cp_reduce_sum x (Some dims) = Some (inr y) /\ okx y /\
      cp_shape y = sel 0%nat (cp_shape x) (compl (cp_order x) dims) /\
      forall is, valid (cp_shape y) is -> cp_val (cp_core y) (cp_space y) is =
        bsum (sel 0%nat (cp_shape x) dims) (fun js => cp_val (cp_core x) (cp_space x) (asm (cp_order x) dims js is)).
  Proof.
    intros Hok Hn Hf Hlt. unfold cp_reduce_sum.
    destruct (cp_tvp_spec x (map (fun d => np_ones [nth d (cp_shape x) 0%nat]) dims) dims Hok Hn Hf) as [y [E [O [S1 V]]]]; auto.
    - rewrite map_length; auto.
    - intros k Hk. rewrite (map_nth_in _ _ _ 0%nat) by auto. auto.
    - exists y. split; auto. split; auto. split; auto. intros is Hv. rewrite V by auto. apply bsum_ext. intros js Hj.
      rewrite <- (map_map (fun d => nth d (cp_shape x) 0%nat) (fun n => np_ones [n])), vfactors_ones. ring.
  Qed.
  Theorem cp_reduce_sum_all (x : cp R) : okx x ->
    exists G, cp_reduce_sum x None = Some (inl G) /\
      tensor_is G [] (fun _ => bsum (cp_shape x) (cp_val (cp_core x) (cp_space x))).
  Proof.
    intros Hok. unfold cp_reduce_sum.
    destruct (cp_tvp_all x (map (fun d => np_ones [nth d (cp_shape x) 0%nat]) (seq 0 (cp_order x))) Hok) as [G [E [S1 V]]].
    - rewrite map_length, seq_length; auto.
    - intros k Hk. rewrite nth_map_seq by auto. auto.
    - exists G. split; auto. split; auto. intros is Hv. rewrite V by auto. apply bsum_ext. intros js Hj.
      rewrite <- (map_map (fun d => nth d (cp_shape x) 0%nat) (fun n => np_ones [n])), vfactors_ones. ring.
  Qed.

  (** * eval_diag *)
  Definition mulf (out Sd : nd R) : option (nd R) :=
    if list_eqb (shape out) (shape Sd) then Some (ND (shape out) (fun is => get out is * get Sd is)) else None.
  Lemma ofold_mulf (l : list (nd R)) : forall A s, shape A = s -> Forall (fun M => shape M = s) l ->
    exists B, ofold mulf l A = Some B /\ shape B = s /\ forall is, get B is = get A is * lprod l (fun M => get M is).
  Proof.
    induction l as [|M l IH]; intros A s HA Hl.
    - exists A. simpl. repeat split; auto. intros; ring.
    - inversion Hl; subst. cbn [ofold]. unfold mulf at 1. rewrite H1, list_eqb_refl.
      destruct (IH (ND (shape A) (fun is => get A is * get M is)) (shape A)) as [B [E [Hs Hg]]]; auto.
      exists B. split; auto. split; auto. intros is. rewrite Hg. simpl. ring.
  Qed.
  Theorem cp_eval_diag_spec (x : cp R) n : okx x -> cp_shape x = repeat n (cp_order x) ->
    exists v x', cp_eval_diag x = Some (v, x') /\
      tensor_is v [n] (fun is => cp_val (cp_core x) (cp_space x) (repeat (nth 0 is 0%nat) (cp_order x))).
  Proof.
    intros Hok Hs. unfold cp_eval_diag. destruct x as [c sp]. unfold okx, cp_order in *. cbn [cp_core cp_space] in *.
    assert (Hall : Forall (fun M => shape M = [n; length c]) sp).
    { apply (Forall_nth' _ _ (scalar r0)). intros k Hk. rewrite (ok_nth _ _ _ Hok Hk).
      change (cp_dims sp) with (cp_shape (CP c sp)). rewrite Hs, nth_repeat_in; auto. }
    destruct sp as [|S0 rest]; [destruct Hok; congruence|]. inversion Hall as [|? ? H0 Hr]; subst.
    destruct (ofold_mulf rest S0 _ H0 Hr) as [B [E [HsB HgB]]]. unfold mulf in E. rewrite E. cbn [bind]. rewrite HsB, Nat.eqb_refl.
    eexists; eexists; split; [reflexivity|]. split; cbn [shape get]; auto. intros is Hv.
    rewrite cp_val_term by (apply repeat_length). apply rsum_ext. intros k Hk. rewrite HgB. unfold term. cbn [nth].
    set (i := nth 0 is 0%nat).
    rewrite (lprod_ext (seq 0 (length (S0 :: rest))) _ (fun d => get (nth d (S0 :: rest) (scalar r0)) [i; k])).
    2:{ intros d Hd. apply in_seq in Hd. rewrite nth_repeat_in by lia. auto. }
    rewrite <- (lprod_map (fun d => nth d (S0 :: rest) (scalar r0)) _ (fun M => get M [i; k])), map_seq_nth. simpl. ring.
  Qed.
  Theorem cp_tmp_eval_diag_spec (x : cp R) Ms n : okx x -> length Ms = cp_order x ->
    (forall k, (k < cp_order x)%nat -> shape (nth k Ms (scalar r0)) = [n; nth k (cp_shape x) 0%nat]) ->
    returns (cp_tensor_matrix_product_eval_diag x Ms) [n]
      (fun is => bsum (cp_shape x) (fun js => cp_val (cp_core x) (cp_space x) js * factors Ms (repeat (nth 0 is 0%nat) (cp_order x)) js)).
  Proof.
    intros Hok HL HM. unfold cp_tensor_matrix_product_eval_diag. rewrite cp_tmp_default. set (d := cp_order x) in *.
    assert (Lsh : length (cp_shape x) = d) by apply map_length.
    destruct (cp_tmp_spec x Ms (seq 0 d) Hok) as [y [E [O [Sy V]]]].
    - apply seq_NoDup.
    - apply Forall_forall. intros k Hk. apply in_seq in Hk. fold d. lia.
    - rewrite seq_length; auto.
    - rewrite seq_length. intros k Hk. rewrite seq_nth by auto. exists n. apply HM; auto.
    - rewrite E. cbn [bind]. rewrite put_all in Sy by (rewrite ?map_length; auto).
      assert (Ly : cp_order y = d).
      { assert (H : length (cp_shape y) = cp_order y) by apply map_length. rewrite <- H, Sy, map_length; auto. }
      assert (Hsy : cp_shape y = repeat n (cp_order y)).
      { rewrite Sy, Ly. apply nth_ext' with (d := 0%nat); [rewrite map_length, repeat_length; auto|]. intros k Hk. rewrite map_length in Hk.
        rewrite (map_nth_in _ _ _ (scalar r0)) by auto. rewrite HM by lia. rewrite nth_repeat_in by lia. auto. }
      destruct (cp_eval_diag_spec y n O Hsy) as [v [x' [Ev [Hsv Hgv]]]]. rewrite Ev. cbn [bind fst]. exists v. split; auto. split; auto.
      intros is Hv. rewrite Hgv by auto. rewrite Ly.
      assert (Hi : (nth 0 is 0 < n)%nat) by (inversion Hv; auto).
      rewrite V by (rewrite Hsy, Ly; apply valid_repeat; auto). rewrite <- Lsh at 1. rewrite sel_seq. apply bsum_ext. intros js Hj.
      pose proof (valid_length _ _ Hj) as Lj. rewrite Lsh in Lj.
      rewrite put_all by (rewrite ?repeat_length; auto). f_equal. f_equal. rewrite sel_repeat; [rewrite seq_length; auto|].
      apply Forall_forall. intros k Hk. apply in_seq in Hk. lia.
  Qed.

  (** * inner product *)
  Lemma term_bsum ns : forall (s1 s2 : list (nd R)) a b, length s1 = length ns -> length s2 = length ns ->
    bsum ns (fun is => term s1 is a * term s2 is b) =
    lprod (combine (combine s1 s2) ns) (fun p => rsum (snd p) (fun i => get (fst (fst p)) [i; a] * get (snd (fst p)) [i; b])).
  Proof.
    induction ns as [|n ns IH]; intros [|M s1] [|N s2] a b L1 L2; try discriminate.
    - simpl. unfold term. simpl. ring.
    - cbn [combine lprod bsum fst snd]. rewrite <- IH by (simpl in *; lia).
      rewrite <- rsum_scal_r. apply rsum_ext. intros i Hi. rewrite <- bsum_scal_l. apply bsum_ext. intros is His.
      assert (Ht : forall (s : list (nd R)) K e, term (K :: s) (i :: is) e = get K [i; e] * term s is e).
      { intros s K e. unfold term. cbn [length seq lprod nth]. f_equal. rewrite <- seq_shift, lprod_map. apply lprod_ext. auto. }
      rewrite !Ht. ring.
  Qed.
  (** sum_{a,b} c_a d_b prod_k (S_k^T T_k)[a,b] is the inner product of the two tensors *)
  Lemma cp_inner c1 (s1 : list (nd R)) c2 s2 ns : length s1 = length ns -> length s2 = length ns ->
    bsum ns (fun is => cp_val c1 s1 is * cp_val c2 s2 is) =
    rsum (length c1) (fun a => rsum (length c2) (fun b => nth a c1 r0 * nth b c2 r0 *
      lprod (combine (combine s1 s2) ns) (fun p => rsum (snd p) (fun i => get (fst (fst p)) [i; a] * get (snd (fst p)) [i; b])))).
  Proof.
    intros L1 L2.
    rewrite (bsum_ext _ _ (fun is => rsum (length c1) (fun a => rsum (length c2) (fun b => nth a c1 r0 * nth b c2 r0 * (term s1 is a * term s2 is b))))).
    - rewrite bsum_rsum_exchange. apply rsum_ext. intros a Ha. rewrite bsum_rsum_exchange. apply rsum_ext. intros b Hb.
      rewrite bsum_scal_l. f_equal. apply term_bsum; auto.
    - intros is His. pose proof (Forall2_length' _ _ _ His) as Li. rewrite !cp_val_term by lia. rewrite rmul_rsum. apply rsum_ext. intros a Ha.
      apply rsum_ext. intros b Hb. ring.
  Qed.
  Lemma grams ns r1 r2 : forall (s1 s2 : list (nd R)), length s1 = length ns -> length s2 = length ns ->
    (forall k, (k < length ns)%nat -> shape (nth k s1 (scalar r0)) = [nth k ns 0%nat; r1]) ->
    (forall k, (k < length ns)%nat -> shape (nth k s2 (scalar r0)) = [nth k ns 0%nat; r2]) ->
    exists ms, omap (fun p => np_matmul (np_T (fst p)) (snd p)) (combine s1 s2) = Some ms /\ length ms = length ns /\
      Forall (fun M => shape M = [r1; r2]) ms /\
      forall a b, lprod ms (fun M => get M [a; b]) =
        lprod (combine (combine s1 s2) ns) (fun p => rsum (snd p) (fun i => get (fst (fst p)) [i; a] * get (snd (fst p)) [i; b])).
  Proof.
    induction ns as [|n ns IH]; intros [|M s1] [|N s2] L1 L2 H1 H2; try discriminate.
    - exists []. simpl. auto.
    - destruct (IH s1 s2) as [ms [E [L [F V]]]]; try (simpl in *; lia).
      { intros k Hk. apply (H1 (S k)). simpl; lia. } { intros k Hk. apply (H2 (S k)). simpl; lia. }
      pose proof (H1 0%nat ltac:(simpl; lia)) as HM. pose proof (H2 0%nat ltac:(simpl; lia)) as HN. cbn [nth] in HM, HN.
      cbn [combine omap]. unfold np_matmul at 1. cbn [fst snd np_T shape]. rewrite HM, HN. cbn [rev app]. rewrite Nat.eqb_refl. rewrite E.
      eexists; split; [reflexivity|]. split; [simpl; lia|]. split; [constructor; auto|].
      intros a b. cbn [lprod combine fst snd get nth]. rewrite V. f_equal.
  Qed.
  Lemma cp_dot_value (x y : cp R) : okx x -> okx y -> cp_shape x = cp_shape y ->
    exists g, (forall a b, g a b = lprod (combine (combine (cp_space x) (cp_space y)) (cp_shape x))
                 (fun p => rsum (snd p) (fun i => get (fst (fst p)) [i; a] * get (snd (fst p)) [i; b]))) /\
    cp_dot x y = Some (rsum (length (cp_core x)) (fun a => rsum (length (cp_core y)) (fun b =>
      nth a (cp_core x) r0 * nth b (cp_core y) r0 *
      g ((a + length (cp_core x) * b) / length (cp_core y))%nat ((a + length (cp_core x) * b) mod length (cp_core y))%nat))).
  Proof.
    intros Hx Hy Hs.
    assert (L1 : length (cp_space x) = length (cp_shape x)) by (symmetry; apply map_length).
    assert (L2 : length (cp_space y) = length (cp_shape x)) by (rewrite Hs; symmetry; apply map_length).
    destruct (grams (cp_shape x) (length (cp_core x)) (length (cp_core y)) (cp_space x) (cp_space y)) as [ms [E [L [F V]]]]; auto.
    { intros k Hk. apply ok_nth; auto. lia. } { intros k Hk. rewrite Hs. apply ok_nth; auto. lia. }
    exists (fun a b => lprod ms (fun M => get M [a; b])); split; [intros a b; apply V|]. unfold cp_dot. rewrite E. cbn [bind].
    pose proof (ok_pos _ _ Hx) as Px. pose proof (ok_pos _ _ Hy) as Py.
    rewrite dt_drom_value; auto; cbn [cp_diag dt_make dt_data dt_order dt_shape]; auto.
    - destruct ms; simpl in *; [lia|congruence].
    - rewrite L, <- L1. auto.
  Qed.
  Theorem cp_dot_same_core (x y : cp R) : okx x -> okx y -> cp_shape x = cp_shape y -> cp_core x = cp_core y ->
    cp_dot x y = Some (bsum (cp_shape x) (fun is => cp_val (cp_core x) (cp_space x) is * cp_val (cp_core y) (cp_space y) is)).
  Proof.
    intros Hx Hy Hs Hc. destruct (cp_dot_value x y Hx Hy Hs) as [g [Hg ->]]. f_equal.
    rewrite cp_inner by (symmetry; first [apply map_length | rewrite Hs; apply map_length]).
    rewrite <- Hc. rewrite rsum_exchange. apply rsum_ext. intros b Hb. apply rsum_ext. intros a Ha. rewrite <- Hg.
    rewrite (Nat.mul_comm _ b), Nat.div_add, Nat.mod_add, Nat.div_small, Nat.mod_small by lia. simpl. ring.
  Qed.
  Theorem cp_dot_rank_one_l (x y : cp R) : okx x -> okx y -> cp_shape x = cp_shape y -> length (cp_core x) = 1%nat ->
    cp_dot x y = Some (bsum (cp_shape x) (fun is => cp_val (cp_core x) (cp_space x) is * cp_val (cp_core y) (cp_space y) is)).
  Proof.
    intros Hx Hy Hs Hc. destruct (cp_dot_value x y Hx Hy Hs) as [g [Hg ->]]. f_equal.
    rewrite cp_inner by (symmetry; first [apply map_length | rewrite Hs; apply map_length]).
    rewrite Hc. apply rsum_ext. intros a Ha. apply rsum_ext. intros b Hb. rewrite <- Hg.
    replace a with 0%nat by lia. rewrite Nat.add_0_l, Nat.mul_1_l, Nat.div_small, Nat.mod_small by lia. auto.
  Qed.
  Theorem cp_dot_rank_one_r (x y : cp R) : okx x -> okx y -> cp_shape x = cp_shape y -> length (cp_core y) = 1%nat ->
    cp_dot x y = Some (bsum (cp_shape x) (fun is => cp_val (cp_core x) (cp_space x) is * cp_val (cp_core y) (cp_space y) is)).
  Proof.
    intros Hx Hy Hs Hc. destruct (cp_dot_value x y Hx Hy Hs) as [g [Hg ->]]. f_equal.
    rewrite cp_inner by (symmetry; first [apply map_length | rewrite Hs; apply map_length]).
    rewrite Hc. apply rsum_ext. intros a Ha. apply rsum_ext. intros b Hb. rewrite <- Hg.
    replace b with 0%nat by lia. rewrite Nat.mul_0_r, Nat.add_0_r, Nat.div_1_r, Nat.mod_1_r. auto.
  Qed.
  (** constant weights (for instance the ones of a tensor built with unit weights) *)
  Theorem cp_dot_const (x y : cp R) u v : okx x -> okx y -> cp_shape x = cp_shape y ->
    Forall (fun c => c = u) (cp_core x) -> Forall (fun c => c = v) (cp_core y) ->
    cp_dot x y = Some (bsum (cp_shape x) (fun is => cp_val (cp_core x) (cp_space x) is * cp_val (cp_core y) (cp_space y) is)).
  Proof.
    intros Hx Hy Hs Hu Hv. destruct (cp_dot_value x y Hx Hy Hs) as [g [Hg ->]]. f_equal.
    rewrite cp_inner by (symmetry; first [apply map_length | rewrite Hs; apply map_length]).
    set (r1' := length (cp_core x)) in *. set (r2' := length (cp_core y)) in *.
    rewrite Forall_nth' with (d := r0) in Hu, Hv.
    transitivity (u * v * rsum (r1' * r2') (fun k => g (k / r2')%nat (k mod r2'))).
    - rewrite rsum_mul. rewrite rsum_exchange. rewrite <- rsum_scal_l. apply rsum_ext. intros b Hb.
      rewrite <- rsum_scal_l. apply rsum_ext. intros a Ha. rewrite Hu, Hv by auto. auto.
    - rewrite Nat.mul_comm, rsum_mul. rewrite <- rsum_scal_l. apply rsum_ext. intros a Ha. rewrite <- rsum_scal_l. apply rsum_ext. intros b Hb.
      rewrite Hu, Hv by auto. rewrite <- Hg. f_equal.
      rewrite ?(Nat.mul_comm r2' a), ?(Nat.mul_comm a r2').
      replace (b + r2' * a)%nat with (b + a * r2')%nat by lia. rewrite Nat.div_add, Nat.mod_add, Nat.div_small, Nat.mod_small by lia. auto.
  Qed.
  Lemma cp_storage_spec (x : cp R) : okx x ->
    cp_storage x = (length (cp_core x) + length (cp_core x) * sumn (cp_shape x))%nat.
  Proof.
    intros [_ H]. unfold cp_storage, cp_shape. f_equal. set (r := length _) in *. clearbody r.
    induction (cp_space x) as [|M sp IH]; simpl; [lia|]. inversion H as [|? ? [n Hn] H']; subst. rewrite IH by auto.
    unfold np_size. rewrite Hn. simpl. lia.
  Qed.
End CP.
