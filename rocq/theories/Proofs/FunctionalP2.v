(** Evaluation of full tensor-product bases and of functional tensors in every format. *)
From Coq Require Import List Arith Bool ZArith Lia.
From Verif.Base Require Import ListAux CRing Index.
From Verif.Model Require Import Sorting MultiIndices Numpy FullTensor Diagonal Canonical Sparse DimensionTree TreeBased TreeEval Functions FunctionalBases.
From Verif.Spec Require Import MultiIndicesSpec TensorSpec FunctionSpec TreeSpec TreeTensorSpec FunctionalSpec.
From Verif.Proofs Require Import NumpyP FullTensorP FullTensorP3 DiagonalP SparseP CanonicalP CanonicalP2 MIMoreP FunctionsP FunctionsP2 FunctionsP3 TensorizerP EinsumP3 TreeTensorP TreeTensorP18 FunctionalP.
Import ListNotations.

Lemma box_indices (cs : list nat) : Forall (fun n => 0 < n) cs ->
  bounded_by (map (fun n => Z.of_nat n - 1)%Z cs) 0 = Some (MI (length cs) (map (map Z.of_nat) (boxF cs))).
Proof.
  intros H. rewrite bounded_by_is_ind2sub by auto. unfold ind2sub. rewrite (proj2 (forallb_forall _ _)).
  - rewrite boxF_ind2sub, map_map. auto.
  - intros k Hk. apply in_seq in Hk. apply Nat.ltb_lt. lia.
Qed.
Lemma sel_seq_all s : sel 0 s (seq 0 (length s)) = s.
Proof. apply sel_seq. Qed.
Lemma compl_all n : compl n (seq 0 n) = [].
Proof.
  unfold compl. assert (H : forall l, incl l (seq 0 n) -> filter (fun k => negb (inb k (seq 0 n))) l = []).
  { induction l as [|a l IH]; intros Hi; auto. cbn. rewrite (proj2 (inb_spec a (seq 0 n))) by (apply Hi; cbn; auto). cbn. apply IH. intros y Hy. apply Hi. cbn; auto. }
  apply H. intros y Hy. auto.
Qed.

Section P.
  Context {R : Type} {CR : CRing R} {A V : Type}.
  Add Ring Rfb2 : rth.
  Local Open Scope cr_scope.
  Notation fb := (fbasis R A V).

  Lemma cards_length (bs : list fb) : length (cards bs) = length bs. Proof. apply map_length. Qed.
  Theorem tp_eval_ok (bs : list fb) x : bs <> [] -> Forall (fun b => (0 < fb_card b)%nat) bs -> Forall (point_ok bs) x ->
    exists Y, tp_eval bs x = Some Y /\ shape Y = [length x; prodn (cards bs)] /\
      forall p is, (p < length x)%nat -> valid (cards bs) is -> get Y [p; sub2indF (cards bs) is] = prod_fun bs is (nth p x []).
  Proof.
    intros Hn Hc Hx.
    assert (E : tp_indices bs = Some (MI (length bs) (map (map Z.of_nat) (boxF (cards bs))))).
    { unfold tp_indices. transitivity (bounded_by (map (fun n => Z.of_nat n - 1)%Z (cards bs)) 0); [unfold cards; rewrite map_map; reflexivity|].
      rewrite box_indices; [rewrite cards_length; auto|]. unfold cards. apply Forall_map. auto. }
    destruct (sb_eval_ok bs (MI (length bs) (map (map Z.of_nat) (boxF (cards bs)))) (boxF (cards bs)) x) as (Y & EY & SY & GY); auto.
    { apply Forall_forall. intros is His. apply in_boxF in His. auto. }
    exists Y. split.
    - unfold tp_eval. unfold sb_eval in EY. rewrite fbs_eval_all in *. cbn [bind] in *. rewrite E. auto.
    - rewrite boxF_length in SY. split; auto. intros p is Hp His. pose proof (sub2indF_lt _ _ His) as Hlt. rewrite GY.
      + cbn [nth]. rewrite nth_boxF by auto. rewrite ind2subF_sub2indF; auto.
      + constructor; [auto|constructor; [|constructor]]. rewrite boxF_length. auto.
  Qed.

  (** ** FunctionalTensor.eval *)
  Section FT.
    Variables (bs : list fb) (x : list (list A)).
    Hypothesis Hn : bs <> [].
    Hypothesis Hx : Forall (point_ok bs) x.
    Lemma exp_eq (T : list nat -> R) p : (p < length x)%nat ->
      bsum (cards bs) (fun js => T js * factors (evals bs x) (repeat p (length bs)) js) = expansion bs T (nth p x []).
    Proof.
      intros Hp. unfold expansion. apply bsum_ext. intros js Hj. f_equal. apply evals_prod; auto.
      - rewrite (Forall2_length' _ _ _ Hj). apply map_length.
      - rewrite Forall_forall in Hx. apply Hx, nth_In. auto.
    Qed.
    Lemma npos : (0 < length bs)%nat. Proof. destruct bs; [congruence|cbn; lia]. Qed.

    Theorem fun_eval_full_ok (T : nd R) : shape T = cards bs ->
      returns (fun_eval_full T bs x) [length x] (fun ix => expansion bs (get T) (nth (nth 0 ix 0%nat) x [])).
    Proof.
      intros HT. unfold fun_eval_full, fun_eval. rewrite fbs_eval_all. cbn [bind].
      assert (HN : ndim T = length bs) by (unfold ndim; rewrite HT; apply map_length). rewrite HN, Nat.eqb_refl.
      pose proof npos as NP.
      destruct (ft_tmp_eval_diag_ok T (evals bs x) (seq 0 (length bs)) (length x)) as (C & EC & SC & GC).
      - apply Forall_forall. intros k Hk. apply in_seq in Hk. lia.
      - apply seq_NoDup.
      - intros k Hk. rewrite seq_length in Hk. rewrite evals_shape by auto. rewrite seq_nth by auto. rewrite HT. reflexivity.
      - rewrite seq_length. apply evals_length.
      - destruct (length bs); [lia|discriminate].
      - exists C. split.
        + unfold ft_tmp_eval_diag in *. rewrite HN. exact EC.
        + rewrite HN, compl_all in SC, GC. cbn [sel map] in SC, GC. split; auto. intros ix Hix. inversion Hix as [|p ? ix' ? Hp Hix2]; subst. inversion Hix2; subst.
          rewrite GC by (auto; constructor). rewrite seq_length. rewrite HT. rewrite <- (cards_length bs) at 1. rewrite sel_seq. cbn [nth]. rewrite <- exp_eq by auto.
          apply bsum_ext. intros js Hj. f_equal. f_equal. apply asm_all. rewrite (Forall2_length' _ _ _ Hj). apply map_length.
    Qed.
    Theorem fun_eval_cp_ok (T : cp R) : cp_ok (cp_core T) (cp_space T) -> cp_dims (cp_space T) = cards bs ->
      returns (fun_eval_cp T bs x) [length x] (fun ix => expansion bs (cp_val (cp_core T) (cp_space T)) (nth (nth 0 ix 0%nat) x [])).
    Proof.
      intros HO HS. unfold fun_eval_cp, fun_eval. rewrite fbs_eval_all. cbn [bind].
      assert (HN : cp_order T = length bs). { unfold cp_order. rewrite <- (cp_dims_length (cp_space T)), HS. apply cards_length. } rewrite HN, Nat.eqb_refl.
      destruct (cp_tmp_eval_diag_spec T (evals bs x) (length x)) as (C & EC & SC & GC); auto.
      - rewrite evals_length. auto.
      - intros k Hk. rewrite evals_shape by lia. rewrite cp_shape_dims, HS. auto.
      - exists C. split; auto. split; auto. intros ix Hix. rewrite GC by auto. inversion Hix as [|p ? ix' ? Hp Hix2]; subst. inversion Hix2; subst. cbn [nth].
        rewrite HN, cp_shape_dims, HS. apply exp_eq. auto.
    Qed.
    Theorem fun_eval_sp_ok (T : sp R) : sp_ok (sp_rows T) (sp_data T) (sp_shape T) -> sp_zd T = false -> sp_shape T = cards bs ->
      returns (fun_eval_sp T bs x) [length x] (fun ix => expansion bs (sp_val (sp_rows T) (sp_data T)) (nth (nth 0 ix 0%nat) x [])).
    Proof.
      intros HO HZ HS. unfold fun_eval_sp, fun_eval. rewrite fbs_eval_all. cbn [bind]. pose proof npos as NP.
      assert (HN : sp_order T = length bs). { unfold sp_order. rewrite HS. apply cards_length. } rewrite HN, Nat.eqb_refl.
      destruct (sp_tmp_eval_diag_spec T (evals bs x) (length x)) as (C & EC & SC & GC); auto.
      - lia.
      - rewrite evals_length. auto.
      - intros k Hk. rewrite evals_shape by lia. rewrite HS. auto.
      - exists C. split; auto. split; auto. intros ix Hix. rewrite GC by auto. inversion Hix as [|p ? ix' ? Hp Hix2]; subst. inversion Hix2; subst. cbn [nth].
        rewrite HN, HS. apply exp_eq. auto.
    Qed.
    Theorem fun_eval_tb_ok (T : tbt R) r : tb_ok T r -> (2 <= length bs)%nat -> tb_shape T = cards bs -> x <> [] ->
      exists C, fun_eval_tb T bs x = Some C /\ shape C = length x :: exts T r /\
        forall p e, (p < length x)%nat -> valid (exts T r) e -> get C (p :: e) = expansion bs (fun js => tval T r js e) (nth p x []).
    Proof.
      intros HO H2 HS Hq. unfold fun_eval_tb, fun_eval. rewrite fbs_eval_all. cbn [bind].
      assert (HN : tb_order T = length bs). { rewrite <- (cards_length bs), <- HS. symmetry. apply tb_shape_length. } rewrite HN, Nat.eqb_refl.
      destruct (tb_tmp_eval_diag_ok T r (evals bs x) (length x)) as (C & EC & SC & GC); auto.
      - lia.
      - rewrite evals_length. auto.
      - destruct x; [congruence|cbn; lia].
      - intros k Hk. rewrite evals_shape by lia. rewrite HS. auto.
      - exists C. split; auto. split; auto. intros p e Hp He. rewrite GC by auto. rewrite HN, HS. apply (exp_eq (fun js => tval T r js e)). auto.
    Qed.
    Theorem fun_eval_dt_ok (v : list R) : cards bs = repeat (length v) (length bs) ->
      returns (fun_eval_dt (dt_make v (length bs)) bs x) [length x] (fun ix => expansion bs (diag_val v) (nth (nth 0 ix 0%nat) x [])).
    Proof.
      intros HS. unfold fun_eval_dt, fun_eval. rewrite fbs_eval_all. cbn [bind dt_order dt_make]. rewrite Nat.eqb_refl. pose proof npos as NP.
      set (D := dt_make v (length bs)). assert (SD : shape (dt_full D) = cards bs) by (rewrite dt_full_shape; [rewrite HS; reflexivity|exact NP]).
      assert (ND : ndim (dt_full D) = length bs) by (unfold ndim; rewrite SD; apply map_length).
      unfold dt_tensor_matrix_product_eval_diag, dt_tensor_matrix_product. rewrite ft_tensor_matrix_product_default, ND.
      destruct (ft_tensor_matrix_product_spec (dt_full D) (evals bs x) (seq 0 (length bs))) as (T & ET & ST & GT).
      - apply seq_NoDup.
      - apply Forall_forall. intros k Hk. apply in_seq in Hk. lia.
      - rewrite seq_length. apply evals_length.
      - intros k Hk. rewrite seq_length in Hk. exists (length x). rewrite evals_shape, seq_nth, SD by auto. reflexivity.
      - rewrite ET. cbn [bind].
        assert (RS : map (fun M : nd R => nth 0 (shape M) 0%nat) (evals bs x) = repeat (length x) (length bs)).
        { apply nth_ext with (d := 0%nat) (d' := 0%nat); [rewrite map_length, repeat_length; apply evals_length|]. intros k Hk. rewrite map_length, evals_length in Hk.
          rewrite map_nth_in with (da := scalar r0) by (rewrite evals_length; auto). rewrite evals_shape by auto. rewrite nth_rep by auto. reflexivity. }
        rewrite RS in ST. assert (ST' : shape T = repeat (length x) (length bs)).
        { rewrite ST, SD. apply put_all; rewrite ?repeat_length, ?cards_length; auto. }
        assert (NT : ndim T = length bs) by (unfold ndim; rewrite ST', repeat_length; auto).
        destruct (ft_eval_diag_all T (length x)) as (C & EC & SC & GC); [lia|rewrite NT; auto|]. exists C. split; auto. split; auto.
        intros ix Hix. rewrite GC by auto. inversion Hix as [|p ? ix' ? Hp Hix2]; subst. inversion Hix2; subst. cbn [nth].
        rewrite RS in GT. rewrite GT.
        + rewrite SD. rewrite <- (cards_length bs) at 1. rewrite sel_seq. rewrite <- exp_eq by auto. apply bsum_ext. intros js Hj. rewrite NT.
          assert (Lj : length js = length bs) by (rewrite (Forall2_length' _ _ _ Hj); apply map_length).
          rewrite put_all by (rewrite ?repeat_length; auto). rewrite dt_full_get; [|exact NP|]. 2:{ cbn [D dt_data dt_order dt_make]. rewrite <- HS. exact Hj. }
          cbn [D dt_data dt_make]. f_equal. f_equal. rewrite <- (repeat_length p (length bs)) at 2. rewrite sel_seq. reflexivity.
        + rewrite NT. rewrite SD. rewrite put_all by (rewrite ?repeat_length, ?cards_length; auto). clear - Hp. induction (length bs); cbn; constructor; auto.
    Qed.
  End FT.
End P.
