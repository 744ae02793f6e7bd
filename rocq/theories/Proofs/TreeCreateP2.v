(** Tree-based tensors: direct sums (cat), the full tensors; division by a scalar; sums over dimensions. *)
From Coq Require Import List Arith Lia Bool ZArith Ring Permutation.
From Verif.Base Require Import ListAux CRing Index.
From Verif.Model Require Import Sorting Numpy FullTensor DimensionTree TreeBased TreeReduce TreeCreate.
From Verif.Spec Require Import TensorSpec TreeSpec TreeTensorSpec.
From Verif.Proofs Require Import NumpyP FullTensorP FullTensorP2 FullTensorP3 FullTensorP4 DimTreeP DimTreeP2 DimTreeP3 TreeTensorP TreeTensorP2 TreeTensorP3 TreeTensorP4 TreeTensorP5 TreeTensorP6 TreeTensorP7 TreeTensorP8 TreeTensorP9 TreeTensorP26 TreeCreateP1.
Import ListNotations.

Lemma forallb_perm {A} (f : A -> bool) l l' : Permutation l l' -> forallb f l = forallb f l'.
Proof.
  intros P. apply Bool.eq_iff_eq_true. rewrite !forallb_forall.
  split; intros H x Hx; apply H; [apply (Permutation_in x (Permutation_sym P))|apply (Permutation_in x P)]; auto.
Qed.
Lemma forallb_seq_app (f : nat -> bool) a b : forallb f (seq 0 (a + b)) = forallb f (seq 0 a) && forallb (fun k => f (a + k)) (seq 0 b).
Proof.
  rewrite seq_app, forallb_app. f_equal. cbn [plus]. replace (seq a b) with (map (fun k => a + k) (seq 0 b)).
  - induction (seq 0 b); cbn; auto. rewrite IHl. auto.
  - apply nth_ext' with (d := 0); [rewrite map_length, !seq_length; auto|]. rewrite map_length, seq_length. intros k Hk.
    rewrite map_nth_in with (da := 0) by (rewrite seq_length; auto). rewrite !seq_nth by auto. auto.
Qed.
Lemma forallb_ext_in {A} (f g : A -> bool) l : (forall x, In x l -> f x = g x) -> forallb f l = forallb g l.
Proof. induction l as [|x l IH]; intros H; cbn; auto. rewrite H, IH; cbn; auto. intros y Hy. apply H. right. auto. Qed.

Section CatFull.
  Context {R : Type} {CR : CRing R}.
  Add Ring Rrcatf : rth.
  Local Open Scope cr_scope.
  Theorem tb_cat_full (X Y : tbt R) r A B : tb_ok X r -> tb_ok Y r -> ttree Y = ttree X -> (forall n, node (ttree X) n -> active Y n = active X n) ->
    (2 <= tb_order X)%nat -> tb_full X = Some A -> tb_full Y = Some B -> ndim A = ndim B ->
    exists Z, tb_cat X Y = Some Z /\ tb_ok Z r /\ ttree Z = ttree X /\ (forall n, node (ttree X) n -> active Z n = active X n) /\
      returns (tb_full Z) (cat_shape (seq 0 (ndim A)) (shape A) (shape B)) (cat_entry (seq 0 (ndim A)) A B).
  Proof.
    intros OX OY HT HA H2 HX HY Hnd. assert (HL2 : (2 <= tb_order Y)%nat) by (unfold tb_order in *; rewrite HT; auto).
    destruct (full_inv X r A OX H2 HX) as [HsA HgA]. destruct (full_inv Y r B OY HL2 HY) as [HsB HgB].
    assert (LS : length (tb_shape X) = length (tb_shape Y)) by (rewrite !tb_shape_length, HT; auto).
    assert (HE : length (exts Y r) = length (exts X r)) by (unfold ndim in Hnd; rewrite HsA, HsB, !app_length in Hnd; lia).
    destruct (omap_nodes (ccore X Y) (ttree X)) as (l & Hl & HL & HC).
    { intros n Hn. unfold ccore. destruct (active X n) eqn:Ha; [|eauto]. destruct (is_leaf (ttree X) n) eqn:El.
      - destruct (cat_core_leaf X Y r OX OY HT HE HA H2 n El Ha) as (C & HC & _). unfold ccore in HC. rewrite Ha in HC. eauto.
      - destruct (cat_core_internal X Y r OX OY HT HE HA H2 n Hn El) as (C & HC & _). unfold ccore in HC. rewrite Ha in HC. eauto. }
    exists (TB (ttree X) l). set (Z := TB (ttree X) l).
    destruct (cat_facts X Y r OX OY HT HE HA H2 Z eq_refl HL HC) as (OZ & SZ & EZ & _).
    split. { unfold tb_cat. change (fun n => if active X n then ft_cat (core X n) (core Y n) None else Some (core X n)) with (ccore X Y).
      rewrite Hl. cbn [bind]. apply (tb_make_ok l (ttree X) r). exact OZ. }
    split; [exact OZ|]. split; [reflexivity|].
    split; [intros n Hn; apply (cat_active X Y r OX OY HT HE HA H2 Z HL HC n Hn)|].
    assert (Lo : length (tb_shape X) = tb_order X) by (rewrite tb_shape_length; auto).
    assert (LA : ndim A = (tb_order X + length (exts X r))%nat) by (unfold ndim; rewrite HsA, app_length; lia).
    pose proof (ok_exts_root X r OX) as LE.
    assert (SA : cat_shape (seq 0 (ndim A)) (shape A) (shape B) = tb_shape Z ++ exts Z r).
    { rewrite SZ, EZ. apply nth_ext' with (d := 0%nat).
      - unfold cat_shape, cat_ext. rewrite map_length, seq_length, app_length, !map_length, repeat_length. fold (tb_order X). unfold ndim in LA. lia.
      - unfold cat_shape. rewrite map_length, seq_length. intros k Hk. rewrite nth_map_seq by auto. fold (ndim A) in Hk.
        replace (inb k (seq 0 (ndim A))) with true by (symmetry; apply inb_spec, in_seq; lia).
        rewrite HsA, HsB. destruct (Nat.lt_ge_cases k (tb_order X)) as [Hlt|Hge].
        + rewrite !app_nth1 by (rewrite ?map_length; fold (tb_order X); lia).
          rewrite map_nth_in with (da := 0%nat) by (exact Hlt). unfold cat_m, tb_shape.
          rewrite HT, !map_nth_in with (da := 0%nat) by (exact Hlt). auto.
        + rewrite !app_nth2 by (rewrite ?map_length; fold (tb_order X); lia). rewrite map_length. fold (tb_order X).
          rewrite <- LS, Lo. assert (k - tb_order X = 0)%nat as -> by lia. unfold cat_ext.
          destruct (exts X r) as [|q [|? ?]] eqn:EX; cbn [length] in *; try lia.
          cbn [repeat map nth]. unfold bsz, asz. cbn [Nat.eqb]. rewrite EX. auto. }
    rewrite SA. apply (full_returns Z r); auto.
    - intros is e Hi He. rewrite (cat_tval_root X Y r OX OY HT HE HA H2 Z eq_refl HL HC is e Hi He).
      assert (Li : length is = tb_order X) by (rewrite (valid_length _ _ Hi), SZ, map_length; auto).
      assert (Le : length e = length (exts X r)) by (rewrite (valid_length _ _ He), EZ; unfold cat_ext; rewrite map_length, repeat_length; auto).
      assert (PR : Permutation (dims (ttree X) r) (seq 0 (tb_order X))) by (apply (dims_root (ttree X) r (proj1 OX))).
      unfold cat_entry. rewrite LA, !forallb_seq_app.
      assert (E1 : forallb (fun k => nth k (is ++ e) 0%nat <? nth k (shape A) 0%nat) (seq 0 (tb_order X)) = blw X r is).
      { unfold blw. rewrite (forallb_perm _ _ _ PR). apply forallb_ext_in. intros k Hk. apply in_seq in Hk. rewrite HsA, !app_nth1 by lia. auto. }
      assert (E2 : forallb (fun k => nth k (shape A) 0%nat <=? nth k (is ++ e) 0%nat) (seq 0 (tb_order X)) = abv X r is).
      { unfold abv. rewrite (forallb_perm _ _ _ PR). apply forallb_ext_in. intros k Hk. apply in_seq in Hk. rewrite HsA, !app_nth1 by lia. auto. }
      assert (E3 : forallb (fun k => nth (tb_order X + k) (is ++ e) 0%nat <? nth (tb_order X + k) (shape A) 0%nat) (seq 0 (length (exts X r))) =
                   first_block (fun _ => true) (asz X r) (repeat 0%nat (length (exts X r))) e).
      { rewrite HsA. unfold first_block.
        destruct (exts X r) as [|q [|? ?]] eqn:EX, e as [|x [|? ?]]; cbn [length] in *; try lia; [reflexivity|].
        cbn [seq forallb repeat combine fst snd negb orb]. rewrite !app_nth2 by lia. rewrite Lo, Li, Nat.add_0_r, Nat.sub_diag. cbn [nth].
        unfold asz. cbn [Nat.eqb]. rewrite EX. auto. }
      assert (E4 : forallb (fun k => nth (tb_order X + k) (shape A) 0%nat <=? nth (tb_order X + k) (is ++ e) 0%nat) (seq 0 (length (exts X r))) =
                   second_block (fun _ => true) (asz X r) (repeat 0%nat (length (exts X r))) e).
      { rewrite HsA. unfold second_block.
        destruct (exts X r) as [|q [|? ?]] eqn:EX, e as [|x [|? ?]]; cbn [length] in *; try lia; [reflexivity|].
        cbn [seq forallb repeat combine fst snd negb orb]. rewrite !app_nth2 by lia. rewrite Lo, Li, Nat.add_0_r, Nat.sub_diag. cbn [nth].
        unfold asz. cbn [Nat.eqb]. rewrite EX. auto. }
      rewrite E1, E2, E3, E4. f_equal.
      + destruct (blw X r is && first_block (fun _ => true) (asz X r) (repeat 0%nat (length (exts X r))) e) eqn:E; auto.
        apply andb_prop in E. destruct E as [Eb Ef]. symmetry. apply HgA.
        * apply NumpyP.valid_intro; [lia|]. intros k Hk. unfold blw in Eb. rewrite (forallb_perm _ _ _ PR), forallb_forall in Eb.
          rewrite Lo in Hk. specialize (Eb k ltac:(apply in_seq; lia)). apply Nat.ltb_lt in Eb. auto.
        * unfold first_block in Ef. destruct (exts X r) as [|q [|? ?]] eqn:EX, e as [|x [|? ?]]; cbn [length] in *; try lia; [apply NumpyP.valid_intro; auto; cbn; lia|].
          cbn [repeat combine forallb fst snd negb orb] in Ef. unfold asz in Ef. cbn [Nat.eqb] in Ef. rewrite EX in Ef. cbn [nth] in Ef. rewrite andb_true_r in Ef.
          apply Nat.ltb_lt in Ef. apply NumpyP.valid_intro; auto. intros [|k] Hk; cbn in *; lia.
      + destruct (abv X r is && second_block (fun _ => true) (asz X r) (repeat 0%nat (length (exts X r))) e) eqn:E; auto.
        apply andb_prop in E. destruct E as [Eb Ef].
        replace (map (fun k => if inb k (seq 0 (tb_order X + length (exts X r))) then (nth k (is ++ e) 0 - nth k (shape A) 0)%nat else nth k (is ++ e) 0%nat) (seq 0 (length (shape A))))
          with (shi X is ++ shiftb (fun _ => true) (asz X r) (repeat 0%nat (length (exts X r))) e).
        * symmetry. apply HgB.
          -- apply NumpyP.valid_intro; [unfold shi; rewrite map_length, seq_length; lia|]. intros k Hk. rewrite <- LS, Lo in Hk.
             unfold shi. rewrite nth_map_seq by auto. pose proof (valid_nth _ _ k Hi) as Hv. rewrite SZ in Hv. rewrite map_length in Hv. specialize (Hv Hk).
             rewrite map_nth_in with (da := 0%nat) in Hv by (exact Hk). unfold cat_m in Hv. unfold tb_shape. rewrite HT, !map_nth_in with (da := 0%nat) by (exact Hk).
             unfold abv in Eb. rewrite (forallb_perm _ _ _ PR), forallb_forall in Eb. specialize (Eb k ltac:(apply in_seq; lia)). apply Nat.leb_le in Eb.
             unfold tb_shape in Eb. rewrite map_nth_in with (da := 0%nat) in Eb by (exact Hk). lia.
          -- rewrite EZ in He. unfold cat_ext in He. unfold second_block in Ef. unfold shiftb.
             destruct (exts X r) as [|q [|? ?]] eqn:EX, e as [|x [|? ?]], (exts Y r) as [|q' [|? ?]] eqn:EY; cbn [length] in *; try lia; [apply NumpyP.valid_intro; auto; cbn; lia|].
             cbn [repeat combine forallb fst snd negb orb map] in *. unfold bsz, asz in *. cbn [Nat.eqb] in *. rewrite EX, EY in *. cbn [nth] in *. rewrite andb_true_r in Ef.
             apply Nat.leb_le in Ef. pose proof (valid_nth _ _ 0 He ltac:(cbn; lia)) as Hv. cbn in Hv. apply NumpyP.valid_intro; auto. intros [|k] Hk; cbn in *; lia.
        * apply nth_ext' with (d := 0%nat).
          -- unfold shi, shiftb. rewrite app_length, !map_length, !seq_length, combine_length, repeat_length. unfold ndim in LA. lia.
          -- unfold shi at 1. rewrite app_length, map_length, seq_length. unfold shiftb at 1. rewrite map_length, combine_length, repeat_length, Le, Nat.min_id.
             intros k Hk. rewrite nth_map_seq by (unfold ndim in LA; lia). replace (inb k (seq 0 (tb_order X + length (exts X r)))) with true by (symmetry; apply inb_spec, in_seq; lia).
             rewrite HsA. destruct (Nat.lt_ge_cases k (tb_order X)) as [Hlt|Hge].
             ++ rewrite !app_nth1 by (unfold shi; rewrite ?map_length, ?seq_length; lia). unfold shi. rewrite nth_map_seq by auto. auto.
             ++ rewrite !app_nth2 by (unfold shi; rewrite ?map_length, ?seq_length; lia). unfold shi. rewrite map_length, seq_length, Li, Lo.
                assert (k - tb_order X = 0)%nat as -> by lia. unfold shiftb.
                destruct (exts X r) as [|q [|? ?]] eqn:EX, e as [|x [|? ?]]; cbn [length] in *; try lia. cbn [repeat combine map fst snd nth]. unfold asz. cbn [Nat.eqb]. rewrite EX. auto.
  Qed.

  (** reduce_sum *)
  Theorem tb_reduce_sum_some (X : tbt R) r A ds : tb_ok X r -> (2 <= tb_order X)%nat -> tb_full X = Some A ->
    NoDup ds -> Forall (fun k => (k < tb_order X)%nat) ds -> (length ds < tb_order X)%nat -> (ndim A = tb_order X \/ (length ds + 2 <= tb_order X)%nat) ->
    exists Z r', tb_reduce_sum X (Some ds) = Some (inr Z) /\ tb_ok Z r' /\ tb_order Z = (tb_order X - length ds)%nat /\
      returns (tb_full Z) (sel 0%nat (shape A) (compl (ndim A) ds)) (fun is => bsum (sel 0%nat (shape A) ds) (fun js => get A (asm (ndim A) ds js is))).
  Proof.
    intros O H2 HA HND HF HL Hor. unfold tb_reduce_sum.
    replace (forallb (fun d => d <? tb_order X)%nat ds) with true by (symmetry; apply forallb_forall; intros k Hk; rewrite Forall_forall in HF; apply Nat.ltb_lt, HF; auto).
    destruct (full_inv X r A O H2 HA) as [HsA HgA].
    set (vs := map (fun d => ND [nth d (tb_shape X) 0%nat] (fun _ => r1)) ds).
    destruct (tvp_some X r A vs ds O H2 HA HND HF) as (Z & r' & E & OZ & LZ & F & EF & SF & GF); auto.
    - unfold vs. apply map_length.
    - intros k Hk. unfold vs. rewrite map_nth_in with (da := 0%nat) by auto. cbn [shape]. rewrite HsA, app_nth1; auto.
      rewrite tb_shape_length. fold (tb_order X). rewrite Forall_forall in HF. apply HF, nth_In. auto.
    - exists Z, r'. split; auto. split; auto. split; auto. exists F. split; auto. split; auto. intros is Hi. rewrite GF by auto.
      apply bsum_ext. intros js Hj. replace (vfactors vs js) with (r1 : R); [ring|]. symmetry.
      assert (Lj : length js = length ds) by (rewrite (valid_length _ _ Hj); apply sel_length).
      clear - Lj. unfold vfactors, vs. revert js Lj. induction ds as [|d ds IH]; intros [|j js] Lj; cbn in *; try lia; auto.
      rewrite IH by lia. ring.
  Qed.
  Theorem tb_reduce_sum_all (X : tbt R) r A : tb_ok X r -> (2 <= tb_order X)%nat -> tb_full X = Some A -> ndim A = tb_order X ->
    exists B, tb_reduce_sum X None = Some (inl B) /\ shape B = [] /\ get B [] = bsum (shape A) (get A).
  Proof.
    intros O H2 HA HN. unfold tb_reduce_sum. set (ds := seq 0 (tb_order X)).
    replace (forallb (fun d => d <? tb_order X)%nat ds) with true by (symmetry; apply forallb_forall; intros k Hk; apply in_seq in Hk; apply Nat.ltb_lt; lia).
    destruct (full_inv X r A O H2 HA) as [HsA HgA].
    set (vs := map (fun d => ND [nth d (tb_shape X) 0%nat] (fun _ => r1)) ds).
    destruct (tvp_all X r A vs ds O H2 HA) as (B & E & SB & GB).
    - apply seq_NoDup.
    - apply Forall_forall. intros k Hk. apply in_seq in Hk. lia.
    - unfold vs. apply map_length.
    - intros k Hk. unfold vs. rewrite map_nth_in with (da := 0%nat) by auto. cbn [shape]. rewrite HsA, app_nth1; auto.
      rewrite tb_shape_length. fold (tb_order X). unfold ds in *. rewrite seq_length in Hk. rewrite seq_nth by auto. auto.
    - unfold ds. apply seq_length.
    - auto.
    - exists B. split; auto. split; auto. rewrite GB. unfold ds at 1.
      replace (sel 0%nat (shape A) (seq 0 (tb_order X))) with (shape A) by (rewrite <- HN; unfold ndim; symmetry; apply sel_seq).
      apply bsum_ext. intros js Hj. 
      assert (Lj : length js = length ds) by (rewrite (valid_length _ _ Hj); unfold ds; rewrite seq_length; exact HN).
      replace (vfactors vs js) with (r1 : R).
      + replace (asm (ndim A) ds js []) with js; [ring|].
        assert (Lds : length ds = tb_order X) by (unfold ds; apply seq_length).
        pose proof (sel_asm (ndim A) ds js []) as Es. rewrite HN in Es. specialize (Es (seq_NoDup _ _)).
        assert (HF : Forall (fun k => k < tb_order X)%nat ds) by (apply Forall_forall; intros k Hk; apply in_seq in Hk; lia).
        specialize (Es HF Lj). rewrite HN. rewrite <- Es at 1. unfold ds at 2.
        transitivity (sel 0%nat (asm (tb_order X) ds js []) (seq 0 (length (asm (tb_order X) ds js [])))); [rewrite asm_length; auto|apply sel_seq].
      + clear - Lj. unfold vfactors, vs. revert js Lj. induction ds as [|d l IH]; intros [|j js] Lj; cbn in *; try lia; auto. rewrite <- IH by lia. ring.
  Qed.
End CatFull.
