(** FullTensor.tensor_matrix_product_eval_diag. *)
From Coq Require Import List Arith Lia Bool Sorted Ring Permutation.
From Verif.Base Require Import ListAux CRing Index.
From Verif.Model Require Import Numpy FullTensor.
From Verif.Spec Require Import TensorSpec.
From Verif.Proofs Require Import NumpyP FullTensorP FullTensorP3 FunctionsP SparseP EinsumP EinsumP2.
Import ListNotations.

Lemma compl_cons_low n p P : p < n -> Forall (fun x => p < x) P ->
  exists rest, compl n P = seq 0 p ++ p :: rest /\ compl n (p :: P) = seq 0 p ++ rest.
Proof.
  intros Hp HP. rewrite Forall_forall in HP. exists (filter (fun k => negb (inb k P)) (seq (S p) (n - S p))). unfold compl.
  replace n with (p + S (n - S p)) at 1 3 by lia. rewrite seq_app, !filter_app. cbn [Nat.add seq filter].
  assert (E1 : inb p P = false) by (apply inb_false; intros K; apply HP in K; lia).
  assert (E2 : inb p (p :: P) = true) by (apply inb_spec; left; auto). rewrite E1, E2. cbn [negb]. split.
  - f_equal. apply filter_true. intros x Hx. apply in_seq in Hx. apply negb_true_iff, inb_false. intros K. apply HP in K. lia.
  - f_equal.
    + apply filter_true. intros x Hx. apply in_seq in Hx. apply negb_true_iff, inb_false. intros [K|K]; [lia|]. apply HP in K. lia.
    + apply filter_ext_in. intros x Hx. apply in_seq in Hx. f_equal. cbn [inb existsb]. destruct (Nat.eqb_spec x p); [lia|]. reflexivity.
Qed.
Lemma asm_cons_low n p P k ks a1 a2 : p < n -> Forall (fun x => p < x) P -> Forall (fun x => x < n) P -> NoDup P -> length a1 = p ->
  length (a1 ++ a2) = length (compl n (p :: P)) ->
  asm n (p :: P) (k :: ks) (a1 ++ a2) = asm n P ks (a1 ++ k :: a2).
Proof.
  intros Hp HP HF ND L1 L2. destruct (compl_cons_low n p P Hp HP) as (rest & E1 & E2). rewrite E2, !app_length, seq_length in L2.
  assert (NI : ~ In p P) by (rewrite Forall_forall in HP; intros K; apply HP in K; lia).
  apply asm_ext.
  - apply asm_length.
  - constructor; auto.
  - constructor; auto.
  - intros [|m] Hm; cbn [nth].
    + rewrite asm_nth by auto. rewrite (proj2 (inb_false p P)) by auto. rewrite E1, index_of_app_r by (rewrite in_seq; lia). cbn [index_of]. rewrite Nat.eqb_refl, seq_length, Nat.add_0_r, app_nth2, L1, Nat.sub_diag by lia. reflexivity.
    + cbn [length] in Hm. apply asm_nth_in; auto. lia.
  - intros m Hm. rewrite E2, app_length, seq_length in Hm. rewrite E2. destruct (Nat.lt_ge_cases m p) as [Q|Q].
    + rewrite !app_nth1 by (try rewrite seq_length; lia). rewrite seq_nth by auto. cbn [Nat.add]. rewrite asm_nth by lia.
      rewrite (proj2 (inb_false m P)) by (rewrite Forall_forall in HP; intros K; apply HP in K; lia).
      rewrite E1, index_of_app_l by (apply in_seq; lia). rewrite index_of_seq by lia. rewrite app_nth1 by lia. f_equal. lia.
    + rewrite !app_nth2 by (try rewrite seq_length; lia). rewrite seq_length, L1.
      pose proof (asm_nth_out n P ks (a1 ++ k :: a2) (S m)) as K. rewrite E1, app_length, seq_length in K. cbn [length] in K. specialize (K ltac:(lia)).
      rewrite !app_nth2 in K by (try rewrite seq_length; lia). rewrite seq_length, L1 in K. replace (S m - p)%nat with (S (m - p)) in K by lia. cbn [nth] in K. exact K.
Qed.

Section TmpEd.
  Context {R : Type} {CR : CRing R}.
  Add Ring Rrt3 : rth.
  Local Open Scope cr_scope.
  Variables (A : nd R) (Ms : list (nd R)) (dims : list nat) (q : nat).
  Let n := ndim A.
  Hypothesis HF : Forall (fun k => (k < n)%nat) dims.
  Hypothesis ND : NoDup dims.
  Let m (i : nat) : nd R := nth i Ms (scalar r0).
  Hypothesis HM : forall i, (i < length dims)%nat -> shape (m i) = [q; nth (nth i dims 0%nat) (shape A) 0%nat].

  Definition ed_inv (done : list nat) (out : nd R) : Prop :=
    shape out = q :: sel 0%nat (shape A) (compl n (sel 0%nat dims done)) /\
    forall i a, (i < q)%nat -> valid (sel 0%nat (shape A) (compl n (sel 0%nat dims done))) a ->
      get out (i :: a) = bsum (sel 0%nat (shape A) (sel 0%nat dims done)) (fun ks =>
        get A (asm n (sel 0%nat dims done) ks a) * lprod (combine done ks) (fun p => get (m (fst p)) [i; snd p])).
  Lemma ed_step j done out : (j < length dims)%nat -> Forall (fun k => (k < length dims)%nat) done ->
    StronglySorted lt (nth j dims 0%nat :: sel 0%nat dims done) -> ed_inv done out ->
    exists out', ft_tensordot_eval_diag (m j) out [1%nat] [(nth j dims 0 + 1)%nat] [0%nat] [0%nat] false = Some out' /\ ed_inv (j :: done) out'.
  Proof.
    intros Hj HFd SS [Hs Hg]. set (p := nth j dims 0%nat) in *. set (P := sel 0%nat dims done) in *.
    assert (Hp : (p < n)%nat) by (rewrite Forall_forall in HF; apply HF, nth_In; auto). inversion SS as [|? ? SP HP]. subst.
    assert (FP : Forall (fun x => (x < n)%nat) P).
    { apply Forall_forall. intros x Hx. unfold P, sel in Hx. apply in_map_iff in Hx. destruct Hx as (u & <- & Hu). rewrite Forall_forall in HF, HFd. apply HF, nth_In. auto. }
    assert (NP : NoDup P).
    { clear - SP. induction SP as [|x l S1 IH HFx]; constructor; auto. rewrite Forall_forall in HFx. intros K. apply HFx in K. lia. }
    destruct (compl_cons_low n p P Hp HP) as (rest & E1 & E2).
    rewrite E1 in Hs. unfold sel in Hs. rewrite map_app in Hs. cbn [map] in Hs.
    destruct (mode_ed (m j) out q (nth p (shape A) 0%nat) p (map (fun k => nth k (shape A) 0%nat) (seq 0 p)) (map (fun k => nth k (shape A) 0%nat) rest)) as (C & HC & HsC & HgC); auto.
    { apply HM. auto. }
    { rewrite map_length, seq_length. auto. }
    exists C. split; auto. unfold ed_inv. change (sel 0%nat dims (j :: done)) with (p :: P). rewrite E2. unfold sel at 1 2. rewrite map_app. split; auto.
    intros i a Hi Ha. apply valid_app_inv in Ha. destruct Ha as (a1 & a2 & -> & V1 & V2).
    pose proof (valid_length _ _ V1) as L1. pose proof (valid_length _ _ V2) as L2. rewrite map_length in L1, L2. rewrite seq_length in L1.
    rewrite HgC; [|rewrite map_length, seq_length; lia|rewrite map_length; lia]. cbn [sel map bsum]. apply rsum_ext. intros k Hk.
    rewrite Hg; auto.
    - rewrite <- bsum_scal_l. apply bsum_ext. intros ks Hks. rewrite asm_cons_low; auto.
      + cbn [combine lprod fst snd]. change (sel 0%nat dims done) with P. ring.
      + rewrite E2, !app_length, seq_length. lia.
    - rewrite E1. unfold sel. rewrite map_app. cbn [map]. apply valid_app; auto. constructor; auto.
  Qed.
  Lemma ed_loop l : forall done out, Forall (fun k => (k < length dims)%nat) (l ++ done) ->
    StronglySorted lt (sel 0%nat dims (rev l ++ done)) -> ed_inv done out ->
    exists out', ofold (fun out i => ft_tensordot_eval_diag (m i) out [1%nat] [(nth i dims 0 + 1)%nat] [0%nat] [0%nat] false) l out = Some out' /\
      ed_inv (rev l ++ done) out'.
  Proof.
    induction l as [|j l IH]; intros done out HFl SS HI.
    - exists out. split; auto.
    - cbn [app] in HFl. inversion HFl as [|? ? Hj HFl']. subst. cbn [rev] in SS. rewrite <- app_assoc in SS. cbn [app] in SS.
      assert (SS' : StronglySorted lt (nth j dims 0%nat :: sel 0%nat dims done)).
      { clear - SS. unfold sel in SS. rewrite map_app in SS. cbn [map] in SS. induction (map (fun k => nth k dims 0%nat) (rev l)) as [|x u IHu]; [exact SS|]. apply IHu. cbn [app] in SS. inversion SS. auto. }
      destruct (ed_step j done out) as (o' & E & HI'); auto. { apply Forall_app in HFl'. apply HFl'. }
      cbn [ofold]. rewrite E. destruct (IH (j :: done) o') as (o2 & E2 & HI2); auto.
      + apply Forall_app in HFl'. apply Forall_app. split; [apply HFl'|constructor; auto; apply HFl'].
      + exists o2. split; auto. cbn [rev]. rewrite <- app_assoc. exact HI2.
  Qed.
  Hypothesis LM : length Ms = length dims.
  Hypothesis NE : dims <> [].
  Lemma ft_tmp_eval_diag_ok : exists C, ft_tmp_eval_diag A Ms (Some dims) = Some C /\
    shape C = q :: sel 0%nat (shape A) (compl n dims) /\
    forall i a, (i < q)%nat -> valid (sel 0%nat (shape A) (compl n dims)) a ->
      get C (i :: a) = bsum (sel 0%nat (shape A) dims) (fun ks => get A (asm n dims ks a) * factors Ms (repeat i (length dims)) ks).
  Proof.
    unfold ft_tmp_eval_diag. rewrite LM, Nat.eqb_refl. cbn [negb].
    destruct (np_argsort_spec dims) as [PM Srt]. pose proof (is_perm_length _ _ PM) as Lp.
    assert (FPm : Forall (fun k => (k < length dims)%nat) (np_argsort dims)).
    { apply Forall_forall. intros x Hx. apply (is_perm_in _ _ x PM). auto. }
    assert (SS : StronglySorted lt (sel 0%nat dims (np_argsort dims))).
    { assert (NDs : NoDup (sel 0%nat dims (np_argsort dims))) by (eapply Permutation_NoDup; [symmetry; apply (sel_perm 0%nat (length dims)); auto|auto]).
      assert (Lx : length (sel 0%nat dims (np_argsort dims)) = length dims) by (rewrite sel_length; auto).
      revert NDs Srt Lx. generalize (length dims) as N, (sel 0%nat dims (np_argsort dims)) as l. clear. intros N l. revert N. induction l as [|x l IH]; intros N NDs Srt Lx; constructor.
      - inversion NDs. subst. apply (IH (length l)); auto. intros i j Hi Hj. apply (Srt (S i) (S j)); cbn [length] in *; lia.
      - inversion NDs as [|? ? Hx ND']. subst. apply Forall_forall. intros y Hy. destruct (In_nth l y 0%nat Hy) as (k & Hk & Ek). pose proof (Srt 0%nat (S k) ltac:(lia) ltac:(cbn [length]; lia)) as Q. cbn [nth] in Q. rewrite Ek in Q.
        destruct (Nat.eq_dec x y); [subst; contradiction|lia]. }
    destruct (rev (np_argsort dims)) as [|i0 l] eqn:Er.
    { exfalso. apply (f_equal (@length nat)) in Er. rewrite rev_length, Lp in Er. destruct dims; [auto|discriminate]. }
    assert (Ea : np_argsort dims = rev l ++ [i0]) by (rewrite <- (rev_involutive (np_argsort dims)), Er; reflexivity).
    assert (Hi0 : (i0 < length dims)%nat) by (rewrite Forall_forall in FPm; apply FPm; rewrite Ea; apply in_or_app; right; left; auto).
    set (p := nth i0 dims 0%nat). assert (Hp : (p < n)%nat) by (rewrite Forall_forall in HF; apply HF, nth_In; auto).
    fold (m i0). destruct (ft_tensordot_spec (m i0) A [1%nat] [p]) as (C0 & E0 & Hs0 & Hg0).
    - repeat constructor. intros [].
    - repeat constructor. intros [].
    - unfold ndim. rewrite HM by auto. repeat constructor.
    - repeat constructor. exact Hp.
    - rewrite HM by auto. reflexivity.
    - assert (N2 : ndim (m i0) = 2%nat) by (unfold ndim; rewrite HM; auto). rewrite N2 in Hs0, Hg0.
      assert (Ec : sel 0%nat (shape (m i0)) (compl 2 [1%nat]) = [q]) by (rewrite HM by auto; reflexivity). rewrite Ec in *.
      assert (HI0 : ed_inv [i0] C0).
      { split; [exact Hs0|]. intros i a Hi Ha. change (i :: a) with ([i] ++ a). rewrite Hg0; [|constructor; [auto|constructor]|exact Ha]. rewrite HM by auto. cbn [sel map bsum nth]. fold p. apply rsum_ext. intros k Hk.
        cbn [combine lprod fst snd]. change (asm 2 [1%nat] [k] [i]) with [i; k]. change (ndim A) with n. ring. }
      rewrite E0. cbn [bind]. destruct (ed_loop l [i0] C0) as (C & EC & HsC & HgC); auto.
      + apply Forall_app. split; [|constructor; auto]. rewrite Ea in FPm. apply Forall_app in FPm. apply Forall_forall. intros x Hx. destruct FPm as [K _]. rewrite Forall_forall in K. apply K. apply in_rev in Hx. auto.
      + rewrite <- Ea. exact SS.
      + rewrite <- Ea in HsC, HgC. set (sg := np_argsort dims) in *.
        assert (Ecc : compl n (sel 0%nat dims sg) = compl n dims).
        { unfold compl. apply filter_ext_in. intros x _. f_equal. destruct (inb x dims) eqn:E.
          - apply inb_spec in E. apply inb_spec. eapply Permutation_in; [symmetry; apply (sel_perm 0%nat (length dims)); auto|auto].
          - apply inb_false in E. apply inb_false. intros K. apply E. eapply Permutation_in; [apply (sel_perm 0%nat (length dims)); eauto|auto]. }
        rewrite Ecc in *. exists C. split; [exact EC|]. split; auto. intros i a Hi Ha. rewrite HgC by auto.
        rewrite <- (sel_sel 0%nat (shape A) dims sg) by auto.
        rewrite <- (bsum_bij (sel 0%nat (shape A) dims) (sel 0%nat (sel 0%nat (shape A) dims) sg) (fun ks => sel 0%nat ks sg) (fun ks => sel 0%nat ks (inv_perm sg))).
        * apply bsum_ext. intros ks Hks. pose proof (valid_length _ _ Hks) as Lk. rewrite sel_length in Lk. f_equal.
          -- f_equal. apply asm_ext.
             ++ apply asm_length.
             ++ eapply Permutation_NoDup; [symmetry; apply (sel_perm 0%nat (length dims)); auto|auto].
             ++ eapply Permutation_Forall; [symmetry; apply (sel_perm 0%nat (length dims)); auto|auto].
             ++ intros j Hj. rewrite sel_length in Hj. rewrite !sel_nth by auto. apply asm_nth_in; auto. apply is_perm_nth; auto. lia.
             ++ rewrite Ecc. intros j Hj. apply asm_nth_out. auto.
          -- rewrite <- LM, factors_seq by lia. rewrite LM.
             rewrite <- (lprod_perm sg (seq 0 (length dims)) (fun k => get (nth k Ms (scalar r0)) [i; nth k ks 0%nat])) by exact PM.
             unfold sel. clear. induction sg as [|x u IH]; auto. cbn [map combine lprod fst snd]. rewrite IH. reflexivity.
        * intros ks Hks. pose proof (valid_length _ _ Hks) as Lk. rewrite sel_length in Lk. split; [apply sel_valid; auto; rewrite sel_length; auto|]. apply (sel_inv_perm 0%nat (length dims)); auto.
        * intros ks Hks. pose proof (valid_length _ _ Hks) as Lk. rewrite !sel_length in Lk. split; [|apply (sel_inv_perm' 0%nat (length dims)); auto; lia].
          rewrite <- (sel_inv_perm 0%nat (length dims) sg (sel 0%nat (shape A) dims)) by (auto; rewrite sel_length; auto).
          apply sel_valid; auto. rewrite !sel_length, Lp. apply Forall_forall. intros x Hx. apply (is_perm_in (length dims) (inv_perm sg) x); auto. apply inv_perm_is_perm. auto.
  Qed.
End TmpEd.
