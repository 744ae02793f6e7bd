(** Proofs for Model/FuncGrad.v: values of the contracted tensor. *)
From Coq Require Import List Arith Lia Bool Permutation.
From Verif.Base Require Import ListAux CRing Index.
From Verif.Model Require Import Numpy FullTensor DimensionTree TreeBased TreeEval HsvdTree TreeGrad FuncGrad.
From Verif.Spec Require Import TensorSpec TreeSpec TreeTensorSpec GradSpec FuncGradSpec.
From Verif.Proofs Require Import NumpyP FullTensorP DimTreeP TreeTensorP TreeTensorP3 TreeTensorP4 TreeTensorP17 TreeGradP8 TreeGradP9 FuncGradP1 DiagonalP.
Import ListNotations.
Local Open Scope cr_scope.

Section FuncGradP2.
  Context {R : Type} {CR : CRing R}.
  Add Ring Rfg2 : rth.
  Variables (X : tbt R) (r a q : nat) (Bs : list (nd R)).
  Hypothesis O : tb_ok X r.
  Hypothesis H2 : (2 <= tb_order X)%nat.
  Hypothesis Ha : node (ttree X) a.
  Hypothesis Hq : (0 < q)%nat.
  Hypothesis HB : bases_ok X Bs q.
  Local Notation t := (ttree X).
  Local Notation own := (own_dims X a).
  Local Notation dms := (compl (tb_order X) own).
  Local Notation B mu := (nth mu Bs (scalar r0)).

  Lemma own_in mu : (mu < tb_order X)%nat -> In mu own <-> In (nth mu (d2i t) 0%nat) (own_leaves X a).
  Proof.
    intros Hmu. unfold tb_order in Hmu. pose proof (NoDup_d2i t r (proj1 O)) as ND. unfold own_dims. rewrite in_map_iff. split.
    - intros (c & <- & Hc). assert (Hl : is_leaf t c = true).
      { unfold own_leaves in Hc. destruct (is_leaf t a) eqn:Hl; [destruct Hc as [<-|[]]; auto|]. apply filter_In in Hc. destruct Hc as [Hc Ac]. apply negb_true_iff in Ac.
        destruct (is_leaf t c) eqn:E; auto. rewrite (ok_internal X r O c) in Ac; [discriminate| |auto]. apply (proj1 (in_children t a c Ha)) in Hc. apply Hc. }
      rewrite (proj2 (leaf_index t c Hl)). auto.
    - intros Hc. exists (nth mu (d2i t) 0%nat). split; auto. apply index_of_NoDup; auto.
  Qed.
  Lemma dms_eq : fg_dims X a = dms.
  Proof.
    unfold fg_dims. destruct (is_leaf t a) eqn:Hl; unfold compl; apply filter_ext_in; intros mu Hmu; apply in_seq in Hmu; f_equal; apply eq_true_iff_eq; rewrite (inb_spec mu own), own_in by lia; unfold own_leaves; rewrite Hl.
    - rewrite Nat.eqb_eq. cbn. intuition.
    - rewrite inb_spec. reflexivity.
  Qed.
  Lemma own_lt : Forall (fun k => (k < tb_order X)%nat) own.
  Proof. apply Forall_forall. intros d Hd. apply (own_D X r a O Ha d Hd). Qed.
  Lemma dms_not_a mu : In mu dms -> target X mu <> a.
  Proof.
    intros Hmu E. apply in_compl in Hmu. destruct Hmu as [Hmu Hn]. apply Hn. apply own_in; auto. unfold own_leaves. unfold target in E. pose proof (d2i_leaf t mu Hmu) as L.
    destruct (active X (nth mu (d2i t) 0%nat)) eqn:Ac.
    - rewrite <- E, L. simpl; auto.
    - assert (He : edge t a (nth mu (d2i t) 0%nat)).
      { rewrite <- E. apply (parent_is_edge t r (proj1 (proj1 O))); [apply (leaf_node t r (proj1 O)); auto|]. intros Er. rewrite Er, (root_not_leaf X r O H2) in L. discriminate. }
      destruct (is_leaf t a) eqn:Hl; [apply (leaf_iff t r (proj1 O)) in Hl; exfalso; exact (proj2 Hl _ He)|]. apply filter_In. split; [apply in_children; auto|rewrite Ac; auto].
  Qed.
  Lemma y_same_shape Y n : differs_at X Y r a -> node t n -> shape (core Y n) = shape (core X n).
  Proof. intros (OY & Et & Es & Ec) Hn. destruct (Nat.eq_dec n a) as [->|NE]; auto. rewrite Ec; auto. Qed.
  Lemma y_shape Y : differs_at X Y r a -> tb_shape Y = tb_shape X.
  Proof.
    intros HY. pose proof (y_same_shape Y) as YS. assert (HY' := HY). destruct HY' as (OY & Et & Es & Ec). unfold tb_shape. rewrite Et. apply map_ext_in. intros n Hn.
    assert (Ln : is_leaf t n = true) by (apply inb_spec; auto). assert (Hnn : node t n) by (apply (leaf_node t r (proj1 O)); auto).
    unfold tb_size. rewrite (y_active X r a Y HY n Hnn), Et. destruct (active X n) eqn:An; [rewrite YS; auto|]. rewrite YS; auto.
    assert (E : edge t (parent t n) n); [|apply E]. apply (parent_is_edge t r (proj1 (proj1 O))); auto. intros ->. rewrite (ok_root X r O) in An. discriminate.
  Qed.
  Lemma y_exts Y n : differs_at X Y r a -> node t n -> exts Y n = exts X n.
  Proof.
    intros (OY & Et & Es & Ec) Hn. unfold exts. rewrite Et. destruct (Nat.eq_dec n a) as [->|NE]; [rewrite Es; auto|rewrite Ec by auto; auto].
  Qed.
  Lemma y_heads Y n : differs_at X Y r a -> node t n -> heads Y n = heads X n.
  Proof.
    intros (OY & Et & Es & Ec) Hn. unfold heads. rewrite Et. destruct (Nat.eq_dec n a) as [->|NE]; [rewrite Es; auto|rewrite Ec by auto; auto].
  Qed.

  Lemma lprod_sel (L : list nat) (A : list nat) (F : nat -> nat -> R) :
    lprod L (fun mu => F mu (nth mu A 0%nat)) = lprod (combine L (sel 0%nat A L)) (fun p => F (fst p) (snd p)).
  Proof. induction L as [|x L IH]; cbn; auto. f_equal. exact IH. Qed.
  Lemma factors_combine (L : list nat) i : forall js, length js = length L ->
    factors (map (fun mu => B mu) L) (repeat i (length L)) js = lprod (combine L js) (fun p => get (B (fst p)) [i; snd p]).
  Proof. induction L as [|x L IH]; intros [|j js] E; cbn in *; try discriminate; auto. rewrite IH by lia. auto. Qed.

  Lemma dms_ms k : (k < length dms)%nat -> exists p, (0 < p)%nat /\ shape (nth k (map (fun mu => B mu) dms) (scalar r0)) = [p; nth (nth k dms 0%nat) (tb_shape X) 0%nat].
  Proof.
    intros Hk. exists q. split; auto. rewrite (map_nth_in (fun mu => B mu) dms k 0%nat (scalar r0)) by auto. apply HB. pose proof (compl_lt (tb_order X) own) as K. rewrite Forall_forall in K. apply K. apply nth_In. auto.
  Qed.
  Lemma mrows_dms : map mrows (map (fun mu => B mu) dms) = repeat q (length dms).
  Proof.
    apply nth_ext' with (d := 0%nat); [rewrite !map_length, repeat_length; auto|]. intros k Hk. rewrite !map_length in Hk.
    rewrite (map_nth_in mrows _ k (scalar r0) 0%nat) by (rewrite map_length; auto). rewrite (map_nth_in (fun mu => B mu) dms k 0%nat (scalar r0)) by auto. unfold mrows.
    destruct HB as [_ HB']. rewrite HB' by (pose proof (compl_lt (tb_order X) own) as K; rewrite Forall_forall in K; apply K, nth_In; auto). cbn.
    symmetry. apply nth_repeat_in. auto.
  Qed.

  Definition cont (Z : tbt R) : option (tbt R) := tb_tmp Z (map (fun mu => B mu) dms) (Some dms).
  (** the tensor Y (X or one that differs from X at a only) contracted with the bases of the other dimensions *)
  Lemma cont_value Y : differs_at X Y r a -> exists W, cont Y = Some W /\ tb_ok W r /\ ttree W = t /\ exts W r = exts X r /\
      (forall n, node t n -> active W n = active X n) /\
      (forall mu, (mu < tb_order X)%nat -> ~ In mu own -> nth mu (tb_shape W) 0%nat = q) /\
      (forall mu, In mu own -> nth mu (tb_shape W) 0%nat = nth mu (tb_shape X) 0%nat) /\
      forall i e, (i < q)%nat -> valid (exts X r) e -> diag_with W r a (fun d => B d) i e = value_at Y r Bs i e.
  Proof.
    intros HY. pose proof (y_shape Y HY) as SY. pose proof (y_order X r a Y HY) as OrdY. assert (HY' := HY). destruct HY' as (OY & Et & Es & Ec).
    pose proof (own_NoDup X r a O Ha) as NDo. pose proof own_lt as OL.
    pose proof (NoDup_compl (tb_order X) own) as NDd. pose proof (compl_lt (tb_order X) own) as DL.
    destruct (tb_tmp_chain Y r (map (fun mu => B mu) dms) dms OY) as (W & EW & HC); rewrite ?OrdY; auto.
    { rewrite map_length; auto. } { rewrite SY. apply dms_ms. }
    exists W. split; auto.
    assert (Hr : is_leaf (ttree Y) r = false) by (apply root_not_leaf; auto; rewrite OrdY; auto).
    destruct (chain_ok Y dms _ W r HC OY Hr) as (OW & EX & SW & AW & VW); rewrite ?OrdY; auto.
    pose proof (chain_tree _ _ _ _ HC) as TW. rewrite Et in TW.
    assert (Hrn : node t r) by exact (proj1 (proj1 (proj1 O))).
    rewrite (y_exts Y r HY Hrn) in EX. rewrite SY, mrows_dms in SW.
    assert (LS : length (tb_shape X) = tb_order X) by (rewrite tb_shape_length; auto).
    assert (DL' : Forall (fun k => (k < length (tb_shape X))%nat) dms) by (rewrite LS; auto).
    assert (Sin : forall mu, (mu < tb_order X)%nat -> ~ In mu own -> nth mu (tb_shape W) 0%nat = q).
    { intros mu Hmu Hni. rewrite SW. assert (Hi : In mu dms) by (apply in_compl; auto).
      destruct (In_nth dms mu 0%nat Hi) as (k & Hk & Ek). rewrite <- Ek. rewrite put_nth_in; [apply nth_repeat_in; auto|auto|auto|rewrite repeat_length; auto|rewrite Ek, LS; auto]. }
    assert (Sout : forall mu, In mu own -> nth mu (tb_shape W) 0%nat = nth mu (tb_shape X) 0%nat).
    { intros mu Hmu. rewrite SW, put_nth_out; auto. intros Hi. apply in_compl in Hi. tauto. }
    split; auto. split; auto. split; auto. split; [intros n Hn; rewrite AW by (rewrite Et; auto); apply (y_active X r a Y HY n Hn)|]. split; auto. split; auto.
    intros i e Hi He. unfold diag_with, value_at.
    assert (OrdW : tb_order W = tb_order X) by (unfold tb_order; rewrite TW; auto).
    assert (OwnW : own_dims W a = own).
    { unfold own_dims, own_leaves. rewrite TW. destruct (is_leaf t a); auto. f_equal. apply filter_ext_in. intros c Hc. f_equal.
      apply (proj1 (in_children t a c Ha)) in Hc. rewrite AW by (rewrite Et; apply Hc). apply (y_active X r a Y HY); apply Hc. }
    rewrite OwnW, OrdW, SY, OrdY. rewrite (bsum_asm (tb_shape X) own) by (auto; rewrite LS; auto). rewrite LS.
    replace (map (fun d => nth d (tb_shape W) 0%nat) own) with (sel 0%nat (tb_shape X) own) by (apply map_ext_in; intros d Hd; symmetry; auto).
    apply bsum_ext. intros ks Hks. assert (Lk : length ks = length own) by (rewrite (valid_length _ _ Hks), sel_length; auto).
    rewrite VW; auto.
    - rewrite SY. rewrite <- bsum_scal_l. apply bsum_ext. intros ls Hls. assert (Ll : length ls = length dms) by (rewrite (valid_length _ _ Hls), sel_length; auto).
      assert (E1 : put dms ls (put own ks (repeat i (tb_order X))) = asm (tb_order X) own ks ls).
      { symmetry. apply asm_ext; auto.
        - rewrite !put_length, repeat_length; auto.
        - intros m Hm. rewrite put_nth_out by (intros Hc; apply in_compl in Hc; destruct Hc as [_ Hc]; apply Hc; apply nth_In; auto).
          apply put_nth_in; auto. rewrite repeat_length. rewrite Forall_forall in OL. apply OL, nth_In; auto.
        - intros m Hm. apply put_nth_in; auto. rewrite put_length, repeat_length. rewrite Forall_forall in DL. apply DL, nth_In; auto. }
      rewrite E1.
      assert (E2 : sel 0%nat (put own ks (repeat i (tb_order X))) dms = repeat i (length dms)).
      { apply nth_ext' with (d := 0%nat); [rewrite sel_length, repeat_length; auto|]. intros m Hm. rewrite sel_length in Hm. rewrite sel_nth by auto.
        pose proof (nth_In dms 0%nat Hm) as Hin. rewrite put_nth_out by (apply in_compl in Hin; tauto).
        rewrite !nth_repeat_in; auto. apply in_compl in Hin. tauto. }
      rewrite E2, factors_combine by auto.
      rewrite (lprod_perm (seq 0 (tb_order X)) (own ++ dms)) by (apply Permutation_sym; apply app_compl_perm; auto).
      rewrite lprod_app. rewrite (lprod_sel own (asm (tb_order X) own ks ls) (fun mu j => get (B mu) [i; j])), (lprod_sel dms (asm (tb_order X) own ks ls) (fun mu j => get (B mu) [i; j])). rewrite sel_asm by auto. rewrite sel_asm_compl by auto. ring.
    - rewrite SW. apply valid_intro.
      + rewrite !put_length, repeat_length. auto.
      + intros k Hk. rewrite put_length, LS in Hk. rewrite <- SW. destruct (in_dec Nat.eq_dec k own) as [Hin|Hni].
        * rewrite Sout by auto. destruct (In_nth own k 0%nat Hin) as (m & Hm & Em). rewrite <- Em. rewrite put_nth_in; [|auto|auto|auto|rewrite repeat_length, Em; auto].
          pose proof (valid_nth _ _ m Hks) as K. rewrite sel_length in K. specialize (K Hm). rewrite sel_nth in K by auto. auto.
        * rewrite Sin by auto. rewrite put_nth_out by auto.
          rewrite nth_repeat_in; auto.
    - rewrite (y_exts Y r HY Hrn). auto.
  Qed.
End FuncGradP2.
