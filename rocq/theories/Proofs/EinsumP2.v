(** the uses of tensordot_eval_diag: outer products along a shared axis, contractions along a shared axis. *)
From Coq Require Import List Arith Lia Bool Sorted Ring Permutation.
From Verif.Base Require Import ListAux CRing Index.
From Verif.Model Require Import Numpy FullTensor.
From Verif.Spec Require Import TensorSpec.
From Verif.Proofs Require Import NumpyP FullTensorP FullTensorP3 FunctionsP EinsumP.
Import ListNotations.

Lemma sorted_seq m : forall k, StronglySorted lt (seq k m).
Proof. induction m as [|m IH]; intros k; cbn [seq]; constructor; auto. apply Forall_forall. intros x Hx. apply in_seq in Hx. lia. Qed.
Lemma index_of_seq a n : forall k, k <= a -> a < k + n -> index_of a (seq k n) = a - k.
Proof.
  induction n as [|n IH]; intros k H1 H2; [lia|]. cbn [seq index_of]. destruct (Nat.eqb_spec k a); [lia|]. rewrite IH by lia. lia.
Qed.
Lemma inb_seq a k n : inb a (seq k n) = (k <=? a) && (a <? k + n).
Proof. destruct (inb a (seq k n)) eqn:E; symmetry; [apply inb_spec, in_seq in E; apply andb_true_iff; rewrite Nat.leb_le, Nat.ltb_lt; lia|].
  apply inb_false in E. apply andb_false_iff. rewrite Nat.leb_gt, Nat.ltb_ge. rewrite in_seq in E. lia. Qed.
Lemma sel_seq_firstn (l : list nat) n : n <= length l -> sel 0 l (seq 0 n) = firstn n l.
Proof.
  intros H. apply nth_ext' with (d := 0); [rewrite sel_length, seq_length, firstn_length; lia|]. intros i Hi. rewrite sel_length, seq_length in Hi.
  rewrite sel_nth by (rewrite seq_length; auto). rewrite seq_nth by auto. rewrite <- (firstn_skipn n l) at 1. rewrite app_nth1; [reflexivity|rewrite firstn_length; lia].
Qed.
Lemma map_nth_shift (l : list nat) x : map (fun a => nth (S a) (x :: l) 0) (seq 0 (length l)) = l.
Proof. cbn [nth]. apply map_seq_nth. Qed.

Section Cor.
  Context {R : Type} {CR : CRing R}.
  Add Ring Rrt2 : rth.
  Local Open Scope cr_scope.

  Lemma outer_ed A B q sA m : shape A = q :: sA -> shape B = [q; m] ->
    exists C, ft_outer_eval_diag A B [0%nat] [0%nat] false = Some C /\ shape C = q :: sA ++ [m] /\
      forall i a k, length a = length sA -> get C (i :: a ++ [k]) = get A (i :: a) * get B [i; k].
  Proof.
    intros HA HB. assert (nA : ndim A = S (length sA)) by (unfold ndim; rewrite HA; auto). assert (nB : ndim B = 2%nat) by (unfold ndim; rewrite HB; auto).
    destruct (ted_spec A B [] [] [] [0%nat] 0%nat) as (C & HC & Hs & Hg); try rewrite nA; try rewrite nB; auto using NoDup_nil, SSorted_nil.
    - constructor; [cbn; lia|constructor].
    - constructor; [cbn; lia|constructor].
    - constructor; [intros []|constructor].
    - constructor; [intros []|constructor].
    - intros k [].
    - intros k [<-|[]]. rewrite HA, HB. auto.
    - unfold ft_outer_eval_diag. exists C. split; auto.
      assert (F1 : ted_free1 A [] [] = seq 0 (S (length sA))) by (unfold ted_free1; rewrite nA; apply filter_true; auto).
      assert (F2 : ted_free2 B [] [0%nat] = [1%nat]) by (unfold ted_free2; rewrite nB; reflexivity). split.
      + rewrite Hs, F1, F2, HA, HB. rewrite sel_seq_firstn by (cbn; lia). cbn [firstn]. rewrite firstn_all. reflexivity.
      + intros i a k La. rewrite Hg. cbn [sel map bsum]. f_equal; f_equal.
        * unfold ted_ixA. rewrite F1, nA. cbn [seq map]. cbn [inb existsb]. apply (f_equal2 cons); [reflexivity|].
          rewrite <- seq_shift, map_map. transitivity (map (fun j => nth j a 0%nat) (seq 0 (length a))); [|apply map_seq_nth]. rewrite La. apply map_ext_in. intros j Hj. apply in_seq in Hj.
          cbn [Nat.eqb orb]. cbn [index_of]. destruct (Nat.eqb_spec 0 (S j)); [lia|]. cbn [nth].
          rewrite seq_shift, index_of_seq by lia. rewrite app_nth1 by lia. f_equal. lia.
        * unfold ted_ixB. rewrite F1, F2, nB. cbn [seq map]. cbn [inb existsb Nat.eqb orb]. apply (f_equal2 cons); [reflexivity|].
          cbn [length]. rewrite seq_length. cbn [index_of Nat.eqb]. rewrite Nat.add_0_r. cbn [nth]. rewrite app_nth2, La, Nat.sub_diag by lia. reflexivity.
  Qed.
  Lemma contract_ed A B q ms s : shape A = q :: ms -> shape B = q :: ms ++ s ->
    exists C, ft_tensordot_eval_diag A B (seq 1 (length ms)) (seq 1 (length ms)) [0%nat] [0%nat] false = Some C /\ shape C = q :: s /\
      forall i e, length e = length s -> get C (i :: e) = bsum ms (fun ks => get A (i :: ks) * get B (i :: ks ++ e)).
  Proof.
    intros HA HB. assert (nA : ndim A = S (length ms)) by (unfold ndim; rewrite HA; auto).
    assert (nB : ndim B = (S (length ms) + length s)%nat) by (unfold ndim; rewrite HB; cbn; rewrite app_length; auto).
    destruct (ted_spec A B (seq 1 (length ms)) (seq 1 (length ms)) [] [0%nat] 0%nat) as (C & HC & Hs & Hg); try rewrite nA; try rewrite nB; auto using sorted_seq, seq_NoDup.
    - apply Forall_app. split; [apply Forall_forall; intros x Hx; apply in_seq in Hx; lia|]. constructor; [cbn; lia|constructor].
    - apply Forall_app. split; [apply Forall_forall; intros x Hx; apply in_seq in Hx; lia|]. constructor; [cbn; lia|constructor].
    - constructor; [intros []|constructor].
    - constructor; [intros []|constructor].
    - intros k Hk [E|[]]. apply in_seq in Hk. lia.
    - intros k Hk [E|[]]. apply in_seq in Hk. lia.
    - rewrite HA, HB. unfold sel. apply map_ext_in. intros k Hk. apply in_seq in Hk. destruct k; [lia|]. cbn [nth]. rewrite app_nth1 by lia. auto.
    - intros k [].
    - intros k [<-|[]]. rewrite HA, HB. auto.
    - exists C. split; auto.
      assert (F1 : ted_free1 A (seq 1 (length ms)) [] = [0%nat]).
      { unfold ted_free1. rewrite nA, app_nil_r. cbn [seq filter]. rewrite inb_seq. cbn [Nat.leb andb negb]. f_equal. apply filter_none. intros x Hx. apply negb_false_iff, inb_spec. auto. }
      assert (F2 : ted_free2 B (seq 1 (length ms)) [0%nat] = seq (S (length ms)) (length s)).
      { unfold ted_free2, compl. rewrite nB, seq_app, filter_app. rewrite filter_none, filter_true; auto.
        - intros x Hx. apply in_seq in Hx. apply negb_true_iff, inb_false. intros K. apply in_app_or in K. destruct K as [K|[K|[]]]; [apply in_seq in K|]; lia.
        - intros x Hx. apply in_seq in Hx. apply negb_false_iff, inb_spec. apply in_or_app. destruct (Nat.eq_dec x 0); [right; left; lia|left; apply in_seq; lia]. }
      split.
      + rewrite Hs, F1, F2, HA, HB. cbn [sel map nth app]. f_equal. apply nth_ext' with (d := 0%nat); [rewrite sel_length, seq_length; auto|].
        intros j Hj. rewrite sel_length, seq_length in Hj. rewrite sel_nth by (rewrite seq_length; auto). rewrite seq_nth by auto. cbn [Nat.add nth]. rewrite app_nth2 by lia. f_equal. lia.
      + intros i e Le. rewrite Hg.
        assert (E0 : sel 0%nat (shape A) (seq 1 (length ms)) = ms).
        { rewrite HA. apply nth_ext' with (d := 0%nat); [rewrite sel_length, seq_length; auto|]. intros j Hj. rewrite sel_length, seq_length in Hj. rewrite sel_nth by (rewrite seq_length; auto). rewrite seq_nth by auto. reflexivity. }
        rewrite E0. apply bsum_ext. intros ks Hks. assert (Lk : length ks = length ms) by exact (valid_length _ _ Hks). f_equal; f_equal.
        * unfold ted_ixA. rewrite F1, nA. cbn [seq map]. rewrite inb_seq. cbn [Nat.leb andb inb existsb Nat.eqb orb index_of nth]. f_equal.
          transitivity (map (fun j => nth j ks 0%nat) (seq 0 (length ks))); [|apply map_seq_nth]. rewrite Lk. rewrite <- seq_shift, map_map. apply map_ext_in. intros j Hj. apply in_seq in Hj. rewrite seq_shift.
          rewrite inb_seq. destruct (Nat.leb_spec 1 (S j)); [|lia]. destruct (Nat.ltb_spec (S j) (1 + length ms)); [|lia]. cbn [andb]. rewrite index_of_seq by lia. f_equal. lia.
        * unfold ted_ixB. rewrite F1, F2, nB. cbn [Nat.add seq map]. rewrite inb_seq. cbn [Nat.leb andb inb existsb Nat.eqb orb index_of nth]. f_equal.
          rewrite seq_app, map_app. f_equal.
          -- transitivity (map (fun j => nth j ks 0%nat) (seq 0 (length ks))); [|apply map_seq_nth]. rewrite Lk. rewrite <- seq_shift, map_map. apply map_ext_in. intros j Hj. apply in_seq in Hj. rewrite seq_shift.
             rewrite inb_seq. destruct (Nat.leb_spec 1 (S j)); [|lia]. destruct (Nat.ltb_spec (S j) (1 + length ms)); [|lia]. cbn [andb]. rewrite index_of_seq by lia. f_equal. lia.
          -- transitivity (map (fun j => nth j e 0%nat) (seq 0 (length e))); [|apply map_seq_nth]. rewrite Le. apply nth_ext' with (d := 0%nat); [rewrite !map_length, !seq_length; auto|]. intros j Hj. rewrite map_length, seq_length in Hj.
             rewrite map_nth_in with (da := 0%nat) by (rewrite seq_length; auto). rewrite nth_map_seq by auto. rewrite seq_nth by auto. rewrite inb_seq.
             destruct (Nat.ltb_spec (1 + length ms + j) (1 + length ms)); [lia|]. rewrite andb_false_r. destruct (Nat.eqb_spec (1 + length ms + j) 0); [lia|]. cbn [orb].
             rewrite index_of_seq by lia. cbn [length]. cbn [Nat.add nth]. f_equal. lia.
  Qed.
  Lemma mode_ed M B q m p s1 s2 : shape M = [q; m] -> shape B = q :: s1 ++ m :: s2 -> length s1 = p ->
    exists C, ft_tensordot_eval_diag M B [1%nat] [(p + 1)%nat] [0%nat] [0%nat] false = Some C /\ shape C = q :: s1 ++ s2 /\
      forall i a b, length a = length s1 -> length b = length s2 ->
        get C (i :: a ++ b) = rsum m (fun k => get M [i; k] * get B (i :: a ++ k :: b)).
  Proof.
    intros HA HB Lp. assert (nA : ndim M = 2%nat) by (unfold ndim; rewrite HA; auto).
    assert (nB : ndim B = (S p + S (length s2))%nat) by (unfold ndim; rewrite HB; cbn; rewrite app_length; cbn; lia).
    destruct (ted_spec M B [1%nat] [(p + 1)%nat] [] [0%nat] 0%nat) as (C & HC & Hs & Hg); try rewrite nA; try rewrite nB; auto.
    - repeat constructor.
    - constructor; [intros []|constructor].
    - constructor; [cbn; lia|constructor; [cbn; lia|constructor]].
    - constructor; [cbn; lia|constructor; [cbn; lia|constructor]].
    - constructor; [intros []|constructor].
    - constructor; [intros []|constructor].
    - intros k [<-|[]] [E|[]]. lia.
    - intros k [<-|[]] [E|[]]. lia.
    - rewrite HA, HB. cbn [sel map nth]. replace (p + 1)%nat with (S p) by lia. cbn [nth]. rewrite app_nth2, Lp, Nat.sub_diag by lia. reflexivity.
    - intros k [].
    - intros k [<-|[]]. rewrite HA, HB. auto.
    - exists C. split; auto.
      assert (F1 : ted_free1 M [1%nat] [] = [0%nat]) by (unfold ted_free1; rewrite nA; reflexivity).
      assert (F2 : ted_free2 B [(p + 1)%nat] [0%nat] = seq 1 p ++ seq (S (S p)) (length s2)).
      { unfold ted_free2, compl. rewrite nB. rewrite (seq_app (S p)). cbn [Nat.add seq]. rewrite filter_app. cbn [filter].
        rewrite (proj2 (inb_spec 0 _)) by (cbn; auto). rewrite (proj2 (inb_spec (S p) _)) by (left; lia). cbn [negb].
        rewrite !filter_true; auto; intros x Hx; apply in_seq in Hx; apply negb_true_iff, inb_false; cbn; lia. }
      split.
      + rewrite Hs, F1, F2, HA, HB. cbn [sel map nth app]. f_equal. unfold sel. rewrite map_app. f_equal.
        * transitivity (map (fun j => nth j s1 0%nat) (seq 0 (length s1))); [|apply map_seq_nth]. rewrite Lp, <- seq_shift, map_map. apply map_ext_in. intros j Hj. apply in_seq in Hj. cbn [nth]. rewrite app_nth1 by lia. auto.
        * apply nth_ext' with (d := 0%nat); [rewrite map_length, seq_length; auto|]. intros j Hj. rewrite map_length, seq_length in Hj.
          rewrite map_nth_in with (da := 0%nat) by (rewrite seq_length; auto). rewrite seq_nth by auto. cbn [Nat.add nth]. rewrite app_nth2 by lia. replace (S (p + j) - length s1)%nat with (S j) by lia. reflexivity.
      + intros i a b La Lb. rewrite Hg. rewrite HA. cbn [sel map nth bsum]. apply rsum_ext. intros k Hk. f_equal; f_equal; [unfold ted_ixA; rewrite F1, nA; reflexivity|].
        unfold ted_ixB. rewrite F1, F2, nB. cbn [Nat.add seq map].
        assert (inb 0 [(p + 1)%nat] = false) as -> by (apply inb_false; cbn; lia). cbn [inb existsb Nat.eqb orb index_of nth]. f_equal.
        rewrite seq_app, map_app. cbn [seq map]. f_equal; [|f_equal].
        * transitivity (map (fun j => nth j a 0%nat) (seq 0 (length a))); [|apply map_seq_nth]. rewrite La, Lp, <- seq_shift, map_map. apply map_ext_in. intros j Hj. apply in_seq in Hj.
          destruct (Nat.eqb_spec (S j) (p + 1)); [lia|]. cbn [orb Nat.eqb]. rewrite seq_shift. rewrite index_of_app_l by (apply in_seq; lia). rewrite index_of_seq by lia.
          cbn [length Nat.add nth]. rewrite app_nth1 by lia. f_equal. lia.
        * destruct (Nat.eqb_spec (1 + p) (p + 1)); [|lia]. cbn [orb]. destruct (Nat.eqb_spec (p + 1) (1 + p)); [reflexivity|lia].
        * transitivity (map (fun j => nth j b 0%nat) (seq 0 (length b))); [|apply map_seq_nth]. rewrite Lb. apply nth_ext' with (d := 0%nat); [rewrite !map_length, !seq_length; auto|]. intros j Hj. rewrite map_length, seq_length in Hj.
          rewrite map_nth_in with (da := 0%nat) by (rewrite seq_length; auto). rewrite nth_map_seq by auto. rewrite seq_nth by auto.
          cbn [Nat.add]. destruct (Nat.eqb_spec (S (S (p + j))) (p + 1)); [lia|]. cbn [orb Nat.eqb]. rewrite index_of_app_r by (rewrite in_seq; lia). rewrite index_of_seq by lia.
          rewrite seq_length. cbn [length Nat.add nth]. rewrite app_nth2 by lia. f_equal. lia.
  Qed.
End Cor.
