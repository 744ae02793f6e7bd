(** eval_diag along some children and the transposition that brings the diagonal to the front; the variant with the core as first operand. *)
From Coq Require Import List Arith Lia Bool Sorted Ring Permutation.
From Verif.Base Require Import ListAux CRing Index.
From Verif.Model Require Import Numpy FullTensor TreeGrad.
From Verif.Spec Require Import TensorSpec.
From Verif.Proofs Require Import NumpyP FullTensorP FullTensorP3 FullTensorP4 FunctionsP EinsumP EinsumP2 TreeTensorP17 TreeTensorP18 TreeTensorP19 TreeTensorP29 TreeGradP1.
Import ListNotations.

Lemma ins_length d x (l : list nat) : length (ins d x l) = S (length l).
Proof. unfold ins. rewrite app_length. cbn [length]. rewrite firstn_length, skipn_length. lia. Qed.
Lemma sel_ins d x (a : list nat) : d <= length a -> sel 0 (ins d x a) (d :: compl (S (length a)) [d]) = x :: a.
Proof.
  intros Hd. cbn [sel map]. f_equal.
  - unfold ins. rewrite app_nth2 by (rewrite firstn_length; lia). rewrite firstn_length, Nat.min_l by lia. rewrite Nat.sub_diag. reflexivity.
  - rewrite compl_single by lia. rewrite map_app. transitivity (firstn d a ++ skipn d a); [|apply firstn_skipn]. f_equal.
    + apply nth_ext' with (d := 0); [rewrite map_length, seq_length, firstn_length; lia|]. rewrite map_length, seq_length. intros k Hk. rewrite nth_map_seq by auto. cbn [Nat.add].
      unfold ins. rewrite app_nth1 by (rewrite firstn_length; lia). reflexivity.
    + apply nth_ext' with (d := 0); [rewrite map_length, seq_length, skipn_length; lia|]. rewrite map_length, seq_length. intros k Hk. rewrite map_nth_in with (da := 0) by (rewrite seq_length; auto). rewrite seq_nth by auto.
      unfold ins. rewrite app_nth2 by (rewrite firstn_length; lia). rewrite firstn_length, Nat.min_l by lia. replace (S d + k - d) with (S k) by lia. reflexivity.
Qed.
Lemma valid_ins d q i s a : i < q -> valid s a -> valid (ins d q s) (ins d i a).
Proof.
  intros Hi Ha. unfold ins. pose proof (valid_length _ _ Ha) as L. assert (Ha2 := Ha). rewrite <- (firstn_skipn d s) in Ha2.
  apply valid_app_inv in Ha2. destruct Ha2 as (b & c & E & H1 & H2). assert (Lb : length b = length (firstn d a)).
  { rewrite (valid_length _ _ H1), !firstn_length. lia. }
  pose proof (firstn_skipn d a) as Ea. rewrite E in Ea at 3. apply app_inj_len in Ea; [|auto]. destruct Ea as [-> ->]. apply valid_app; auto. apply Forall2_cons; auto.
Qed.

Section Front.
  Context {R : Type} {CR : CRing R}.
  Add Ring Rrtg3 : rth.
  Local Open Scope cr_scope.

  Lemma transpose_front (D : nd R) d q s : shape D = ins d q s -> (d <= length s)%nat ->
    exists T, ft_transpose D (d :: compl (ndim D) [d]) = Some T /\ shape T = q :: s /\
      forall i a, (i < q)%nat -> valid s a -> get T (i :: a) = get D (ins d i a).
  Proof.
    intros HD Hd. assert (nD : ndim D = S (length s)) by (unfold ndim; rewrite HD; apply ins_length).
    destruct (ft_transpose_spec D (d :: compl (ndim D) [d])) as (T & ET & ST & G1 & _).
    { rewrite nD. unfold is_perm. apply NoDup_Permutation; [|apply seq_NoDup|].
      - constructor; [|apply NoDup_filter, seq_NoDup]. intros K. apply in_compl in K. destruct K as [_ K]. apply K. simpl. auto.
      - intros x. rewrite in_seq. split.
        + intros [<-|K]; [lia|]. apply in_compl in K. lia.
        + intros K. destruct (Nat.eq_dec d x); [left; auto|right]. apply in_compl. split; [lia|]. intros [E|[]]. auto. }
    exists T. split; auto. split.
    - rewrite ST, HD, nD. apply sel_ins. auto.
    - intros i a Hi Ha. rewrite <- (G1 (ins d i a)) by (rewrite HD; apply valid_ins; auto). f_equal. rewrite nD, <- (valid_length _ _ Ha). symmetry. apply sel_ins. rewrite (valid_length _ _ Ha). auto.
  Qed.

  Variables (cs : list nat) (h : nat -> nat) (C : nd R) (ext : list nat) (q : nat).
  Hypothesis NDc : NoDup cs.
  Hypothesis HC : shape C = map h cs ++ ext.
  Hypothesis Hq : (0 < q)%nat.
  Let pos (c : nat) : nat := index_of c cs.
  Let nC : ndim C = (length cs + length ext)%nat.
  Proof. unfold ndim. rewrite HC, app_length, map_length. reflexivity. Qed.

  Lemma pos_sorted f : StronglySorted lt (map pos (filter f cs)).
  Proof.
    assert (Epos : filter (fun k => f (nth k cs 0%nat)) (seq 0 (length cs)) = map pos (filter f cs)).
    { rewrite (seq_pos cs NDc). fold pos. assert (G : forall l, incl l cs -> filter (fun k => f (nth k cs 0%nat)) (map pos l) = map pos (filter f l)); [|apply G; intros x Hx; auto].
      induction l as [|c l IH]; intros Hi; auto. cbn [map filter]. rewrite IH by (intros x Hx; apply Hi; simpl; auto). destruct (index_of_nth cs c) as [_ K]; [apply Hi; simpl; auto|]. change (nth (pos c) cs 0%nat) with (nth (index_of c cs) cs 0%nat). rewrite K. destruct (f c); auto. }
    rewrite <- Epos. assert (G : forall l, StronglySorted lt l -> forall g, StronglySorted lt (filter g l)).
    { induction 1 as [|a l Hs IH Hf]; intros g; cbn [filter]; [constructor|]. destruct (g a); auto. constructor; auto. rewrite Forall_forall in *. intros x Hx. apply filter_In in Hx. apply Hf, Hx. }
    apply G, sorted_seq.
  Qed.

  Variable f : nat -> bool.
  Let M : list nat := filter f cs.
  Let Z : list nat := filter (fun c => negb (inb c M)) cs.
  Hypothesis HM : forall c, In c M -> h c = q.
  Hypothesis NE : M <> [].

  Lemma front_ok : exists T, diag_front C (map pos M) = Some T /\ shape T = q :: map h Z ++ ext /\
    forall i ls e, (i < q)%nat -> valid (map h Z) ls -> valid ext e -> get T (i :: ls ++ e) = get C (map (gof M Z i ls) cs ++ e).
  Proof.
    assert (IM : incl M cs) by (intros x Hx; apply filter_In in Hx; apply Hx).
    assert (NM : NoDup M) by (apply NoDup_filter; auto).
    pose proof (pos_sorted f) as SM. fold M in SM.
    assert (Hpl : Forall (fun j => (j < ndim C)%nat) (map pos M)) by (eapply Forall_impl; [|apply pos_lt; exact IM]; cbn; rewrite nC; lia).
    assert (NP : NoDup (map pos M)) by (apply pos_inj; auto).
    assert (Ecp : compl (ndim C) (map pos M) = map pos Z ++ seq (length cs) (length ext)) by (exact (compl_posC cs h C ext NDc HC M IM)).
    assert (IZ : incl Z cs) by (intros x Hx; apply filter_In in Hx; apply Hx).
    assert (Es : sel 0%nat (shape C) (compl (ndim C) (map pos M)) = map h Z ++ ext).
    { rewrite Ecp, HC. unfold sel. rewrite map_app. f_equal; [apply (sel_pos cs h ext Z IZ)|]. rewrite <- (map_length h cs). exact (sel_tail (map h cs) ext). }
    assert (Gm : forall i ls e, length ls = length Z -> length e = length ext -> asm (ndim C) (map pos M) (repeat i (length M)) (ls ++ e) = map (gof M Z i ls) cs ++ e).
    { intros i ls e Ll Le. transitivity (asm (ndim C) (map pos M) (repeat i (length M)) (map (fun c => nth (index_of c Z) ls 0%nat) Z ++ e)).
      - f_equal. f_equal. symmetry. apply nth_ext' with (d := 0%nat); [rewrite map_length; auto|]. rewrite map_length. intros k Hk. rewrite map_nth_in with (da := 0%nat) by auto. rewrite index_of_NoDup; auto. apply NoDup_filter; auto.
      - unfold Z at 2. rewrite (asm_fun cs h C ext) by auto. f_equal. apply map_ext_in. intros c Hc. unfold ixf, gof. destruct (inb c M) eqn:E; auto. apply inb_spec in E. rewrite nth_rep; auto. apply index_of_nth; auto. }
    destruct M as [|m0 M'] eqn:EM; [congruence|]. set (d := pos m0).
    assert (Hm0 : In m0 cs) by (apply IM; simpl; auto).
    assert (Hd : (d <= length (map h Z ++ ext))%nat).
    { rewrite <- Es. rewrite sel_length. rewrite <- (seq_length d 0). apply NoDup_incl_length; [apply seq_NoDup|]. intros k Hk. apply in_seq in Hk. apply in_compl.
      inversion Hpl as [|? ? P1 P2]; subst. fold d in P1. split; [lia|]. cbn [map] in SM. inversion SM as [|? ? S1 S2]; subst. fold d in S2. intros [E|K]; [fold d in E; lia|]. rewrite Forall_forall in S2. apply S2 in K. lia. }
    assert (Hd1 : (pos m0 < ndim C)%nat) by (rewrite Forall_forall in Hpl; apply Hpl; simpl; auto).
    assert (HL1 : M' = [] -> length (map h Z ++ ext) = (ndim C - 1)%nat).
    { intros ->. rewrite <- Es, sel_length. cbn [map]. rewrite compl_single by exact Hd1. rewrite app_length, !seq_length. lia. }
    unfold diag_front. cbn [map]. fold d. destruct M' as [|m1 M''] eqn:EM'.
    - cbn [map length Nat.ltb Nat.leb bind].
      assert (HD : shape C = ins d q (map h Z ++ ext)).
      { pose proof (asm_ins (ndim C) d q (map h Z ++ ext)) as Q1. unfold ins. rewrite <- Q1.
        - rewrite <- Es. cbn [map]. fold d. symmetry. rewrite asm_upd.
          + apply nth_ext' with (d := 0%nat); [rewrite upd_length; auto|]. rewrite upd_length. intros k Hk. destruct (Nat.eq_dec k d) as [->|NEk]; [|apply nth_upd_neq; auto]. rewrite nth_upd_eq by auto.
            rewrite HC, app_nth1 by (rewrite map_length; apply index_of_nth; auto). unfold d, pos. rewrite (nth_pos_map cs h m0) by auto. symmetry. apply HM. simpl. auto.
          + reflexivity.
          + exact Hd1.
        - apply HL1. auto.
        - exact Hd1. }
      destruct (transpose_front C d q (map h Z ++ ext) HD Hd) as (T & ET & ST & GT). exists T. split; auto. split; auto.
      intros i ls e Hi Hls He. rewrite GT by (auto; apply valid_app; auto). f_equal. rewrite <- Gm.
      + cbn [length repeat map]. fold d. unfold ins. symmetry. apply asm_ins.
        * rewrite app_length, (valid_length _ _ Hls), (valid_length _ _ He). rewrite <- app_length. apply HL1. auto.
        * exact Hd1.
      + rewrite (valid_length _ _ Hls), map_length. auto.
      + apply (valid_length _ _ He).
    - rewrite <- EM' in *. assert (L2 : (1 < length M')%nat \/ length M' = 1%nat) by (rewrite EM'; cbn; lia).
      assert (Elt : (1 <? length (d :: map pos M'))%nat = true) by (apply Nat.ltb_lt; cbn [length]; rewrite map_length; lia). rewrite Elt.
      assert (HDq : exists D, ft_eval_diag C (Some (map pos (m0 :: M'))) = Some D /\ shape D = ins d q (map h Z ++ ext) /\
        forall i is, (i < q)%nat -> valid (map h Z ++ ext) is -> get D (ins d i is) = get C (asm (ndim C) (map pos (m0 :: M')) (repeat i (length (m0 :: M'))) is)).
      { assert (Hsz : forall k, In k (map pos (m0 :: M')) -> nth k (shape C) 0%nat = q).
        { intros k Hk. apply in_map_iff in Hk. destruct Hk as (c & <- & Hc). rewrite HC, app_nth1 by (rewrite map_length; apply index_of_nth; auto). unfold pos. rewrite (nth_pos_map cs h c) by auto. auto. }
        assert (Hle : (length (map pos (m0 :: M')) <= ndim C)%nat).
        { rewrite <- (seq_length (ndim C) 0). apply NoDup_incl_length; auto. intros k Hk. rewrite Forall_forall in Hpl. apply in_seq. pose proof (Hpl k Hk). lia. }
        destruct (Nat.eq_dec (length (map pos (m0 :: M'))) (ndim C)) as [Eq|Neq].
        - assert (Eseq : map pos (m0 :: M') = seq 0 (ndim C)).
          { apply sorted_same; auto using sorted_seq. intros k. rewrite in_seq. split; [intros Hk; rewrite Forall_forall in Hpl; pose proof (Hpl k Hk); lia|].
            intros Hk. apply (NoDup_length_incl (l' := seq 0 (ndim C)) NP); [rewrite seq_length; lia|intros x Hx; rewrite Forall_forall in Hpl; apply in_seq; pose proof (Hpl x Hx); lia|apply in_seq; lia]. }
          assert (Ed : d = 0%nat). { assert (E0 : nth 0 (map pos (m0 :: M')) 0%nat = 0%nat) by (rewrite Eseq; destruct (ndim C); reflexivity). exact E0. }
          assert (Enil : map h Z ++ ext = []). { rewrite <- Es. rewrite Eseq. rewrite compl_seq. reflexivity. }
          assert (HCq : shape C = repeat q (ndim C)).
          { apply nth_ext' with (d := 0%nat); [rewrite repeat_length; reflexivity|]. intros k Hk. rewrite nth_rep by exact Hk. apply Hsz. rewrite Eseq. apply in_seq. unfold ndim. lia. }
          destruct (ft_eval_diag_all C q) as (B & EB & SB & GB); auto; [rewrite <- Eq; cbn [map length]; lia|]. exists B. split.
          { rewrite Eseq. exact EB. }
          rewrite Ed, Enil. split; [exact SB|]. intros i is Hi His. inversion His; subst is. change (ins 0 i []) with [i]. rewrite GB by (constructor; [auto|constructor]). cbn [nth]. f_equal. symmetry. rewrite Eseq.
          rewrite <- (map_length pos (m0 :: M')), Eq. rewrite asm_all by apply repeat_length. auto.
        - destruct (ft_eval_diag_sub C q (map pos (m0 :: M')) d) as (B & EB & SB & GB); auto.
          + rewrite map_length in *. cbn [length] in *. lia.
          + simpl. auto.
          + intros k Hk. cbn [map] in SM, Hk. inversion SM as [|? ? S1 S2]; subst. fold d in S2, Hk. destruct Hk as [<-|Hk]; [lia|]. rewrite Forall_forall in S2. apply S2 in Hk. lia.
          + exists B. split; auto. rewrite Es in SB, GB. split; auto. intros i is Hi His. rewrite GB by auto. rewrite map_length. auto. }
      destruct HDq as (D & ED & SD & GD). change (d :: map pos M') with (map pos (m0 :: M')). rewrite ED. cbn [bind].
      destruct (transpose_front D d q (map h Z ++ ext) SD Hd) as (T & ET & ST & GT). exists T. split; auto. split; auto.
      intros i ls e Hi Hls He. rewrite GT by (auto; apply valid_app; auto). rewrite GD by (auto; apply valid_app; auto). f_equal. apply Gm; [rewrite (valid_length _ _ Hls), map_length; auto|apply (valid_length _ _ He)].
  Qed.
End Front.
