(** tensordot_eval_diag along the children of a node: the forms used by eval_diag_below and eval_diag_above. *)
From Coq Require Import List Arith Lia Bool Sorted Ring Permutation.
From Verif.Base Require Import ListAux CRing Index.
From Verif.Model Require Import Numpy FullTensor TreeGrad.
From Verif.Spec Require Import TensorSpec.
From Verif.Proofs Require Import NumpyP FullTensorP FullTensorP3 FullTensorP4 FunctionsP EinsumP EinsumP2 TreeTensorP17 TreeTensorP18 TreeTensorP19.
Import ListNotations.

Section Outer.
  Context {R : Type} {CR : CRing R}.
  Add Ring Rrtg1 : rth.
  Local Open Scope cr_scope.

  Lemma outer_gen A B q sA sB : shape A = q :: sA -> shape B = q :: sB ->
    exists C, ft_outer_eval_diag A B [0%nat] [0%nat] false = Some C /\ shape C = q :: sA ++ sB /\
      forall i a b, length a = length sA -> length b = length sB -> get C (i :: a ++ b) = get A (i :: a) * get B (i :: b).
  Proof.
    intros HA HB. assert (nA : ndim A = S (length sA)) by (unfold ndim; rewrite HA; auto). assert (nB : ndim B = S (length sB)) by (unfold ndim; rewrite HB; auto).
    destruct (ted_spec A B [] [] [] [0%nat] 0%nat) as (C & HC & Hs & Hg); try rewrite nA; try rewrite nB; auto using NoDup_nil, SSorted_nil.
    - constructor; [cbn; lia|constructor].
    - constructor; [cbn; lia|constructor].
    - constructor; [intros []|constructor].
    - constructor; [intros []|constructor].
    - intros k [].
    - intros k [<-|[]]. rewrite HA, HB. auto.
    - unfold ft_outer_eval_diag. exists C. split; auto.
      assert (F1 : ted_free1 A [] [] = seq 0 (S (length sA))) by (unfold ted_free1; rewrite nA; apply filter_true; auto).
      assert (F2 : ted_free2 B [] [0%nat] = seq 1 (length sB)).
      { unfold ted_free2, compl. rewrite nB. cbn [seq filter app]. apply filter_true. intros x Hx. apply in_seq in Hx. apply negb_true_iff, inb_false. intros [E|[]]. lia. }
      split.
      + rewrite Hs, F1, F2, HA, HB. rewrite sel_seq_firstn by (cbn; lia). cbn [firstn]. rewrite firstn_all. cbn [app]. f_equal. f_equal.
        exact (sel_tail [q] sB).
      + intros i a b La Lb. rewrite Hg. cbn [sel map bsum]. f_equal; f_equal.
        * unfold ted_ixA. rewrite F1, nA. cbn [seq map]. cbn [inb existsb]. apply (f_equal2 cons); [reflexivity|].
          rewrite <- seq_shift, map_map. transitivity (map (fun j => nth j a 0%nat) (seq 0 (length a))); [|apply map_seq_nth]. rewrite La. apply map_ext_in. intros j Hj. apply in_seq in Hj.
          cbn [Nat.eqb orb]. cbn [index_of]. destruct (Nat.eqb_spec 0 (S j)); [lia|]. cbn [nth].
          rewrite seq_shift, index_of_seq by lia. rewrite app_nth1 by lia. f_equal. lia.
        * unfold ted_ixB. rewrite F1, F2, nB. cbn [seq map]. cbn [inb existsb Nat.eqb orb]. apply (f_equal2 cons); [reflexivity|].
          apply nth_ext' with (d := 0%nat); [rewrite map_length, seq_length; auto|]. rewrite map_length, seq_length. intros j Hj.
          rewrite map_nth_in with (da := 0%nat) by (rewrite seq_length; auto). rewrite seq_nth by auto. destruct (Nat.eqb_spec (1 + j) 0); [lia|]. cbn [orb]. rewrite index_of_seq by lia.
          cbn [length Nat.add nth]. rewrite seq_length. rewrite app_nth2 by lia. f_equal. lia.
  Qed.
End Outer.

Section Kids.
  Context {R : Type} {CR : CRing R}.
  Add Ring Rrtg2 : rth.
  Local Open Scope cr_scope.
  Variables (cs : list nat) (h : nat -> nat) (C : nd R) (ext : list nat) (q : nat) (v : nat -> nat -> nat -> R).
  Hypothesis NDc : NoDup cs.
  Hypothesis HC : shape C = map h cs ++ ext.
  Let pos (c : nat) : nat := index_of c cs.
  Let rest (L : list nat) : list nat := filter (fun c => negb (inb c L)) cs.
  Let nC : ndim C = (length cs + length ext)%nat.
  Proof. unfold ndim. rewrite HC, app_length, map_length. reflexivity. Qed.

  (** index of the child c: given by ks on L, by g elsewhere *)
  Definition ixf (L ks : list nat) (g : nat -> nat) (c : nat) : nat := if inb c L then nth (index_of c L) ks 0%nat else g c.

  Lemma nth_pos_map g c : In c cs -> nth (pos c) (map g cs) 0%nat = g c.
  Proof. intros Hc. destruct (index_of_nth cs c Hc) as [H1 H2]. unfold pos. rewrite map_nth_in with (da := 0%nat) by auto. rewrite H2. auto. Qed.

  Lemma asm_fun L ks (g : nat -> nat) e : NoDup L -> incl L cs -> length e = length ext ->
    asm (ndim C) (map pos L) ks (map g (rest L) ++ e) = map (ixf L ks g) cs ++ e.
  Proof.
    intros ND HI Le. apply asm_ext.
    - rewrite app_length, map_length, nC. lia.
    - apply pos_inj; auto.
    - eapply Forall_impl; [|apply pos_lt; exact HI]. cbn. rewrite nC. lia.
    - rewrite map_length. intros m Hm. rewrite map_nth_in with (da := 0%nat) by auto. assert (Hin : In (nth m L 0%nat) L) by (apply nth_In; auto).
      rewrite app_nth1 by (rewrite map_length; apply index_of_nth; auto). rewrite nth_pos_map by auto. unfold ixf. rewrite (proj2 (inb_spec _ _)) by auto. rewrite index_of_NoDup by auto. auto.
    - assert (Ecp : compl (ndim C) (map pos L) = map pos (rest L) ++ seq (length cs) (length ext)) by (exact (compl_posC cs h C ext NDc HC L HI)).
      rewrite Ecp. intros m Hm. rewrite app_length, map_length, seq_length in Hm. destruct (Nat.lt_ge_cases m (length (rest L))) as [Q|Q].
      + rewrite (app_nth1 (map pos (rest L))) by (rewrite map_length; auto). rewrite map_nth_in with (da := 0%nat) by auto.
        assert (Hin : In (nth m (rest L) 0%nat) (rest L)) by (apply nth_In; auto). pose proof Hin as Hin'. unfold rest in Hin'. apply filter_In in Hin'. destruct Hin' as [I1 I2].
        rewrite app_nth1 by (rewrite map_length; apply index_of_nth; auto). rewrite nth_pos_map by auto. rewrite app_nth1 by (rewrite map_length; auto).
        rewrite map_nth_in with (da := 0%nat) by auto. unfold ixf. apply negb_true_iff in I2. fold (rest L) in I2. rewrite I2. auto.
      + rewrite (app_nth2 (map pos (rest L))) by (rewrite map_length; auto). rewrite map_length, seq_nth by lia. rewrite app_nth2 by (rewrite map_length; lia). rewrite app_nth2 by (rewrite map_length; lia).
        rewrite !map_length. f_equal. lia.
  Qed.

  (** the contraction of the core with vectors, when the vectors outside L are unit vectors *)
  Definition kval (i : nat) (e : list nat) : R := bsum (map h cs) (fun ms => get C (ms ++ e) * lprod (combine cs ms) (fun p => v (fst p) i (snd p))).
  Lemma kval_delta i e L g : NoDup L -> incl L cs -> length e = length ext ->
    (forall c, In c (rest L) -> (g c < h c)%nat /\ forall x, v c i x = if (x =? g c)%nat then r1 else r0) ->
    kval i e = bsum (map h L) (fun ks => lprod (combine L ks) (fun p => v (fst p) i (snd p)) * get C (map (ixf L ks g) cs ++ e)).
  Proof.
    intros ND HI Le Hg. unfold kval. rewrite (assemble cs h C ext v NDc HC i e L ND HI Le). fold (rest L).
    rewrite (bsum_single _ (map g (rest L))).
    - apply bsum_ext. intros ks Hks. rewrite <- (asm_fun L ks g e) by auto.
      assert (E1 : lprod (combine (rest L) (map g (rest L))) (fun p => v (fst p) i (snd p)) = r1); [|rewrite E1; unfold pos; ring].
      clear - Hg. induction (rest L) as [|c l IH]; auto. cbn [map combine lprod fst snd]. rewrite IH by (intros; apply Hg; simpl; auto). rewrite (proj2 (Hg c (or_introl eq_refl))), Nat.eqb_refl. ring.
    - clear - Hg. induction (rest L) as [|c l IH]; [constructor|]. cbn [map]. apply Forall2_cons; [apply Hg; simpl; auto|]. apply IH. intros; apply Hg; simpl; auto.
    - intros ls Hls Hne. apply bsum_zero. intros ks Hks.
      assert (E1 : lprod (combine (rest L) ls) (fun p => v (fst p) i (snd p)) = r0); [|rewrite E1; ring].
      clear - Hg Hls Hne. revert ls Hls Hne. induction (rest L) as [|c l IH]; intros ls Hls Hne.
      + inversion Hls; subst. destruct Hne. reflexivity.
      + inversion Hls as [|y ? ls' ? Hy Hls']; subst. cbn [combine lprod fst snd]. rewrite (proj2 (Hg c (or_introl eq_refl))). destruct (Nat.eqb_spec y (g c)) as [->|]; [|ring].
        rewrite (IH (fun c' Hc' => Hg c' (or_intror Hc'))); [ring|auto|]. intros ->. apply Hne. reflexivity.
  Qed.

  (** children L with data in tmp, children M evaluated at i, the others free *)
  Let free (L M : list nat) : list nat := filter (fun c => negb (inb c (L ++ M))) cs.
  Definition gof (M Z : list nat) (i : nat) (ls : list nat) (c : nat) : nat := if inb c M then i else nth (index_of c Z) ls 0%nat.

  Lemma compl_LM L M : incl L cs -> incl M cs -> compl (ndim C) (map pos L ++ map pos M) = map pos (free L M) ++ seq (length cs) (length ext).
  Proof.
    intros HL HM. rewrite <- map_app. exact (compl_posC cs h C ext NDc HC (L ++ M) (incl_app HL HM)).
  Qed.

  Lemma ted_kids L M tmp : NoDup L -> incl L cs -> NoDup M -> incl M cs -> (forall c, In c L -> ~ In c M) ->
    shape tmp = q :: map h L -> (forall c, In c M -> h c = q) ->
    exists T, ft_tensordot_eval_diag tmp C (seq 1 (ndim tmp - 1)) (map pos L) [0%nat] (map pos M) false = Some T /\ shape T = q :: map h (free L M) ++ ext /\
      forall i ls e, length ls = length (free L M) -> length e = length ext ->
        get T (i :: ls ++ e) = bsum (map h L) (fun ks => get tmp (i :: ks) * get C (map (ixf L ks (gof M (free L M) i ls)) cs ++ e)).
  Proof.
    intros ND HI NM HM Dis Hs Hr. assert (nT : ndim tmp = S (length L)) by (unfold ndim; rewrite Hs; cbn; rewrite map_length; auto).
    assert (E1 : (ndim tmp - 1)%nat = length L) by lia. rewrite E1.
    assert (Hpl : forall N, incl N cs -> Forall (fun j => (j < ndim C)%nat) (map pos N)) by (intros N HN; eapply Forall_impl; [|apply pos_lt; exact HN]; cbn; rewrite nC; lia).
    destruct (ted_spec tmp C (seq 1 (length L)) (map pos L) [] (map pos M) 0%nat) as (T & HT & Hsh & Hg); try rewrite nT; auto using sorted_seq, seq_NoDup.
    - apply pos_inj; auto.
    - rewrite map_length, seq_length. auto.
    - apply Forall_app. split; [apply Forall_forall; intros x Hx; apply in_seq in Hx; lia|]. constructor; [lia|constructor].
    - apply Forall_app. split; auto.
    - constructor; [intros []|constructor].
    - apply pos_inj; auto.
    - intros j Hj [E|[]]. apply in_seq in Hj. lia.
    - intros j H1 H2. apply in_map_iff in H1. destruct H1 as (c & <- & Hc). apply (pos_in cs M) in H2; auto. apply (Dis c Hc H2).
    - rewrite HC, Hs. transitivity (map h L); [|symmetry; apply (sel_pos cs h ext); auto].
      apply nth_ext' with (d := 0%nat); [rewrite sel_length, seq_length, map_length; auto|]. intros j Hj. rewrite sel_length, seq_length in Hj. rewrite sel_nth by (rewrite seq_length; auto). rewrite seq_nth by auto. reflexivity.
    - intros j [].
    - intros j Hj. apply in_map_iff in Hj. destruct Hj as (c & <- & Hc). rewrite HC, Hs. cbn [nth]. rewrite app_nth1 by (rewrite map_length; apply index_of_nth; auto).
      rewrite nth_pos_map by auto. auto.
    - exists T. split; auto.
      assert (F1 : ted_free1 tmp (seq 1 (length L)) [] = [0%nat]).
      { unfold ted_free1. rewrite nT, app_nil_r. cbn [seq filter]. rewrite inb_seq. cbn [Nat.leb andb negb]. f_equal. apply filter_none. intros x Hx. apply negb_false_iff, inb_spec. auto. }
      assert (F2 : ted_free2 C (map pos L) (map pos M) = map pos (free L M) ++ seq (length cs) (length ext)) by (unfold ted_free2; apply compl_LM; auto).
      assert (If : incl (free L M) cs) by (intros x Hx; apply filter_In in Hx; apply Hx).
      assert (NF : NoDup (free L M)) by (apply NoDup_filter; auto).
      split.
      + rewrite Hsh, F1, F2, Hs. cbn [sel map nth app]. f_equal. rewrite HC. unfold sel. rewrite map_app. f_equal; [apply (sel_pos cs h ext (free L M) If)|].
        rewrite <- (map_length h cs). exact (sel_tail (map h cs) ext).
      + intros i ls e Ll Le. rewrite Hg.
        assert (E0 : sel 0%nat (shape tmp) (seq 1 (length L)) = map h L).
        { rewrite Hs. rewrite <- (map_length h L) at 1. exact (sel_tail [q] (map h L)). }
        rewrite E0. apply bsum_ext. intros ks Hks. assert (Lk : length ks = length L) by (rewrite (valid_length _ _ Hks), map_length; auto). f_equal; f_equal.
        * unfold ted_ixA. rewrite F1, nT. cbn [seq map]. rewrite inb_seq. cbn [Nat.leb andb inb existsb Nat.eqb orb index_of nth]. f_equal.
          transitivity (map (fun j => nth j ks 0%nat) (seq 0 (length ks))); [|apply map_seq_nth]. rewrite Lk. rewrite <- seq_shift, map_map. apply map_ext_in. intros j Hj. apply in_seq in Hj. rewrite seq_shift.
          rewrite inb_seq. destruct (Nat.leb_spec 1 (S j)); [|lia]. destruct (Nat.ltb_spec (S j) (1 + length L)); [|lia]. cbn [andb]. rewrite index_of_seq by lia. f_equal. lia.
        * unfold ted_ixB. rewrite F1, F2. cbn [index_of nth length Nat.eqb].
          apply nth_ext' with (d := 0%nat); [rewrite app_length, !map_length, seq_length, nC; lia|]. rewrite map_length, seq_length. intros b Hb.
          rewrite nth_map_seq by auto. cbn [Nat.add]. destruct (Nat.lt_ge_cases b (length cs)) as [Q|Q].
          -- assert (Eb : b = pos (nth b cs 0%nat)) by (unfold pos; rewrite index_of_NoDup; auto). set (c := nth b cs 0%nat) in *. assert (Hc : In c cs) by (apply nth_In; auto).
             rewrite (app_nth1 (map _ cs)) by (rewrite map_length; auto). rewrite Eb. rewrite nth_pos_map by auto. unfold ixf, gof.
             destruct (inb c L) eqn:EL.
             { apply inb_spec in EL. rewrite (proj2 (inb_spec _ _)) by (apply in_map; auto). destruct (index_of_nth L c EL) as [J1 J2].
               replace (index_of (pos c) (map pos L)) with (index_of c L); auto. rewrite <- J2 at 2. rewrite <- (map_nth_in pos L (index_of c L) 0%nat 0%nat) by auto. rewrite index_of_NoDup; auto; [apply pos_inj; auto|rewrite map_length; auto]. }
             apply inb_false in EL. rewrite (proj2 (inb_false _ _)) by (intros K; apply (pos_in cs L) in K; auto).
             destruct (inb c M) eqn:EM.
             { apply inb_spec in EM. rewrite (proj2 (inb_spec _ _)) by (apply in_map; auto). reflexivity. }
             apply inb_false in EM. rewrite (proj2 (inb_false _ _)) by (intros K; apply (pos_in cs M) in K; auto).
             assert (Hf : In c (free L M)) by (apply filter_In; split; auto; apply negb_true_iff, inb_false; intros K; apply in_app_or in K; destruct K; auto).
             rewrite index_of_app_l by (apply in_map; auto). destruct (index_of_nth _ c Hf) as [J1 J2].
             replace (index_of (pos c) (map pos (free L M))) with (index_of c (free L M)).
             { cbn [Nat.add nth]. rewrite app_nth1 by lia. auto. }
             rewrite <- J2 at 2. rewrite <- (map_nth_in pos (free L M) (index_of c (free L M)) 0%nat 0%nat) by auto. rewrite index_of_NoDup; auto; [apply pos_inj; auto|rewrite map_length; auto].
          -- rewrite (app_nth2 (map _ cs)) by (rewrite map_length; auto). rewrite map_length.
             assert (Hno : forall N, incl N cs -> inb b (map pos N) = false) by (intros N HN; apply inb_false; intros K; pose proof (pos_lt cs N HN) as P; rewrite Forall_forall in P; apply P in K; lia).
             rewrite !Hno by auto. rewrite index_of_app_r by (intros K; apply (proj2 (inb_spec _ _)) in K; rewrite Hno in K by auto; discriminate).
             rewrite map_length, index_of_seq by lia. cbn [Nat.add nth]. rewrite app_nth2 by lia. f_equal. lia.
  Qed.
End Kids.
