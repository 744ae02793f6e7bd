(** tensor_matrix_product_eval_diag on tree-based tensors: the computation at one node. *)
From Coq Require Import List Arith Lia Bool Sorted Ring Permutation.
From Verif.Base Require Import ListAux CRing Index.
From Verif.Model Require Import Numpy FullTensor DimensionTree TreeBased TreeEval.
From Verif.Spec Require Import TensorSpec TreeSpec TreeTensorSpec.
From Verif.Proofs Require Import NumpyP FullTensorP FullTensorP3 FunctionsP EinsumP EinsumP2.
Import ListNotations.

Lemma combine_app2 {A B} (l1 : list A) : forall (m1 : list B) l2 m2, length m1 = length l1 -> combine (l1 ++ l2) (m1 ++ m2) = combine l1 m1 ++ combine l2 m2.
Proof. induction l1 as [|a l1 IH]; intros [|b m1] l2 m2 L; cbn in *; try lia; auto. f_equal. apply IH. lia. Qed.

Section Node.
  Context {R : Type} {CR : CRing R}.
  Add Ring Rrt17 : rth.
  Local Open Scope cr_scope.

  Lemma bsum_asm s P (f : list nat -> R) : NoDup P -> Forall (fun k => (k < length s)%nat) P ->
    bsum s f = bsum (sel 0%nat s P) (fun ks => bsum (sel 0%nat s (compl (length s) P)) (fun ls => f (asm (length s) P ks ls))).
  Proof.
    intros ND HF. transitivity (bsum (sel 0%nat s P ++ sel 0%nat s (compl (length s) P)) (fun ms => f (asm (length s) P (firstn (length P) ms) (skipn (length P) ms)))).
    2:{ rewrite bsum_app. apply bsum_ext. intros ks Hk. apply bsum_ext. intros ls Hl. pose proof (valid_length _ _ Hk) as L1. rewrite sel_length in L1.
        rewrite firstn_app, skipn_app, L1, Nat.sub_diag, firstn_O, skipn_O, app_nil_r. rewrite firstn_all2, skipn_all2 by lia. reflexivity. }
    - symmetry. rewrite <- (bsum_bij (sel 0%nat s P ++ sel 0%nat s (compl (length s) P)) s (fun ms => asm (length s) P (firstn (length P) ms) (skipn (length P) ms)) (fun is => sel 0%nat is P ++ sel 0%nat is (compl (length s) P))); auto.
      + intros js Hj. apply valid_app_inv in Hj. destruct Hj as (j1 & j2 & -> & V1 & V2).
        pose proof (valid_length _ _ V1) as L1. pose proof (valid_length _ _ V2) as L2. rewrite sel_length in L1, L2.
        rewrite firstn_app, skipn_app, L1, Nat.sub_diag, firstn_O, skipn_O, app_nil_r. rewrite firstn_all2, skipn_all2 by lia. cbn [app].
        split; [apply valid_asm; auto|]. rewrite sel_asm by auto. rewrite sel_asm_compl by auto. auto.
      + intros is Hi. split.
        * apply valid_app; apply sel_valid; auto. apply compl_lt.
        * rewrite firstn_app, skipn_app, sel_length, Nat.sub_diag, firstn_O, skipn_O, app_nil_r.
          rewrite firstn_all2, skipn_all2 by (rewrite sel_length; auto). cbn [app]. apply asm_sel; auto. apply valid_length; auto.
  Qed.

  (** outer products along the first axis *)
  Lemma acc_loop (F : nat -> nd R) (h : nat -> nat) q L2 : forall L1 T,
    (forall c, In c L2 -> shape (F c) = [q; h c]) -> shape T = q :: map h L1 ->
    (forall i ks, length ks = length L1 -> get T (i :: ks) = lprod (combine L1 ks) (fun p => get (F (fst p)) [i; snd p])) ->
    exists C, ofold (fun tmp U => ft_outer_eval_diag tmp U [0%nat] [0%nat] false) (map F L2) T = Some C /\ shape C = q :: map h (L1 ++ L2) /\
      forall i ks, length ks = length (L1 ++ L2) -> get C (i :: ks) = lprod (combine (L1 ++ L2) ks) (fun p => get (F (fst p)) [i; snd p]).
  Proof.
    induction L2 as [|c L2 IH]; intros L1 T HF Hs Hg.
    - exists T. rewrite app_nil_r. auto.
    - cbn [map ofold]. destruct (outer_ed T (F c) q (map h L1) (h c)) as (C & HC & HsC & HgC); auto; [apply HF; simpl; auto|]. rewrite HC.
      destruct (IH (L1 ++ [c]) C) as (D & HD & HsD & HgD).
      + intros d Hd. apply HF. simpl. auto.
      + rewrite HsC, map_app. reflexivity.
      + intros i ks Lk. rewrite app_length in Lk. cbn [length] in Lk.
        assert (exists a k, ks = a ++ [k] /\ length a = length L1) as (a & k & -> & La).
        { destruct (exists_last (l := ks)) as (a & k & ->); [intros ->; cbn in Lk; lia|]. exists a, k. split; auto. rewrite app_length in Lk. cbn in Lk. lia. }
        rewrite HgC by (rewrite map_length; auto). rewrite Hg by auto. rewrite combine_app2 by auto. rewrite lprod_app. cbn [combine lprod fst snd]. ring.
      + rewrite <- app_assoc in HsD, HgD. cbn [app] in HsD, HgD. exists D. auto.
  Qed.
  Lemma acc_ok (F : nat -> nd R) (h : nat -> nat) q L : L <> [] -> (forall c, In c L -> shape (F c) = [q; h c]) ->
    exists C, ed_acc (map F L) = Some C /\ shape C = q :: map h L /\
      forall i ks, length ks = length L -> get C (i :: ks) = lprod (combine L ks) (fun p => get (F (fst p)) [i; snd p]).
  Proof.
    intros NE HF. destruct L as [|c L]; [congruence|]. cbn [map ed_acc].
    destruct (acc_loop F h q L [c] (F c)) as (C & HC & Hs & Hg).
    - intros d Hd. apply HF. simpl. auto.
    - apply HF. simpl. auto.
    - intros i [|k [|? ?]] Lk; cbn in Lk; try lia. cbn [combine lprod fst snd]. ring.
    - exists C. auto.
  Qed.

  Section Positions.
    Variables (cs : list nat) (h : nat -> nat) (C : nd R) (ext : list nat) (q : nat) (v : nat -> nat -> nat -> R).
    Hypothesis NDc : NoDup cs.
    Hypothesis HC : shape C = map h cs ++ ext.
    Let k := length cs.
    Let pos (c : nat) : nat := index_of c cs.
    Let rest (L : list nat) : list nat := filter (fun c => negb (inb c L)) cs.
    Let nC : ndim C = (k + length ext)%nat.
    Proof. unfold ndim. rewrite HC, app_length, map_length. reflexivity. Qed.

    Lemma pos_inj L : NoDup L -> incl L cs -> NoDup (map pos L).
    Proof.
      intros ND HI. induction ND as [|c L Hn ND IH]; [constructor|]. cbn [map]. constructor; [|apply IH; intros x Hx; apply HI; simpl; auto].
      intros K. apply in_map_iff in K. destruct K as (d & E & Hd). apply Hn. assert (c = d); [|subst; auto].
      destruct (index_of_nth cs c) as [_ E1]; [apply HI; simpl; auto|]. destruct (index_of_nth cs d) as [_ E2]; [apply HI; simpl; auto|].
      unfold pos in E. rewrite E in E2. congruence.
    Qed.
    Lemma pos_lt L : incl L cs -> Forall (fun j => (j < k)%nat) (map pos L).
    Proof. intros HI. apply Forall_forall. intros j Hj. apply in_map_iff in Hj. destruct Hj as (c & <- & Hc). apply index_of_nth. auto. Qed.
    Lemma pos_in L c : incl L cs -> In c cs -> (In (pos c) (map pos L) <-> In c L).
    Proof.
      intros HI Hc. split; [|apply in_map]. intros K. apply in_map_iff in K. destruct K as (d & E & Hd).
      destruct (index_of_nth cs c Hc) as [_ E1]. destruct (index_of_nth cs d (HI d Hd)) as [_ E2]. unfold pos in E. rewrite E in E2. congruence.
    Qed.
    Lemma seq_pos : seq 0 k = map pos cs.
    Proof.
      apply nth_ext' with (d := 0%nat); [rewrite map_length, seq_length; auto|]. intros j Hj. rewrite seq_length in Hj. rewrite seq_nth by auto. rewrite map_nth_in with (da := 0%nat) by auto.
      unfold pos. rewrite index_of_NoDup; auto.
    Qed.
    Lemma compl_pos L : incl L cs -> compl k (map pos L) = map pos (rest L).
    Proof.
      intros HI. unfold compl, rest. rewrite seq_pos.
      assert (G : forall l, incl l cs -> filter (fun j => negb (inb j (map pos L))) (map pos l) = map pos (filter (fun c => negb (inb c L)) l)).
      { induction l as [|c l IH]; intros Hl; auto. cbn [map filter]. rewrite IH by (intros x Hx; apply Hl; simpl; auto).
        assert (E : inb (pos c) (map pos L) = inb c L); [|rewrite E; destruct (inb c L); reflexivity].
        destruct (inb c L) eqn:E; [apply inb_spec; apply in_map, inb_spec; auto|]. apply inb_false in E. apply inb_false. intros K. apply E. apply pos_in; auto. apply Hl. simpl. auto. }
      apply G. intros x Hx. auto.
    Qed.
    Lemma compl_posC L : incl L cs -> compl (ndim C) (map pos L) = map pos (rest L) ++ seq k (length ext).
    Proof.
      intros HI. rewrite nC. unfold compl. rewrite seq_app, filter_app. f_equal; [apply compl_pos; auto|]. apply filter_true.
      intros x Hx. apply in_seq in Hx. apply negb_true_iff, inb_false. intros K. pose proof (pos_lt L HI) as Q. rewrite Forall_forall in Q. apply Q in K. lia.
    Qed.
    Lemma sel_pos (s : list nat) L : incl L cs -> sel 0%nat (map h cs ++ s) (map pos L) = map h L.
    Proof.
      intros HI. unfold sel. rewrite map_map. apply map_ext_in. intros c Hc. destruct (index_of_nth cs c (HI c Hc)) as [H1 H2].
      unfold pos. rewrite app_nth1 by (rewrite map_length; auto). rewrite map_nth_in with (da := 0%nat) by auto. rewrite H2. auto.
    Qed.
    Lemma asm_extend P ks ls e : NoDup P -> Forall (fun j => (j < k)%nat) P -> length ls = length (compl k P) ->
      asm k P ks ls ++ e = asm (k + length e) P ks (ls ++ e).
    Proof.
      intros ND HF Ll. assert (Ec : compl (k + length e) P = compl k P ++ seq k (length e)).
      { unfold compl. rewrite seq_app, filter_app. f_equal. apply filter_true. intros x Hx. apply in_seq in Hx. apply negb_true_iff, inb_false. intros K. rewrite Forall_forall in HF. apply HF in K. lia. }
      symmetry. apply asm_ext; auto.
      - rewrite app_length, asm_length. auto.
      - eapply Forall_impl; [|exact HF]. cbn. lia.
      - intros m Hm. rewrite app_nth1 by (rewrite asm_length; rewrite Forall_forall in HF; apply HF, nth_In; auto). apply asm_nth_in; auto.
      - rewrite Ec. intros m Hm. rewrite app_length, seq_length in Hm. destruct (Nat.lt_ge_cases m (length (compl k P))) as [Q|Q].
        + rewrite (app_nth1 (compl k P)) by auto. pose proof (compl_lt k P) as HL. rewrite Forall_forall in HL. rewrite app_nth1 by (rewrite asm_length; apply HL, nth_In; auto).
          rewrite asm_nth_out by auto. rewrite app_nth1 by lia. auto.
        + rewrite (app_nth2 (compl k P)) by auto. rewrite seq_nth by lia. rewrite app_nth2 by (rewrite asm_length; lia). rewrite asm_length. rewrite app_nth2 by lia. f_equal. lia.
    Qed.
    Lemma lprod_pos (w : nat -> nat -> R) : forall l ms, length ms = length l -> NoDup l ->
      lprod (combine l ms) (fun p => w (fst p) (snd p)) = lprod l (fun c => w c (nth (index_of c l) ms 0%nat)).
    Proof.
      induction l as [|c l IH]; intros [|m ms] Lm ND; cbn [length] in Lm; try lia; auto. inversion ND as [|? ? Hn ND']. subst. cbn [combine lprod fst snd index_of]. rewrite Nat.eqb_refl. cbn [nth]. f_equal.
      rewrite IH by (auto; lia). apply lprod_ext. intros d Hd. destruct (Nat.eqb_spec c d); [subst; contradiction|]. reflexivity.
    Qed.
    Lemma lprod_split (w : nat -> nat -> R) L ks ls : NoDup L -> incl L cs -> length ks = length L -> length ls = length (rest L) ->
      lprod (combine cs (asm k (map pos L) ks ls)) (fun p => w (fst p) (snd p))
      = lprod (combine L ks) (fun p => w (fst p) (snd p)) * lprod (combine (rest L) ls) (fun p => w (fst p) (snd p)).
    Proof.
      intros ND HI Lk Ll. assert (NR : NoDup (rest L)) by (apply NoDup_filter; auto).
      rewrite !lprod_pos; auto; [|apply asm_length].
      rewrite (lprod_perm cs (L ++ rest L)).
      - rewrite lprod_app. f_equal; apply lprod_ext; intros c Hc; f_equal.
        + pose proof (index_of_nth L c Hc) as [H1 H2].
          replace (index_of c cs) with (nth (index_of c L) (map pos L) 0%nat) by (rewrite map_nth_in with (da := 0%nat) by auto; rewrite H2; auto).
          rewrite asm_nth_in; auto; [apply pos_inj; auto|apply pos_lt; auto|rewrite map_length; auto].
        + pose proof (index_of_nth _ c Hc) as [H1 H2].
          replace (index_of c cs) with (nth (index_of c (rest L)) (compl k (map pos L)) 0%nat).
          * rewrite asm_nth_out; auto. rewrite compl_pos, map_length by auto. auto.
          * rewrite compl_pos by auto. rewrite map_nth_in with (da := 0%nat) by auto. rewrite H2. auto.
      - apply NoDup_Permutation; auto.
        + apply ListAux.NoDup_app; auto. intros c H1 H2. apply filter_In in H2. destruct H2 as [_ H2]. apply negb_true_iff, inb_false in H2. auto.
        + intros c. rewrite in_app_iff. unfold rest. rewrite filter_In, negb_true_iff, inb_false. split; [|intros [H|[H _]]; auto].
          intros Hc. destruct (in_dec Nat.eq_dec c L); auto.
    Qed.
    (** the two-step sum is the sum over all children *)
    Lemma assemble i e L : NoDup L -> incl L cs -> length e = length ext ->
      bsum (map h cs) (fun ms => get C (ms ++ e) * lprod (combine cs ms) (fun p => v (fst p) i (snd p)))
      = bsum (map h (rest L)) (fun ls => bsum (map h L) (fun ks =>
          lprod (combine L ks) (fun p => v (fst p) i (snd p)) * lprod (combine (rest L) ls) (fun p => v (fst p) i (snd p)) * get C (asm (ndim C) (map pos L) ks (ls ++ e)))).
    Proof.
      intros ND HI Le. rewrite (bsum_asm (map h cs) (map pos L)) by (rewrite ?map_length; auto using pos_inj, pos_lt).
      rewrite map_length. fold k. rewrite compl_pos by auto.
      rewrite <- (app_nil_r (map h cs)). rewrite !sel_pos by (auto; intros x Hx; apply filter_In in Hx; apply Hx). rewrite bsum_exchange.
      apply bsum_ext. intros ls Hls. apply bsum_ext. intros ks Hks. pose proof (valid_length _ _ Hls) as Ll. pose proof (valid_length _ _ Hks) as Lk. rewrite map_length in Ll, Lk.
      rewrite asm_extend; auto using pos_inj, pos_lt; [|rewrite compl_pos, map_length; auto]. rewrite Le, <- nC.
      rewrite (lprod_split (fun c x => v c i x)) by auto. ring.
    Qed.
    (** tensordot of the outer product of the children L with the core *)
    Lemma td_pos L tmp : NoDup L -> incl L cs -> shape tmp = q :: map h L ->
      (forall i ks, (i < q)%nat -> valid (map h L) ks -> get tmp (i :: ks) = lprod (combine L ks) (fun p => v (fst p) i (snd p))) ->
      exists T, ft_tensordot tmp C (seq 1 (ndim tmp - 1)) (map pos L) = Some T /\ shape T = q :: map h (rest L) ++ ext /\
        forall i ls e, (i < q)%nat -> valid (map h (rest L)) ls -> valid ext e ->
          get T (i :: ls ++ e) = bsum (map h L) (fun ks => lprod (combine L ks) (fun p => v (fst p) i (snd p)) * get C (asm (ndim C) (map pos L) ks (ls ++ e))).
    Proof.
      intros ND HI Hs Hg. assert (nT : ndim tmp = S (length L)) by (unfold ndim; rewrite Hs; cbn; rewrite map_length; auto).
      assert (E1 : (ndim tmp - 1)%nat = length L) by lia. rewrite E1.
      assert (Esel : sel 0%nat (shape tmp) (seq 1 (length L)) = map h L).
      { rewrite Hs. apply nth_ext' with (d := 0%nat); [rewrite sel_length, seq_length, map_length; auto|]. intros j Hj. rewrite sel_length, seq_length in Hj. rewrite sel_nth by (rewrite seq_length; auto). rewrite seq_nth by auto. reflexivity. }
      assert (Ec : compl (ndim tmp) (seq 1 (length L)) = [0%nat]).
      { rewrite nT. unfold compl. cbn [seq filter]. rewrite inb_seq. cbn [Nat.leb andb negb]. f_equal. apply filter_none. intros x Hx. apply negb_false_iff, inb_spec. auto. }
      destruct (ft_tensordot_spec tmp C (seq 1 (length L)) (map pos L)) as (T & HT & HsT & HgT).
      - apply seq_NoDup.
      - apply pos_inj; auto.
      - rewrite nT. apply Forall_forall. intros x Hx. apply in_seq in Hx. lia.
      - eapply Forall_impl; [|apply pos_lt; exact HI]. cbn. rewrite nC. lia.
      - rewrite Esel, HC. symmetry. apply sel_pos. auto.
      - exists T. split; auto. rewrite Ec, compl_posC in HsT by auto. rewrite Ec, compl_posC in HgT by auto.
        assert (E2 : sel 0%nat (shape tmp) [0%nat] = [q]) by (rewrite Hs; reflexivity). rewrite E2 in *.
        assert (E3 : sel 0%nat (shape C) (map pos (rest L) ++ seq k (length ext)) = map h (rest L) ++ ext).
        { unfold sel. rewrite map_app. f_equal.
          - rewrite HC. apply sel_pos. intros x Hx. apply filter_In in Hx. apply Hx.
          - apply nth_ext' with (d := 0%nat); [rewrite map_length, seq_length; auto|]. intros j Hj. rewrite map_length, seq_length in Hj. rewrite map_nth_in with (da := 0%nat) by (rewrite seq_length; auto).
            rewrite seq_nth by auto. rewrite HC, app_nth2 by (rewrite map_length; unfold k; lia). f_equal. rewrite map_length. unfold k. lia. }
        rewrite E3 in *. split; auto. intros i ls e Hi Hls He. change (i :: ls ++ e) with ([i] ++ (ls ++ e)).
        rewrite HgT; [|constructor; [auto|constructor]|apply valid_app; auto]. rewrite Esel. apply bsum_ext. intros ks Hks. f_equal. rewrite <- Hg by auto. f_equal.
        pose proof (valid_length _ _ Hks) as Lk. rewrite map_length in Lk. rewrite nT. apply asm_ext.
        + cbn. lia.
        + apply seq_NoDup.
        + apply Forall_forall. intros x Hx. apply in_seq in Hx. lia.
        + intros m Hm. rewrite seq_length in Hm. rewrite seq_nth by auto. reflexivity.
        + rewrite <- nT, Ec. cbn [length]. intros m Hm. assert (m = 0)%nat as -> by lia. reflexivity.
    Qed.
  End Positions.
End Node.
