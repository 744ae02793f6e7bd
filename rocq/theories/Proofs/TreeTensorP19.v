(** eval_diag and eval_at_indices on tree-based tensors. *)
From Coq Require Import List Arith Lia Bool Sorted Ring Permutation.
From Verif.Base Require Import ListAux CRing Index.
From Verif.Model Require Import Utils Numpy FullTensor DimensionTree TreeBased TreeEval.
From Verif.Spec Require Import TensorSpec TreeSpec TreeTensorSpec.
From Verif.Proofs Require Import NumpyP FullTensorP FullTensorP3 FullTensorP4 FunctionsP MIMoreP DimTreeP TreeTensorP TreeTensorP2 TreeTensorP3 TreeTensorP4 TreeTensorP7 EinsumP EinsumP2 TreeTensorP17 TreeTensorP18.
Import ListNotations.

Lemma sel_tail (a b : list nat) : sel 0%nat (a ++ b) (seq (length a) (length b)) = b.
Proof.
  apply nth_ext' with (d := 0%nat); [rewrite sel_length, seq_length; auto|]. intros k Hk. rewrite sel_length, seq_length in Hk.
  rewrite sel_nth by (rewrite seq_length; auto). rewrite seq_nth by auto. rewrite app_nth2 by lia. f_equal. lia.
Qed.

Section Pos.
  Context {R : Type} {CR : CRing R}.
  Add Ring Rrt19 : rth.
  Local Open Scope cr_scope.
  Variables (cs : list nat) (h : nat -> nat) (C : nd R) (ext : list nat) (q : nat).
  Hypothesis NDc : NoDup cs.
  Hypothesis HC : shape C = map h cs ++ ext.
  Let k := length cs.
  Let pos (c : nat) : nat := index_of c cs.
  Let rest (L : list nat) : list nat := filter (fun c => negb (inb c L)) cs.
  Let nC : ndim C = (k + length ext)%nat.
  Proof. unfold ndim. rewrite HC, app_length, map_length. reflexivity. Qed.

  Lemma ed_pos L tmp : L <> [] -> NoDup L -> incl L cs -> shape tmp = q :: map h L -> (forall c, In c (rest L) -> h c = q) ->
    exists T, ft_tensordot_eval_diag tmp C (seq 1 (ndim tmp - 1)) (map pos L) [0%nat] (map pos (rest L)) false = Some T /\ shape T = q :: ext /\
      forall i e, length e = length ext ->
        get T (i :: e) = bsum (map h L) (fun ks => get tmp (i :: ks) * get C (asm (ndim C) (map pos L) ks (repeat i (length (rest L)) ++ e))).
  Proof.
    intros NE ND HI Hs Hr. assert (nT : ndim tmp = S (length L)) by (unfold ndim; rewrite Hs; cbn; rewrite map_length; auto).
    assert (Hrc : incl (rest L) cs) by (intros x Hx; apply filter_In in Hx; apply Hx).
    assert (NR : NoDup (rest L)) by (apply NoDup_filter; auto).
    assert (E1 : (ndim tmp - 1)%nat = length L) by lia. rewrite E1.
    assert (Hpl : forall M, incl M cs -> Forall (fun j => (j < ndim C)%nat) (map pos M)) by (intros M HM; eapply Forall_impl; [|apply pos_lt; exact HM]; cbn; rewrite nC; unfold k; lia).
    assert (Dis : forall j, In j (map pos L) -> In j (map pos (rest L)) -> False).
    { intros j H1 H2. apply in_map_iff in H1. destruct H1 as (c & <- & Hc). apply (pos_in cs (rest L)) in H2; auto. unfold rest in H2. apply filter_In in H2. destruct H2 as [_ H2]. apply negb_true_iff, inb_false in H2. auto. }
    destruct (ted_spec tmp C (seq 1 (length L)) (map pos L) [] (map pos (rest L)) 0%nat) as (T & HT & Hsh & Hg); try rewrite nT; auto using sorted_seq, seq_NoDup.
    - apply pos_inj; auto.
    - rewrite map_length, seq_length. auto.
    - apply Forall_app. split; [apply Forall_forall; intros x Hx; apply in_seq in Hx; lia|]. constructor; [lia|constructor].
    - apply Forall_app. split; auto.
    - constructor; [intros []|constructor].
    - apply pos_inj; auto.
    - intros j Hj [E|[]]. apply in_seq in Hj. lia.
    - rewrite HC, Hs. transitivity (map h L); [|symmetry; apply (sel_pos cs h ext); auto].
      apply nth_ext' with (d := 0%nat); [rewrite sel_length, seq_length, map_length; auto|]. intros j Hj. rewrite sel_length, seq_length in Hj. rewrite sel_nth by (rewrite seq_length; auto). rewrite seq_nth by auto. reflexivity.
    - intros j [].
    - intros j Hj. apply in_map_iff in Hj. destruct Hj as (c & <- & Hc). rewrite HC, Hs. cbn [nth]. destruct (index_of_nth cs c (Hrc c Hc)) as [Q1 Q2]. unfold pos. rewrite app_nth1 by (rewrite map_length; auto).
      rewrite map_nth_in with (da := 0%nat) by auto. rewrite Q2. auto.
    - exists T. split; auto.
      assert (F1 : ted_free1 tmp (seq 1 (length L)) [] = [0%nat]).
      { unfold ted_free1. rewrite nT, app_nil_r. cbn [seq filter]. rewrite inb_seq. cbn [Nat.leb andb negb]. f_equal. apply filter_none. intros x Hx. apply negb_false_iff, inb_spec. auto. }
      assert (Hin : forall j, In j (map pos L ++ map pos (rest L)) <-> (j < k)%nat).
      { intros j. rewrite in_app_iff. split.
        - intros [H|H]; [pose proof (pos_lt cs L HI) as Q|pose proof (pos_lt cs (rest L) Hrc) as Q]; rewrite Forall_forall in Q; apply Q; auto.
        - intros H. assert (E : j = pos (nth j cs 0%nat)) by (unfold pos; rewrite index_of_NoDup; auto). rewrite E. assert (Hc : In (nth j cs 0%nat) cs) by (apply nth_In; auto).
          destruct (in_dec Nat.eq_dec (nth j cs 0%nat) L); [left; apply in_map; auto|right; apply in_map]. unfold rest. apply filter_In. split; auto. apply negb_true_iff, inb_false. auto. }
      assert (F2 : ted_free2 C (map pos L) (map pos (rest L)) = seq k (length ext)).
      { unfold ted_free2, compl. rewrite nC, seq_app, filter_app. rewrite filter_none, filter_true; auto.
        - intros x Hx. apply in_seq in Hx. apply negb_true_iff, inb_false. rewrite Hin. lia.
        - intros x Hx. apply in_seq in Hx. apply negb_false_iff, inb_spec. apply Hin. lia. }
      split.
      + rewrite Hsh, F1, F2, HC, Hs. cbn [sel map nth app]. f_equal. apply nth_ext' with (d := 0%nat); [rewrite sel_length, seq_length; auto|].
        intros j Hj. rewrite sel_length, seq_length in Hj. rewrite sel_nth by (rewrite seq_length; auto). rewrite seq_nth by auto. rewrite app_nth2 by (rewrite map_length; unfold k; lia). f_equal. rewrite map_length. unfold k. lia.
      + intros i e Le. rewrite Hg.
        assert (E0 : sel 0%nat (shape tmp) (seq 1 (length L)) = map h L).
        { rewrite Hs. apply nth_ext' with (d := 0%nat); [rewrite sel_length, seq_length, map_length; auto|]. intros j Hj. rewrite sel_length, seq_length in Hj. rewrite sel_nth by (rewrite seq_length; auto). rewrite seq_nth by auto. reflexivity. }
        rewrite E0. apply bsum_ext. intros ks Hks. assert (Lk : length ks = length L) by (rewrite (valid_length _ _ Hks), map_length; auto). f_equal; f_equal.
        * unfold ted_ixA. rewrite F1, nT. cbn [seq map]. rewrite inb_seq. cbn [Nat.leb andb inb existsb Nat.eqb orb index_of nth]. f_equal.
          transitivity (map (fun j => nth j ks 0%nat) (seq 0 (length ks))); [|apply map_seq_nth]. rewrite Lk. rewrite <- seq_shift, map_map. apply map_ext_in. intros j Hj. apply in_seq in Hj. rewrite seq_shift.
          rewrite inb_seq. destruct (Nat.leb_spec 1 (S j)); [|lia]. destruct (Nat.ltb_spec (S j) (1 + length L)); [|lia]. cbn [andb]. rewrite index_of_seq by lia. f_equal. lia.
        * symmetry. unfold ted_ixB. rewrite F1, F2. cbn [index_of nth length Nat.eqb].
          assert (NP : NoDup (map pos L)) by (apply pos_inj; auto).
          apply asm_ext; auto.
          -- rewrite map_length, seq_length. auto.
          -- intros m Hm. assert (Hb : (nth m (map pos L) 0 < ndim C)%nat) by (pose proof (Hpl L HI) as Q; rewrite Forall_forall in Q; apply Q, nth_In; auto).
             rewrite nth_map_seq by auto. cbn [Nat.add]. rewrite (proj2 (inb_spec _ _)) by (apply nth_In; auto). rewrite index_of_NoDup by auto. auto.
          -- assert (Ecp : compl (ndim C) (map pos L) = map pos (rest L) ++ seq k (length ext)) by (exact (compl_posC cs h C ext NDc HC L HI)). rewrite Ecp. intros m Hm. rewrite app_length, map_length, seq_length in Hm. destruct (Nat.lt_ge_cases m (length (rest L))) as [Q|Q].
             ++ rewrite (app_nth1 (map pos (rest L))) by (rewrite map_length; auto). rewrite app_nth1 by (rewrite repeat_length; auto).
                assert (Hinr : In (nth m (map pos (rest L)) 0%nat) (map pos (rest L))) by (apply nth_In; rewrite map_length; auto).
                rewrite nth_map_seq by (pose proof (Hpl (rest L) Hrc) as Q'; rewrite Forall_forall in Q'; apply Q'; auto). cbn [Nat.add].
                rewrite (proj2 (inb_false _ (map pos L))) by (intros K; apply (Dis _ K Hinr)). rewrite (proj2 (inb_spec _ _)) by exact Hinr. rewrite nth_rep; auto.
             ++ rewrite (app_nth2 (map pos (rest L))) by (rewrite map_length; auto). rewrite map_length. rewrite seq_nth by lia. rewrite app_nth2 by (rewrite repeat_length; auto). rewrite repeat_length.
                assert (Hni : ~ In (k + (m - length (rest L)))%nat (map pos L ++ map pos (rest L))) by (rewrite Hin; lia).
                rewrite nth_map_seq by (rewrite nC; lia). cbn [Nat.add]. rewrite (proj2 (inb_false _ (map pos L))) by (intros K; apply Hni, in_or_app; auto).
                rewrite (proj2 (inb_false _ (map pos (rest L)))) by (intros K; apply Hni, in_or_app; auto). rewrite index_of_seq by lia. cbn [nth]. f_equal. lia.
  Qed.
End Pos.

Section EvalDiag.
  Context {R : Type} {CR : CRing R}.
  Add Ring Rrt19b : rth.
  Local Open Scope cr_scope.
  Variables (X : tbt R) (r q : nat).
  Hypothesis O : tb_ok X r.
  Hypothesis H2 : (2 <= tb_order X)%nat.
  Hypothesis Hq : (0 < q)%nat.
  Let t := ttree X.
  Let V : dim_tree t r := proj1 O.
  Let D := tb_order X.
  Hypothesis HS : tb_shape X = repeat q D.

  Lemma list_eqb1 x i : list_eqb [x] [i] = (x =? i)%nat.
  Proof. cbn. rewrite andb_true_r. auto. Qed.

  Theorem tb_eval_diag_ok : exists C, tb_eval_diag X = Some C /\ shape C = q :: exts X r /\
    forall i e, (i < q)%nat -> valid (exts X r) e -> get C (i :: e) = tval X r (repeat i D) e.
  Proof.
    unfold tb_eval_diag. fold t.
    pose (Q := fun n (a : nd R) => (active X n = true -> shape a = q :: exts X n /\
        forall i e, (i < q)%nat -> valid (exts X n) e -> get a (i :: e) = tval X n (repeat i D) e)).
    pose proof (proj1 V) as T.
    destruct (bottom_up_local t r T no_core (diag_node X) Q (cores X)) as (s' & E & HL & HQ).
    { apply (ok_cores_length X r O). }
    { intros n s Hn HLs Hs HQc. unfold diag_node. fold t. change (nthc s n) with (nth (n - 1) s no_core). rewrite Hs.
      change (nth (n - 1) (cores X) no_core) with (core X n). destruct (is_leaf t n) eqn:Hl.
      - eexists. split; [reflexivity|]. intros Ha. destruct (leaf_index t n Hl) as [K1 K2].
        assert (Esz : tb_size X n = q). { pose proof (tb_shape_leaf X n Hl) as K. fold t in K. rewrite HS, nth_rep in K by exact K1. auto. }
        pose proof (heads_leaf X r O n Hl Ha) as Hh. assert (Hsh : shape (core X n) = heads X n ++ exts X n) by (apply ok_shape; auto). unfold tb_size in Esz. rewrite Ha in Esz. rewrite Esz in Hh. rewrite Hh in Hsh. cbn [app] in Hsh.
        split; auto. intros i e Hi He. rewrite (tval_leaf X r V) by auto. fold t. rewrite nth_rep by exact K1. auto.
      - set (cs := children t n).
        assert (Hedge : forall c, In c cs -> edge t n c) by (intros c Hc; apply in_children in Hc; [|exact Hn]; destruct Hc as [Hc1 Hc2]; split; auto).
        assert (NDc : NoDup cs) by apply NoDup_children.
        pose proof (ok_internal X r O n Hn Hl) as Han. pose proof (heads_internal X r O n Hn Hl) as Hh. fold t in Hh. fold cs in Hh.
        assert (HC : shape (core X n) = map (csize X) cs ++ exts X n) by (rewrite <- Hh; apply ok_shape; auto).
        set (v := fun c i x => tval X c (repeat i D) [x]).
        set (L := filter (active X) cs). set (M := filter (fun c => negb (active X c)) cs).
        set (pos := fun c => index_of c cs).
        assert (NL : NoDup L) by (apply NoDup_filter; auto).
        assert (IL : incl L cs) by (intros c Hc; apply filter_In in Hc; apply Hc).
        assert (EM : filter (fun c => negb (inb c L)) cs = M).
        { apply filter_ext_in. intros c Hc. f_equal. destruct (active X c) eqn:Ea; [apply inb_spec, filter_In; auto|]. apply inb_false. intros K. apply filter_In in K. destruct K. congruence. }
        assert (Epos : forall g, filter (fun k => g (nth k cs 0%nat)) (seq 0 (length cs)) = map pos (filter g cs)).
        { intros g. rewrite (seq_pos cs NDc). fold pos. assert (G : forall l, incl l cs -> filter (fun k => g (nth k cs 0%nat)) (map pos l) = map pos (filter g l)); [|apply G; intros x Hx; auto].
          induction l as [|c l IH]; intros Hi; auto. cbn [map filter]. rewrite IH by (intros x Hx; apply Hi; simpl; auto). destruct (index_of_nth cs c) as [_ K]; [apply Hi; simpl; auto|]. change (nth (pos c) cs 0%nat) with (nth (index_of c cs) cs 0%nat). rewrite K. destruct (g c); auto. }
        rewrite (Epos (active X)), (Epos (fun c => negb (active X c))). fold L M.
        assert (Htgt : forall i e, valid (exts X n) e -> tval X n (repeat i D) e = bsum (map (csize X) cs) (fun ms => get (core X n) (ms ++ e) * lprod (combine cs ms) (fun p => v (fst p) i (snd p)))).
        { intros i e He. rewrite (tval_internal X r (proj1 O)) by auto. rewrite Hh. reflexivity. }
        assert (HT : forall c, In c L -> shape (nthc s c) = [q; csize X c] /\ forall i x, (i < q)%nat -> (x < csize X c)%nat -> get (nthc s c) [i; x] = v c i x).
        { intros c Hc. apply filter_In in Hc. destruct Hc as [Hc Ha]. destruct (HQc c (Hedge c Hc) Ha) as [S1 G1].
          assert (Ec : exts X c = [csize X c]). { unfold csize. rewrite Ha. apply (ok_exts_rank X r O); auto; [apply (Hedge c Hc)|]. apply (edge_ne t r T n c). auto. }
          rewrite Ec in *. split; auto. intros i x Hi Hx. apply G1; auto. constructor; [auto|constructor]. }
        assert (HMq : forall c, In c M -> csize X c = q /\ forall i x, v c i x = if (x =? i)%nat then r1 else r0).
        { intros c Hc. unfold M in Hc. apply filter_In in Hc. destruct Hc as [Hc Ha]. apply negb_true_iff in Ha.
          assert (Hlc : is_leaf t c = true). { destruct (is_leaf t c) eqn:Q1; auto. rewrite (ok_internal X r O c) in Ha; [discriminate|apply (Hedge c Hc)|auto]. }
          destruct (leaf_index t c Hlc) as [K1 K2]. unfold csize. rewrite Ha. pose proof (tb_shape_leaf X c Hlc) as K. fold t in K. rewrite HS, nth_rep in K by exact K1. split; auto.
          intros i x. unfold v. rewrite (tval_inactive X r (proj1 O)) by auto. rewrite list_eqb1. fold t. rewrite nth_rep by exact K1. auto. }
        (* the sum over the inactive children *)
        assert (HV : forall i e, (i < q)%nat -> valid (exts X n) e ->
          tval X n (repeat i D) e = bsum (map (csize X) L) (fun ks => lprod (combine L ks) (fun p => v (fst p) i (snd p)) * get (core X n) (asm (ndim (core X n)) (map pos L) ks (repeat i (length M) ++ e)))).
        { intros i e Hi He. rewrite Htgt by auto. rewrite (assemble cs (csize X) (core X n) (exts X n) v NDc HC i e L NL IL) by (apply valid_length; auto). rewrite EM.
          assert (Eq : map (csize X) M = repeat q (length M)).
          { clear - HMq. induction M as [|c M IH]; auto. cbn [map length repeat]. f_equal; [apply HMq; simpl; auto|]. apply IH. intros; apply HMq; simpl; auto. }
          rewrite Eq. rewrite (bsum_single _ (repeat i (length M))).
          - apply bsum_ext. intros ks Hks. assert (E1 : lprod (combine M (repeat i (length M))) (fun p => v (fst p) i (snd p)) = r1); [|rewrite E1; unfold pos; ring].
            apply lprod_one. intros [c x] Hp. cbn [fst snd]. rewrite (proj2 (HMq c (in_combine_l _ _ _ _ Hp))). apply in_combine_r in Hp. apply repeat_spec in Hp. subst. rewrite Nat.eqb_refl. auto.
          - clear - Hi. unfold valid. induction (length M); cbn; constructor; auto.
          - intros js Hj Hne. apply bsum_zero. intros ks Hks. pose proof (valid_length _ _ Hj) as Lj. rewrite repeat_length in Lj.
            assert (exists k, (k < length M)%nat /\ nth k js 0%nat <> i) as (k & Hk & Hki).
            { clear - Lj Hne. revert js Lj Hne. generalize (length M) as m. induction m as [|m IH]; intros [|y js] L N; cbn in *; try lia; [congruence|].
              destruct (Nat.eq_dec y i) as [->|Q]; [|exists 0%nat; split; auto; lia]. destruct (IH js) as (k & K1 & K2); [lia|congruence|]. exists (S k). split; [lia|auto]. }
            rewrite (lprod_zero (combine M js) _ (nth k M 0%nat, nth k js 0%nat)); [ring| |].
            + rewrite <- combine_nth by lia. apply nth_In. rewrite combine_length. lia.
            + cbn [fst snd]. rewrite (proj2 (HMq _ (nth_In _ _ Hk))). destruct (Nat.eqb_spec (nth k js 0%nat) i); [congruence|auto]. }
        assert (Lcs : (1 <= length cs)%nat).
        { destruct cs as [|c0 cs'] eqn:Ecs; [|cbn; lia]. exfalso. destruct (leaf_iff t r V n) as [_ Hlf]. rewrite Hlf in Hl; [discriminate|]. split; auto. intros c Hc. assert (Hc2 : In c (children t n)) by (apply in_children; auto). fold cs in Hc2. rewrite Ecs in Hc2. destruct Hc2. }
        assert (nC : ndim (core X n) = (length cs + length (exts X n))%nat) by (unfold ndim; rewrite HC, app_length, map_length; auto).
        destruct L as [|a0 L'] eqn:EL.
        + assert (EMc : M = cs) by (rewrite <- EM; apply filter_true; auto). rewrite EMc in *. cbn [map bsum combine lprod] in HV.
          assert (HV' : forall i e, (i < q)%nat -> valid (exts X n) e -> tval X n (repeat i D) e = get (core X n) (repeat i (length cs) ++ e)).
          { intros i e Hi He. rewrite HV by auto. rewrite asm_nil by (rewrite app_length, repeat_length, (valid_length _ _ He); auto). ring. }
          assert (HCq : shape (core X n) = repeat q (length cs) ++ exts X n).
          { rewrite HC. f_equal. clear - HMq. induction cs as [|c l IH]; auto. cbn [map length repeat]. f_equal; [apply HMq; simpl; auto|]. apply IH. intros; apply HMq; simpl; auto. }
          destruct (Nat.eq_dec (length cs) 1) as [L1|L1].
          * exists (core X n). split; [unfold ft_eval_diag; rewrite seq_length, L1; reflexivity|]. intros _. rewrite L1 in *. cbn [repeat app] in *. split; auto. intros i e Hi He. symmetry. auto.
          * destruct (exts X n) as [|x xs] eqn:Ex.
            -- rewrite app_nil_r in HCq. cbn [length] in nC. rewrite Nat.add_0_r in nC. destruct (ft_eval_diag_all (core X n) q) as (B & EB & SB & GB); [lia|rewrite nC; auto|].
               exists B. split; [rewrite <- nC; exact EB|]. intros _. rewrite Ex. split; auto. intros i e Hi He. inversion He; subst e. rewrite GB by (constructor; [auto|constructor]). cbn [nth]. rewrite HV' by (auto; constructor). rewrite app_nil_r, nC. auto.
            -- rewrite <- Ex in *. assert (Lx : (1 <= length (exts X n))%nat) by (rewrite Ex; cbn; lia).
               assert (Ecm : compl (ndim (core X n)) (seq 0 (length cs)) = seq (length cs) (length (exts X n))).
               { unfold compl. rewrite nC, seq_app, filter_app. rewrite filter_none, filter_true; auto; intros y Hy; apply in_seq in Hy; [apply negb_true_iff, inb_false; rewrite in_seq; lia|apply negb_false_iff, inb_spec, in_seq; lia]. }
               assert (Esl : sel 0%nat (shape (core X n)) (seq (length cs) (length (exts X n))) = exts X n).
               { rewrite HCq. rewrite <- (repeat_length q (length cs)) at 2. apply sel_tail. }
               destruct (ft_eval_diag_sub (core X n) q (seq 0 (length cs)) 0) as (B & EB & SB & GB); auto.
               ++ apply seq_NoDup.
               ++ apply Forall_forall. intros y Hy. apply in_seq in Hy. lia.
               ++ rewrite seq_length. lia.
               ++ intros y Hy. apply in_seq in Hy. rewrite HCq, app_nth1 by (rewrite repeat_length; lia). apply nth_rep. lia.
               ++ apply in_seq. lia.
               ++ intros; lia.
               ++ exists B. split; auto. intros _. rewrite Ecm, Esl in SB, GB. split; auto. intros i e Hi He. change (i :: e) with (ins 0 i e). rewrite GB by auto. rewrite HV' by auto. f_equal. rewrite seq_length.
                  apply asm_ext.
                  ** rewrite app_length, repeat_length, (valid_length _ _ He). auto.
                  ** apply seq_NoDup.
                  ** apply Forall_forall. intros y Hy. apply in_seq in Hy. lia.
                  ** rewrite seq_length. intros m Hm. rewrite seq_nth by auto. cbn [Nat.add]. rewrite app_nth1 by (rewrite repeat_length; auto). auto.
                  ** rewrite Ecm, seq_length. intros m Hm. rewrite seq_nth by auto. rewrite app_nth2 by (rewrite repeat_length; lia). rewrite repeat_length. f_equal. lia.
        + rewrite <- EL in *. assert (NE : L <> []) by (rewrite EL; discriminate).
          assert (Em : map (fun k => nthc s (nth k cs 0%nat)) (map pos L) = map (nthc s) L).
          { rewrite map_map. apply map_ext_in. intros c Hc. destruct (index_of_nth cs c (IL c Hc)) as [_ K]. change (nth (pos c) cs 0%nat) with (nth (index_of c cs) cs 0%nat). rewrite K. auto. }
          rewrite Em. destruct (acc_ok (nthc s) (csize X) q L NE) as (tmp & E1 & S1 & G1); [intros c Hc; apply HT; auto|].
          assert (G1' : forall i ks, (i < q)%nat -> valid (map (csize X) L) ks -> get tmp (i :: ks) = lprod (combine L ks) (fun p => v (fst p) i (snd p))).
          { intros i ks Hi Hks. rewrite G1 by (rewrite (valid_length _ _ Hks), map_length; auto).
            apply lprod_ext. intros [c x] Hp. cbn [fst snd]. pose proof (in_combine_l _ _ _ _ Hp) as Hc. apply HT; auto.
            clear - Hp Hks. revert ks Hks Hp. induction L as [|d l IH]; intros [|y ks] Hks Hp; cbn in Hp; try contradiction. inversion Hks; subst. destruct Hp as [Hp|Hp]; [injection Hp as <- <-; auto|]. apply (IH ks); auto. }
          assert (Emt : forall (Y Z : option (nd R)), match map pos L with [] => Y | _ => Z end = Z) by (rewrite EL; auto). rewrite Emt. rewrite E1. cbn [bind].
          destruct M as [|b0 M'] eqn:EMM.
          * destruct (td_pos cs (csize X) (core X n) (exts X n) q v NDc HC L tmp NL IL S1 G1') as (T0 & E2 & S2 & G2). rewrite EM in S2, G2. cbn [map app] in *.
            exists T0. split; [exact E2|]. intros _. split; auto. intros i e Hi He. pose proof (G2 i [] e Hi (Forall2_nil _) He) as G0. cbn [app] in G0. rewrite G0, HV by auto. cbn [length repeat app]. auto.
          * rewrite <- EMM in *. assert (Emt2 : forall (Y Z : option (nd R)), match map pos M with [] => Y | _ => Z end = Z) by (rewrite EMM; auto). rewrite Emt2.
            destruct (ed_pos cs (csize X) (core X n) (exts X n) q NDc HC L tmp NE NL IL S1) as (T0 & E2 & S2 & G2); [rewrite EM; intros c Hc; apply HMq; auto|]. rewrite EM in E2, G2.
            exists T0. split; [exact E2|]. intros _. split; auto. intros i e Hi He. rewrite G2 by (apply valid_length; auto). rewrite HV by auto. apply bsum_ext. intros ks Hks. rewrite G1' by auto. reflexivity. }
    rewrite E. cbn [bind]. rewrite (root_eq t r T). exists (nthc s' r). split; auto.
    destruct (HQ r (proj1 T) (ok_root X r O)) as [S1 G1]. change (nthc s' r) with (nth (r - 1) s' no_core). split; auto.
  Qed.
End EvalDiag.
