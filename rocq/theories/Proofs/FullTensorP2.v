(** Proofs about FullTensor (continued): sub_tensor, cat, kron, eval_diag, eval_at_indices, orth. *)
From Coq Require Import List Arith Lia Bool ZArith Permutation.
From Verif.Base Require Import ListAux CRing Index.
From Verif.Model Require Import Sorting Numpy FullTensor.
From Verif.Spec Require Import TensorSpec.
From Verif.Proofs Require Import SortingP NumpyP FullTensorP.
Import ListNotations.

(** column-major linear index, recursively from the first axis *)
Lemma sub2indF_snoc ns n is i : length is = length ns -> sub2indF (ns ++ [n]) (is ++ [i]) = sub2indF ns is + prodn ns * i.
Proof.
  revert is; induction ns as [|m ns IH]; intros [|j is] Hl; simpl in *; try lia.
  rewrite IH by lia. nia.
Qed.
Lemma sub2indC_cons n ns i is : length is = length ns -> sub2indC (n :: ns) (i :: is) = i * prodn ns + sub2indC ns is.
Proof.
  intros Hl. unfold sub2indC. simpl. rewrite sub2indF_snoc by (rewrite !rev_length; auto). rewrite prodn_rev. lia.
Qed.
Lemma sub2indC_app ns ms is js : length is = length ns -> length js = length ms ->
  sub2indC (ns ++ ms) (is ++ js) = sub2indC ns is * prodn ms + sub2indC ms js.
Proof.
  revert is; induction ns as [|n ns IH]; intros [|i is] Hl Hm; simpl in *; try lia.
  rewrite !sub2indC_cons by (rewrite ?app_length; lia). rewrite IH by lia. rewrite prodn_app. lia.
Qed.
(** interleaved axes *)
Fixpoint inter (a b : list nat) : list nat := match a, b with x :: a', y :: b' => x :: y :: inter a' b' | _, _ => [] end.
Definition pmul (a b : list nat) : list nat := map (fun p => fst p * snd p) (combine a b).
Lemma inter_length a b : length a = length b -> length (inter a b) = 2 * length a.
Proof. revert b; induction a as [|x a IH]; intros [|y b] H; simpl in *; try lia. rewrite IH; lia. Qed.
Lemma prodn_inter a b : length a = length b -> prodn (inter a b) = prodn (pmul a b).
Proof.
  revert b; induction a as [|x a IH]; intros [|y b] H; simpl in *; try lia; auto.
  fold (pmul a b). rewrite IH by lia. lia.
Qed.
Lemma prodn_pmul a b : length a = length b -> prodn (pmul a b) = prodn a * prodn b.
Proof.
  revert b; induction a as [|x a IH]; intros [|y b] H; simpl in *; try lia; auto.
  fold (pmul a b). rewrite IH by lia. lia.
Qed.
Lemma valid_inter ns ms is js : length ns = length ms -> valid ns is -> valid ms js -> valid (inter ns ms) (inter is js).
Proof.
  intros H Hi. revert ms js H. induction Hi as [|i n is ns Hin Hi IH]; intros [|m ms] js H Hj; try discriminate.
  - inversion Hj; constructor.
  - inversion Hj; subst. simpl. constructor; auto. constructor; auto. apply IH; auto.
Qed.
Lemma sub2indC_inter ns ms is js : length ns = length ms -> valid ns is -> valid ms js ->
  sub2indC (inter ns ms) (inter is js) = sub2indC (pmul ns ms) (map (fun p => fst (fst p) * snd (fst p) + snd p) (combine (combine is ms) js)).
Proof.
  intros H Hi. revert ms js H. induction Hi as [|i n is ns Hin Hi IH]; intros [|m ms] js H Hj; try discriminate.
  - inversion Hj; reflexivity.
  - inversion Hj as [|j ? js' ? Hjm Hj']; subst. simpl inter. unfold pmul. cbn [combine map fst snd].
    fold (pmul ns ms).
    pose proof (valid_length _ _ Hi) as Li. pose proof (valid_length _ _ Hj') as Lj. simpl in H.
    rewrite !sub2indC_cons.
    + cbn [prodn]. rewrite IH by auto. rewrite prodn_inter by lia. ring.
    + rewrite map_length, !combine_length. unfold pmul. rewrite map_length, combine_length. lia.
    + rewrite !inter_length; lia.
    + simpl. rewrite !inter_length; lia.
Qed.

Lemma kron_perm_length m : length (kron_perm m) = 2 * m.
Proof. unfold kron_perm. rewrite length_concat_map with (n := 2); [rewrite seq_length; lia|auto]. Qed.
Lemma kron_perm_is_perm m : is_perm (m + m) (kron_perm m).
Proof.
  apply is_perm_intro.
  - rewrite kron_perm_length. lia.
  - unfold kron_perm. assert (H : forall a n, a + n <= m -> NoDup (concat (map (fun k => [k; m + k]) (seq a n)))).
    { intros a n; revert a; induction n as [|n IH]; intros a Ha; simpl; [constructor|].
      assert (Hin : forall x, In x (concat (map (fun k => [k; m + k]) (seq (S a) n))) -> (S a <= x < m \/ m + S a <= x)).
      { intros x Hx. apply in_concat in Hx as [l [Hl Hx]]. apply in_map_iff in Hl as [k [<- Hk]].
        apply in_seq in Hk. simpl in Hx. lia. }
      constructor.
      - intros [Hx|Hx]; [lia|]. apply Hin in Hx. lia.
      - constructor; [intros Hx; apply Hin in Hx; lia|]. apply IH; lia. }
    apply H; lia.
  - apply Forall_forall. intros x Hx. unfold kron_perm in Hx.
    apply in_concat in Hx as [l [Hl Hx]]. apply in_map_iff in Hl as [k [<- Hk]]. apply in_seq in Hk. simpl in Hx. lia.
Qed.
Lemma sel_kron_perm (a b : list nat) : length a = length b -> sel 0 (a ++ b) (kron_perm (length a)) = inter a b.
Proof.
  intros H. unfold kron_perm, sel. rewrite concat_map, map_map.
  assert (G : forall (a2 b2 a1 b1 : list nat), length a1 = length b1 -> length a2 = length b2 -> a = a1 ++ a2 -> b = b1 ++ b2 ->
    concat (map (fun x => map (fun k => nth k (a ++ b) 0) [x; length a + x]) (seq (length a1) (length a2))) = inter a2 b2).
  { induction a2 as [|x a2 IH]; intros [|y b2] a1 b1 L1 L2 Ea Eb; try discriminate; auto.
    cbn [length seq map concat inter app]. f_equal; [|f_equal].
    - subst a. rewrite <- app_assoc, app_nth2, Nat.sub_diag; auto.
    - rewrite app_nth2 by lia. replace (length a + length a1 - length a) with (length b1) by lia.
      subst b. rewrite app_nth2, Nat.sub_diag; auto.
    - replace (S (length a1)) with (length (a1 ++ [x])) by (rewrite app_length; simpl; lia).
      apply IH with (b1 := b1 ++ [y]); rewrite ?app_length, <- ?app_assoc; simpl in *; auto; lia. }
  apply (G a b [] []); auto.
Qed.

Section FT2.
  Context {R : Type} {CR : CRing R}.
  Add Ring Rr : rth.
  Local Open Scope cr_scope.
  Implicit Types A B C M T : nd R.

  (** * sub_tensor *)
  Lemma ft_sub_loop (sl : list slice) n : forall m k T, (k + m = n)%nat -> ndim T = n ->
    (forall j, (k <= j < n)%nat -> slice_ok (nth j (shape T) 0%nat) (nth j sl All)) ->
    returns (ofold (fun (D : nd R) dim => match nth dim sl All with All => Some D | Pick ks => np_take D ks dim end) (seq k m) T)
      (map (fun j => if k <=? j then slice_len (nth j (shape T) 0%nat) (nth j sl All) else nth j (shape T) 0%nat) (seq 0 n))
      (fun is => get T (map (fun j => if k <=? j then slice_idx (nth j sl All) (nth j is 0%nat) else nth j is 0%nat) (seq 0 n))).
  Proof.
    induction m as [|m IH]; intros k T Hk HT Hok.
    - simpl. exists T. split; auto.
      assert (E : forall (l : list nat) (f : nat -> nat), length l = n ->
                map (fun j => if k <=? j then f j else nth j l 0%nat) (seq 0 n) = l).
      { intros l f Hl. rewrite <- (map_seq_nth 0%nat l), Hl at 1. apply nth_ext' with (d := 0%nat).
        - rewrite !map_length; auto.
        - intros j Hj. rewrite map_length, seq_length in Hj. rewrite !nth_map_seq by auto.
          destruct (Nat.leb_spec k j); auto; lia. }
      split.
      + symmetry. apply E; auto.
      + intros is Hv. rewrite E; auto. rewrite (valid_length _ _ Hv), map_length, seq_length. auto.
    - cbn [seq ofold].
      assert (Hstep : exists T', match nth k sl All with All => Some T | Pick ks => np_take T ks k end = Some T' /\
                tensor_is T' (upd k (slice_len (nth k (shape T) 0%nat) (nth k sl All)) (shape T))
                            (fun is => get T (upd k (slice_idx (nth k sl All) (nth k is 0%nat)) is))).
      { specialize (Hok k). destruct (nth k sl All) as [|ks] eqn:E.
        - exists T. split; auto. simpl. rewrite upd_same. split; auto. intros is _. rewrite upd_same; auto.
        - rewrite np_take_ok; [|unfold ndim in *; lia|apply Hok; lia]. eexists; split; [reflexivity|]. split; auto. }
      destruct Hstep as [T' [HT' [Hs' Hg']]]. rewrite HT'.
      destruct (IH (S k) T') as [B [HB [HsB HgB]]].
      { lia. } { unfold ndim in *. rewrite Hs', upd_length; auto. }
      { intros j Hj. rewrite Hs', nth_upd_neq by lia. apply Hok; lia. }
      rewrite HB. exists B. split; auto.
      assert (Hsh : map (fun j => if S k <=? j then slice_len (nth j (shape T') 0%nat) (nth j sl All) else nth j (shape T') 0%nat) (seq 0 n) =
                    map (fun j => if k <=? j then slice_len (nth j (shape T) 0%nat) (nth j sl All) else nth j (shape T) 0%nat) (seq 0 n)).
      { apply map_ext_in. intros j Hj. apply in_seq in Hj. rewrite Hs', nth_upd.
        unfold ndim in HT. destruct (Nat.leb_spec (S k) j), (Nat.leb_spec k j), (Nat.eqb_spec j k); try lia; auto; subst;
          rewrite ?(proj2 (Nat.ltb_lt _ _)) by lia; simpl; auto. }
      split; [congruence|]. intros is Hv. rewrite HgB by (rewrite Hsh; auto).
      rewrite Hg'.
      + f_equal. apply nth_ext' with (d := 0%nat); [rewrite upd_length, !map_length; auto|].
        intros j Hj. rewrite upd_length, map_length, seq_length in Hj.
        rewrite nth_upd, map_length, seq_length, !nth_map_seq by lia.
        destruct (Nat.eqb_spec j k) as [->|Hne].
        * rewrite (proj2 (Nat.ltb_lt k n)), Nat.leb_refl by lia. cbn [andb].
          rewrite (proj2 (Nat.leb_gt (S k) k)) by lia. auto.
        * cbn [andb]. destruct (Nat.leb_spec (S k) j), (Nat.leb_spec k j); auto; lia.
      + pose proof (valid_length _ _ Hv) as L. rewrite map_length, seq_length in L.
        apply valid_intro; [rewrite map_length, seq_length, upd_length; auto|].
        rewrite upd_length. intros j Hj. unfold ndim in HT. rewrite HT in Hj. rewrite nth_map_seq by auto.
        pose proof (valid_nth _ _ j Hv) as Hvj. rewrite map_length, seq_length, nth_map_seq in Hvj by auto. specialize (Hvj Hj).
        rewrite nth_upd. rewrite HT. 
        destruct (Nat.leb_spec (S k) j), (Nat.leb_spec k j), (Nat.eqb_spec j k); try lia; auto.
        * specialize (Hok j ltac:(lia)). destruct (nth j sl All) as [|ks]; simpl in *; auto.
          rewrite Forall_nth' with (d := 0%nat) in Hok. apply Hok; auto.
        * subst. rewrite (proj2 (Nat.ltb_lt _ _)) by lia. simpl. auto.
  Qed.

  Theorem ft_sub_tensor_spec A (sl : list slice) : length sl = ndim A ->
    (forall j, (j < ndim A)%nat -> slice_ok (nth j (shape A) 0%nat) (nth j sl All)) ->
    returns (ft_sub_tensor A sl)
      (map (fun p => slice_len (fst p) (snd p)) (combine (shape A) sl))
      (fun is => get A (map (fun p => slice_idx (fst p) (snd p)) (combine sl is))).
  Proof.
    intros Hl Hok. unfold ft_sub_tensor. rewrite Hl, Nat.ltb_irrefl.
    destruct (ft_sub_loop sl (ndim A) (ndim A) 0 A) as [B [HB [Hs Hg]]]; auto.
    { intros j Hj. apply Hok. lia. }
    exists B. split; auto.
    assert (E : map (fun j => if (0 <=? j) then slice_len (nth j (shape A) 0%nat) (nth j sl All) else nth j (shape A) 0%nat) (seq 0 (ndim A))
              = map (fun p => slice_len (fst p) (snd p)) (combine (shape A) sl)).
    { apply nth_ext' with (d := 0%nat).
      - rewrite !map_length, combine_length, seq_length. unfold ndim in *. lia.
      - intros j Hj. rewrite map_length, seq_length in Hj. rewrite nth_map_seq by auto. simpl.
        rewrite (map_nth_in _ _ _ (0%nat, All)) by (rewrite combine_length; unfold ndim in *; lia).
        rewrite combine_nth by auto. auto. }
    split; [congruence|]. intros is Hv. rewrite Hg by (rewrite E; auto). f_equal.
    pose proof (valid_length _ _ Hv) as L. rewrite map_length, combine_length in L.
    apply nth_ext' with (d := 0%nat).
    - rewrite !map_length, combine_length, seq_length. unfold ndim in *. lia.
    - intros j Hj. rewrite map_length, seq_length in Hj. rewrite nth_map_seq by auto. simpl.
      rewrite (map_nth_in _ _ _ (All, 0%nat)) by (rewrite combine_length; unfold ndim in *; lia).
      rewrite combine_nth by (unfold ndim in *; lia). auto.
  Qed.

  (** * cat *)
  Lemma np_pad_front A out : length out = ndim A -> (forall k, (k < ndim A)%nat -> (nth k (shape A) 0 <= nth k out 0)%nat) ->
    tensor_is (np_pad A (repeat 0%nat (ndim A)) (map (fun p => (fst p - snd p)%nat) (combine out (shape A)))) out
      (fun is => if validb (shape A) is then get A is else r0).
  Proof.
    intros Hl Hle. unfold ndim in *. split; cbn [shape get np_pad].
    - apply nth_ext' with (d := 0%nat).
      + rewrite map_length, !combine_length, repeat_length, map_length, combine_length. lia.
      + intros k Hk. rewrite map_length, !combine_length, repeat_length, map_length, combine_length in Hk.
        assert (Hkn : (k < length (shape A))%nat) by lia.
        rewrite (map_nth_in _ _ _ (0%nat, 0%nat, 0%nat)) by (rewrite !combine_length, repeat_length, map_length, combine_length; lia).
        rewrite !combine_nth by (rewrite ?combine_length, ?map_length, ?repeat_length, ?combine_length; lia).
        cbn [fst snd]. rewrite nth_repeat. rewrite (map_nth_in _ _ _ (0%nat, 0%nat)) by (rewrite combine_length; lia).
        rewrite combine_nth by auto. cbn [fst snd]. specialize (Hle k Hkn). lia.
    - intros is Hv. pose proof (valid_length _ _ Hv) as L.
      assert (E : forallb (fun p => (fst (fst p) <=? snd p) && (snd p <? (fst (fst p) + snd (fst p))%nat))
                     (combine (combine (repeat 0%nat (length (shape A))) (shape A)) is) = validb (shape A) is).
      { clear -L Hl. rewrite Hl in L. clear Hl. revert is L. induction (shape A) as [|n s IH]; intros [|i is] L; try discriminate; auto.
        simpl in *. rewrite IH by lia. auto. }
      rewrite E. destruct (validb (shape A) is) eqn:Ev; auto. f_equal.
      rewrite Hl in L. clear -L. revert is L. induction (shape A) as [|n s IH]; intros [|i is] L; try discriminate; auto.
      simpl in *. rewrite IH by lia. rewrite Nat.sub_0_r. auto.
  Qed.
  Lemma np_pad_back B out : length out = ndim B -> (forall k, (k < ndim B)%nat -> (nth k (shape B) 0 <= nth k out 0)%nat) ->
    tensor_is (np_pad B (map (fun p => (fst p - snd p)%nat) (combine out (shape B))) (repeat 0%nat (ndim B))) out
      (fun is => if forallb (fun k => (nth k out 0 - nth k (shape B) 0 <=? nth k is 0)%nat) (seq 0 (ndim B))
                 then get B (map (fun k => (nth k is 0 - (nth k out 0 - nth k (shape B) 0))%nat) (seq 0 (ndim B))) else r0).
  Proof.
    intros Hl Hle. unfold ndim in *. split; cbn [shape get np_pad].
    - apply nth_ext' with (d := 0%nat).
      + rewrite map_length, !combine_length, repeat_length, map_length, combine_length. lia.
      + intros k Hk. rewrite map_length, !combine_length, repeat_length, map_length, combine_length in Hk.
        assert (Hkn : (k < length (shape B))%nat) by lia.
        rewrite (map_nth_in _ _ _ (0%nat, 0%nat, 0%nat)) by (rewrite !combine_length, repeat_length, map_length, combine_length; lia).
        rewrite !combine_nth by (rewrite ?combine_length, ?map_length, ?repeat_length, ?combine_length; lia).
        cbn [fst snd]. rewrite nth_repeat. rewrite (map_nth_in _ _ _ (0%nat, 0%nat)) by (rewrite combine_length; lia).
        rewrite combine_nth by auto. cbn [fst snd]. specialize (Hle k Hkn). lia.
    - intros is Hv. pose proof (valid_length _ _ Hv) as L. rewrite Hl in L.
      assert (Hb : map (fun p => (fst p - snd p)%nat) (combine out (shape B)) = map (fun k => (nth k out 0 - nth k (shape B) 0)%nat) (seq 0 (length (shape B)))).
      { apply nth_ext' with (d := 0%nat); [rewrite !map_length, combine_length, seq_length; lia|].
        intros k Hk. rewrite map_length, combine_length in Hk. rewrite (map_nth_in _ _ _ (0%nat, 0%nat)) by (rewrite combine_length; lia).
        rewrite combine_nth by auto. rewrite nth_map_seq by lia. auto. }
      rewrite Hb.
      assert (E : forallb (fun p => (fst (fst p) <=? snd p) && (snd p <? (fst (fst p) + snd (fst p))%nat))
                    (combine (combine (map (fun k => (nth k out 0 - nth k (shape B) 0)%nat) (seq 0 (length (shape B)))) (shape B)) is)
                  = forallb (fun k => (nth k out 0 - nth k (shape B) 0 <=? nth k is 0)%nat) (seq 0 (length (shape B)))).
      { apply eq_true_iff_eq. rewrite !forallb_forall. split.
        - intros H k Hk. apply in_seq in Hk.
          specialize (H (nth k (combine (combine (map (fun k => (nth k out 0 - nth k (shape B) 0)%nat) (seq 0 (length (shape B)))) (shape B)) is) (0%nat,0%nat,0%nat))).
          rewrite combine_nth, combine_nth, nth_map_seq in H by (rewrite ?combine_length, ?map_length, ?seq_length; lia).
          cbn [fst snd] in H. apply andb_true_iff with (b1 := _) in H as [H _]; auto.
          rewrite <- nth_map_seq with (f := fun k => (nth k out 0 - nth k (shape B) 0)%nat) (db := 0%nat) (m := length (shape B)) by lia.
          rewrite <- (combine_nth _ (shape B) k 0%nat 0%nat) by (rewrite map_length, seq_length; auto).
          rewrite <- (combine_nth _ is k (0%nat,0%nat) 0%nat) by (rewrite combine_length, map_length, seq_length; lia).
          apply nth_In. rewrite !combine_length, map_length, seq_length. lia.
        - intros H p Hp. apply In_nth with (d := (0%nat,0%nat,0%nat)) in Hp as [k [Hk He]].
          rewrite !combine_length, map_length, seq_length in Hk.
          rewrite combine_nth, combine_nth, nth_map_seq in He by (rewrite ?combine_length, ?map_length, ?seq_length; lia).
          subst p. cbn [fst snd]. rewrite H by (apply in_seq; lia). simpl. apply Nat.ltb_lt.
          pose proof (valid_nth _ _ k Hv). specialize (Hle k). lia. }
      rewrite E. clear E. match goal with |- (if ?b then _ else _) = _ => destruct b eqn:Ev; auto end. f_equal.
      apply nth_ext' with (d := 0%nat); [rewrite !map_length, combine_length, map_length, seq_length; lia|].
      intros k Hk. rewrite map_length, combine_length, map_length, seq_length in Hk.
      rewrite (map_nth_in _ _ _ (0%nat, 0%nat)) by (rewrite combine_length, map_length, seq_length; lia).
      rewrite combine_nth by (rewrite map_length, seq_length; lia). cbn [fst snd]. rewrite !nth_map_seq by lia. auto.
  Qed.

  Lemma cat_dims_not_eq A B dims : ndim A = ndim B ->
    sel 0%nat (shape A) (compl (ndim A) dims) = sel 0%nat (shape B) (compl (ndim A) dims) ->
    forall k, (k < ndim A)%nat -> ~ In k dims -> nth k (shape A) 0%nat = nth k (shape B) 0%nat.
  Proof.
    intros Hn He k Hk Hi. assert (Hc : In k (compl (ndim A) dims)) by (apply in_compl; auto).
    apply index_of_nth in Hc as [Hc Hx]. rewrite <- Hx. rewrite <- !sel_nth by auto. rewrite He; auto.
  Qed.
  Lemma cat_eq_dims_not A B dims : ndim A = ndim B ->
    (forall k, (k < ndim A)%nat -> ~ In k dims -> nth k (shape A) 0%nat = nth k (shape B) 0%nat) ->
    sel 0%nat (shape A) (compl (ndim A) dims) = sel 0%nat (shape B) (compl (ndim A) dims).
  Proof.
    intros Hn H. unfold sel. apply map_ext_in. intros k Hk. apply in_compl in Hk. apply H; tauto.
  Qed.

  Theorem ft_cat_spec A B dims : ndim A = ndim B -> Forall (fun k => (k < ndim A)%nat) dims ->
    (forall k, (k < ndim A)%nat -> ~ In k dims -> nth k (shape A) 0%nat = nth k (shape B) 0%nat) ->
    returns (ft_cat A B (Some dims)) (cat_shape dims (shape A) (shape B)) (cat_entry dims A B).
  Proof.
    intros Hn Hf He. unfold ft_cat. rewrite Hn, Nat.eqb_refl. cbn [negb]. rewrite <- Hn.
    rewrite (cat_eq_dims_not A B dims Hn He), list_eqb_refl. cbn [negb].
    assert (Hout : forall k, (k < ndim A)%nat -> nth k (cat_shape dims (shape A) (shape B)) 0%nat =
              if inb k dims then (nth k (shape A) 0 + nth k (shape B) 0)%nat else nth k (shape A) 0%nat).
    { intros k Hk. unfold cat_shape. rewrite nth_map_seq; auto. }
    assert (Lout : length (cat_shape dims (shape A) (shape B)) = ndim A) by (unfold cat_shape; rewrite map_length, seq_length; auto).
    assert (Hmain : returns
        (ft_add (np_pad A (repeat 0%nat (ndim A)) (map (fun p => (fst p - snd p)%nat) (combine (cat_shape dims (shape A) (shape B)) (shape A))))
                (np_pad B (map (fun p => (fst p - snd p)%nat) (combine (cat_shape dims (shape A) (shape B)) (shape B))) (repeat 0%nat (ndim A))))
        (cat_shape dims (shape A) (shape B)) (cat_entry dims A B)).
    { destruct (np_pad_front A (cat_shape dims (shape A) (shape B))) as [HsA HgA]; auto.
      { intros k Hk. rewrite Hout by auto. destruct (inb k dims); lia. }
      destruct (np_pad_back B (cat_shape dims (shape A) (shape B))) as [HsB HgB]; [lia| |].
      { intros k Hk. rewrite Hout by lia. destruct (inb k dims) eqn:Ei; [lia|].
        apply inb_false in Ei. rewrite He; auto; lia. }
      rewrite <- Hn in HsB, HgB.
      match goal with |- returns (ft_add ?X ?Y) _ _ => destruct (np_binop_same radd X Y) as [C [HC [HsC HgC]]] end.
      { rewrite HsA, HsB; auto. }
      exists C. split; [exact HC|]. split; [congruence|]. intros is Hv. rewrite HsA in HgC.
      rewrite HgC by auto. rewrite HgA, HgB by auto. unfold cat_entry.
      pose proof (valid_length _ _ Hv) as L. rewrite Lout in L.
      f_equal.
      - assert (E : validb (shape A) is = forallb (fun k => (nth k is 0 <? nth k (shape A) 0)%nat) dims).
        { apply eq_true_iff_eq. rewrite validb_spec, forallb_forall. rewrite Forall_forall in Hf. split.
          - intros Hv' k Hk. apply Nat.ltb_lt. apply valid_nth; auto.
          - intros H. apply valid_intro; [auto|]. intros k Hk. destruct (in_dec Nat.eq_dec k dims) as [Hi|Hi].
            + apply H in Hi. apply Nat.ltb_lt in Hi. auto.
            + pose proof (valid_nth _ _ k Hv) as Hvk. rewrite Lout in Hvk. specialize (Hvk Hk). rewrite Hout in Hvk by auto.
              apply inb_false in Hi. rewrite Hi in Hvk. auto. }
        rewrite E. auto.
      - assert (E : forallb (fun k => (nth k (cat_shape dims (shape A) (shape B)) 0 - nth k (shape B) 0 <=? nth k is 0)%nat) (seq 0 (ndim A))
                    = forallb (fun k => (nth k (shape A) 0 <=? nth k is 0)%nat) dims).
        { apply eq_true_iff_eq. rewrite !forallb_forall. rewrite Forall_forall in Hf. split.
          - intros H k Hk. pose proof (Hf k Hk) as Hkl. specialize (H k). rewrite Hout, (proj2 (inb_spec _ _) Hk) in H by auto.
            apply Nat.leb_le. assert (Hs : In k (seq 0 (ndim A))) by (apply in_seq; lia). apply H in Hs. apply Nat.leb_le in Hs. lia.
          - intros H k Hk. apply in_seq in Hk. rewrite Hout by lia. apply Nat.leb_le. destruct (inb k dims) eqn:Ei.
            + apply inb_spec in Ei. apply H in Ei. apply Nat.leb_le in Ei. lia.
            + apply inb_false in Ei. rewrite He by (auto; lia). lia. }
        rewrite E. match goal with |- (if ?b then _ else _) = _ => destruct b; auto end. f_equal. unfold ndim.
        apply map_ext_in. intros k Hk. apply in_seq in Hk. rewrite Hout by (unfold ndim; lia).
        destruct (inb k dims) eqn:Ei; [f_equal; lia|]. apply inb_false in Ei.
        rewrite He by (auto; unfold ndim; lia). lia. }
    assert (Hgen : returns (if negb (forallb (fun k => (k <? ndim A)%nat) dims) then None
        else ft_add (np_pad A (repeat 0%nat (ndim A)) (map (fun p => (fst p - snd p)%nat) (combine (cat_shape dims (shape A) (shape B)) (shape A))))
                (np_pad B (map (fun p => (fst p - snd p)%nat) (combine (cat_shape dims (shape A) (shape B)) (shape B))) (repeat 0%nat (ndim A))))
        (cat_shape dims (shape A) (shape B)) (cat_entry dims A B)).
    { rewrite (proj2 (forallb_ltb _ _)) by auto. exact Hmain. }
    destruct dims as [|d [|d' dims]]; [exact Hgen| |exact Hgen].
    clear Hgen Hmain. inversion Hf as [|? ? Hd _]; subst. unfold np_concatenate.
    rewrite (proj2 (Nat.ltb_lt _ _) Hd).
    assert (Hu : upd d 0%nat (shape A) = upd d 0%nat (shape B)).
    { unfold ndim in *. apply nth_ext' with (d := 0%nat); [rewrite !upd_length; auto|].
      intros k Hk. rewrite upd_length in Hk. rewrite !nth_upd. rewrite <- Hn.
      destruct (Nat.eqb_spec k d) as [->|Hne]; simpl.
      - rewrite (proj2 (Nat.ltb_lt _ _) Hd). auto.
      - apply He; auto. simpl. intuition. }
    rewrite Hu, list_eqb_refl. cbn [andb]. eexists; split; [reflexivity|].
    assert (Hsh : upd d (nth d (shape A) 0 + nth d (shape B) 0)%nat (shape A) = cat_shape [d] (shape A) (shape B)).
    { apply nth_ext' with (d := 0%nat); [rewrite upd_length; auto|].
      intros k Hk. rewrite upd_length in Hk. rewrite Hout by auto. rewrite nth_upd.
      unfold ndim in Hd. rewrite (proj2 (Nat.ltb_lt _ _) Hd), andb_true_r. simpl. rewrite orb_false_r.
      destruct (Nat.eqb_spec k d) as [->|]; auto. }
    split; cbn [shape get]; [exact Hsh|].
    intros is Hv. unfold cat_entry. cbn [forallb]. rewrite !andb_true_r.
    pose proof (valid_length _ _ Hv) as L. rewrite Lout in L. unfold ndim in L, Hd.
    destruct (Nat.ltb_spec (nth d is 0) (nth d (shape A) 0))%nat as [Hlt|Hge].
    - rewrite (proj2 (Nat.leb_gt _ _)) by auto. ring.
    - rewrite (proj2 (Nat.leb_le _ _)) by auto.
      match goal with |- get B ?x = _ + get B ?y => replace y with x; [ring|] end.
      apply nth_ext' with (d := 0%nat); [rewrite upd_length, map_length, seq_length; auto|].
      intros k Hk. rewrite upd_length in Hk. rewrite nth_upd, nth_map_seq by lia.
      rewrite L, (proj2 (Nat.ltb_lt _ _) Hd), andb_true_r. simpl. rewrite orb_false_r.
      destruct (Nat.eqb_spec k d) as [->|]; auto.
  Qed.

  (** * kron *)
  Lemma np_reshapeC_ok A s : prodn s = prodn (shape A) ->
    exists B, np_reshapeC A s = Some B /\ shape B = s /\
      forall is js, valid s is -> valid (shape A) js -> sub2indC s is = sub2indC (shape A) js -> get B is = get A js.
  Proof.
    intros H. unfold np_reshapeC. rewrite H, Nat.eqb_refl. eexists; split; [reflexivity|].
    split; [reflexivity|]. intros is js Hi Hj He. cbn [get]. rewrite He, ind2subC_sub2indC; auto.
  Qed.

  Theorem ft_kron_spec A B : ndim A = ndim B ->
    returns (ft_kron A B) (map (fun p => (fst p * snd p)%nat) (combine (shape A) (shape B)))
      (fun is => get A (map (fun p => (fst p / snd p)%nat) (combine is (shape B)))
                 * get B (map (fun p => (fst p mod snd p)%nat) (combine is (shape B)))).
  Proof.
    intros Hn. unfold ft_kron. rewrite Hn, Nat.max_id, Nat.sub_diag. cbn [repeat]. rewrite !app_nil_r.
    assert (Ln : length (shape A) = length (shape B)) by exact Hn.
    destruct (np_reshapeC_ok A [np_size A; 1%nat]) as [D1 [H1 [S1 G1]]]; [simpl; unfold np_size; lia|].
    destruct (np_reshapeC_ok B [1%nat; np_size B]) as [D2 [H2 [S2 G2]]]; [simpl; unfold np_size; lia|].
    rewrite H1. cbn [bind]. rewrite H2. cbn [bind].
    unfold np_matmul. rewrite S1, S2, Nat.eqb_refl. cbn [bind].
    match goal with |- returns (bind (np_reshapeC ?P _) _) _ _ => set (P0 := P) end.
    destruct (np_reshapeC_ok P0 (shape A ++ shape B)) as [P4 [H4 [S4 G4]]].
    { rewrite prodn_app. simpl. unfold np_size. lia. }
    rewrite H4. cbn [bind].
    assert (HpP : is_perm (ndim P4) (kron_perm (ndim B))).
    { unfold ndim at 1. rewrite S4, app_length, Ln. apply kron_perm_is_perm. }
    destruct (ft_transpose_spec P4 (kron_perm (ndim B)) HpP) as [Pt [Ht [St [Gt _]]]].
    unfold ft_transpose in Ht. rewrite Ht. cbn [bind].
    assert (Ssh : shape Pt = inter (shape A) (shape B)).
    { rewrite St, S4. rewrite <- Hn. apply sel_kron_perm; auto. }
    fold (pmul (shape A) (shape B)).
    destruct (np_reshapeC_ok Pt (pmul (shape A) (shape B))) as [D [HD [SD GD]]].
    { rewrite Ssh, prodn_inter; auto. }
    rewrite HD. cbn [bind]. unfold vmul. rewrite Ln, Nat.eqb_refl. cbn [bind].
    fold (pmul (shape A) (shape B)). unfold np_reshapeF. rewrite SD, Nat.eqb_refl.
    eexists; split; [reflexivity|]. split; cbn [shape get]; [auto|].
    intros is Hv. rewrite ind2subF_sub2indF by auto.
    pose proof (valid_length _ _ Hv) as L. unfold pmul in L. rewrite map_length, combine_length in L.
    set (ia := map (fun p => (fst p / snd p)%nat) (combine is (shape B))).
    set (ib := map (fun p => (fst p mod snd p)%nat) (combine is (shape B))).
    assert (Hab : valid (shape A) ia /\ valid (shape B) ib /\
                  is = map (fun p => (fst (fst p) * snd (fst p) + snd p)%nat) (combine (combine ia (shape B)) ib)).
    { unfold ia, ib. clear -Hv Ln. revert is Hv. generalize dependent (shape B). induction (shape A) as [|n s IH]; intros [|m t] Ln is Hv; try discriminate.
      - inversion Hv; subst. simpl. repeat split; constructor.
      - unfold pmul in Hv. cbn [combine map] in Hv. inversion Hv as [|i ? is' ? Hi Hv']; subst. cbn [fst snd] in Hi.
        simpl in Ln. destruct (IH t ltac:(lia) is' Hv') as [I1 [I2 I3]].
        cbn [combine map fst snd].
        assert (Hm : (m <> 0)%nat) by nia.
        split; [|split].
        + constructor; auto. apply Nat.div_lt_upper_bound; auto. lia.
        + constructor; auto. apply Nat.mod_upper_bound; auto.
        + f_equal; auto. rewrite (Nat.div_mod i m) at 1 by auto. lia. }
    destruct Hab as [Va [Vb Eis]].
    pose proof (valid_length _ _ Va) as La. pose proof (valid_length _ _ Vb) as Lb.
    rewrite (GD is (inter ia ib)); auto.
    2:{ rewrite Ssh. apply valid_inter; auto. }
    2:{ rewrite Ssh. rewrite sub2indC_inter by auto. rewrite <- Eis. auto. }
    assert (Ei : inter ia ib = sel 0%nat (ia ++ ib) (kron_perm (ndim B))).
    { rewrite <- sel_kron_perm by lia. rewrite La, <- Hn. reflexivity. }
    rewrite Ei, Gt by (rewrite S4; apply valid_app; auto).
    pose proof (sub2indC_lt _ _ Va) as Ba. pose proof (sub2indC_lt _ _ Vb) as Bb.
    rewrite (G4 (ia ++ ib) [sub2indC (shape A) ia; sub2indC (shape B) ib]).
    - unfold P0. cbn [get nth]. simpl rsum.
      rewrite (G1 [sub2indC (shape A) ia; 0%nat] ia), (G2 [0%nat; sub2indC (shape B) ib] ib); auto; try ring.
      + repeat constructor; auto.
      + unfold sub2indC at 1. simpl. lia.
      + repeat constructor; auto.
      + unfold sub2indC at 1. simpl. lia.
    - apply valid_app; auto.
    - unfold P0. cbn [shape]. repeat constructor; auto.
    - unfold P0. cbn [shape]. rewrite sub2indC_app by auto. unfold sub2indC at 3. simpl. unfold np_size. lia.
  Qed.
End FT2.
