(** Lemmas about the numpy primitives. *)
From Coq Require Import List Arith Lia Bool ZArith Permutation.
From Verif.Base Require Import ListAux CRing Index.
From Verif.Model Require Import Sorting Numpy.
From Verif.Spec Require Import TensorSpec.
From Verif.Proofs Require Import SortingP.
Import ListNotations.

(** * boolean tests *)
Lemma inb_spec k l : inb k l = true <-> In k l.
Proof.
  unfold inb. rewrite existsb_exists. split.
  - intros [x [Hx He]]. apply Nat.eqb_eq in He. subst; auto.
  - intros H. exists k. rewrite Nat.eqb_refl. auto.
Qed.
Lemma inb_false k l : inb k l = false <-> ~ In k l.
Proof. rewrite <- inb_spec. destruct (inb k l); intuition congruence. Qed.
Lemma nodupb_spec l : nodupb l = true <-> NoDup l.
Proof.
  induction l as [|a l IH]; simpl; [split; auto; constructor|].
  rewrite andb_true_iff, negb_true_iff, inb_false, IH. split.
  - intros [H1 H2]. constructor; auto.
  - intros H; inversion H; subst; auto.
Qed.
Lemma list_eqb_spec a b : list_eqb a b = true <-> a = b.
Proof.
  revert b; induction a as [|x a IH]; intros [|y b]; simpl; try (split; congruence).
  rewrite andb_true_iff, Nat.eqb_eq, IH. split; [intros [-> ->]; auto|intros H; inversion H; auto].
Qed.
Lemma list_eqb_refl a : list_eqb a a = true.
Proof. apply list_eqb_spec; auto. Qed.
Lemma forallb_ltb n l : forallb (fun k => k <? n) l = true <-> Forall (fun k => k < n) l.
Proof.
  rewrite forallb_forall, Forall_forall. split; intros H x Hx; apply H in Hx; revert Hx.
  - apply Nat.ltb_lt.
  - intros; apply Nat.ltb_lt; auto.
Qed.
Lemma permb_spec n p : permb n p = true <-> is_perm n p.
Proof.
  unfold permb. rewrite !andb_true_iff, Nat.eqb_eq, forallb_ltb, nodupb_spec. split.
  - intros [[Hl Hf] Hn]. apply is_perm_intro; auto.
  - intros H. split; [split|].
    + eapply is_perm_length; eauto.
    + apply Forall_forall. intros k Hk. eapply is_perm_in in Hk; eauto.
    + eapply is_perm_NoDup; eauto.
Qed.

(** * complements *)
Lemma in_compl n d k : In k (compl n d) <-> k < n /\ ~ In k d.
Proof. unfold compl. rewrite filter_In, in_seq, negb_true_iff, inb_false. intuition lia. Qed.
Lemma NoDup_compl n d : NoDup (compl n d).
Proof. apply NoDup_filter', seq_NoDup. Qed.
Lemma compl_lt n d : Forall (fun k => k < n) (compl n d).
Proof. apply Forall_forall. intros k Hk. apply in_compl in Hk. tauto. Qed.
Lemma compl_app_perm n d : NoDup d -> Forall (fun k => k < n) d -> is_perm n (compl n d ++ d).
Proof.
  intros Hd Hf. unfold is_perm. apply NoDup_Permutation.
  - apply NoDup_app; auto using NoDup_compl. intros x Hx. apply in_compl in Hx. tauto.
  - apply seq_NoDup.
  - intros x. rewrite in_app_iff, in_compl, in_seq. rewrite Forall_forall in Hf.
    split.
    + intros [[? ?]|Hx]; [lia|]. apply Hf in Hx. lia.
    + intros Hx. destruct (in_dec Nat.eq_dec x d); [auto|left; split; auto; lia].
Qed.
Lemma app_compl_perm n d : NoDup d -> Forall (fun k => k < n) d -> is_perm n (d ++ compl n d).
Proof.
  intros Hd Hf. unfold is_perm. rewrite Permutation_app_comm. apply compl_app_perm; auto.
Qed.
Lemma compl_length n d : NoDup d -> Forall (fun k => k < n) d -> length (compl n d) + length d = n.
Proof. intros Hd Hf. rewrite <- app_length. apply is_perm_length with (n := n). apply compl_app_perm; auto. Qed.
Lemma compl_nil n : compl n [] = seq 0 n.
Proof. unfold compl. apply filter_true. auto. Qed.
Lemma compl_seq n : compl n (seq 0 n) = [].
Proof.
  unfold compl. apply filter_none. intros x Hx. apply negb_false_iff, inb_spec. auto.
Qed.
Lemma compl_single n k : k < n -> compl n [k] = seq 0 k ++ seq (S k) (n - S k).
Proof.
  intros Hk. unfold compl. replace n with (k + S (n - S k)) at 1 by lia.
  rewrite seq_app. rewrite filter_app. f_equal.
  - apply filter_true. intros x Hx. apply in_seq in Hx. apply negb_true_iff, inb_false. simpl. lia.
  - cbn [seq filter]. rewrite (proj2 (inb_spec (0 + k) [k])) by (simpl; auto). cbn [negb].
    apply filter_true. intros x Hx. apply in_seq in Hx.
    apply negb_true_iff, inb_false. simpl. lia.
Qed.

(** * assembling a multi-index *)
Lemma asm_length n d js is : length (asm n d js is) = n.
Proof. unfold asm. rewrite map_length, seq_length. auto. Qed.
Lemma asm_nth n d js is k : k < n ->
  nth k (asm n d js is) 0 = if inb k d then nth (index_of k d) js 0 else nth (index_of k (compl n d)) is 0.
Proof. intros Hk. unfold asm. rewrite nth_map_seq; auto. Qed.
Lemma asm_nth_in n d js is m : NoDup d -> Forall (fun k => k < n) d -> m < length d ->
  nth (nth m d 0) (asm n d js is) 0 = nth m js 0.
Proof.
  intros Hd Hf Hm. rewrite Forall_forall in Hf.
  rewrite asm_nth by (apply Hf, nth_In; auto).
  rewrite (proj2 (inb_spec _ _)) by (apply nth_In; auto). rewrite index_of_NoDup; auto.
Qed.
Lemma asm_nth_out n d js is m : m < length (compl n d) ->
  nth (nth m (compl n d) 0) (asm n d js is) 0 = nth m is 0.
Proof.
  intros Hm. pose proof (nth_In _ 0 Hm) as Hi. apply in_compl in Hi. destruct Hi as [Hi Hn].
  rewrite asm_nth by auto. rewrite (proj2 (inb_false _ _)) by auto.
  rewrite index_of_NoDup; auto using NoDup_compl.
Qed.
Lemma asm_ext n d js is l : length l = n -> NoDup d -> Forall (fun k => k < n) d ->
  (forall m, m < length d -> nth (nth m d 0) l 0 = nth m js 0) ->
  (forall m, m < length (compl n d) -> nth (nth m (compl n d) 0) l 0 = nth m is 0) ->
  asm n d js is = l.
Proof.
  intros Hl Hd Hf H1 H2. apply nth_ext' with (d := 0); [rewrite asm_length; auto|].
  intros k Hk. rewrite asm_length in Hk.
  destruct (in_dec Nat.eq_dec k d) as [Hi|Hi].
  - apply index_of_nth in Hi as [Hi He]. rewrite <- He.
    rewrite asm_nth_in, H1; auto.
  - assert (Hc : In k (compl n d)) by (apply in_compl; auto).
    apply index_of_nth in Hc as [Hc He]. rewrite <- He. rewrite asm_nth_out, H2; auto.
Qed.
Lemma asm_sel n d l : length l = n -> NoDup d -> Forall (fun k => k < n) d ->
  asm n d (sel 0 l d) (sel 0 l (compl n d)) = l.
Proof.
  intros. apply asm_ext; auto; intros; rewrite sel_nth; auto.
Qed.
Lemma sel_asm n d js is : NoDup d -> Forall (fun k => k < n) d -> length js = length d ->
  sel 0 (asm n d js is) d = js.
Proof.
  intros Hd Hf Hl. apply nth_ext' with (d := 0); [rewrite sel_length; auto|].
  intros m Hm. rewrite sel_length in Hm. rewrite sel_nth by auto. apply asm_nth_in; auto.
Qed.
Lemma sel_asm_compl n d js is : length is = length (compl n d) ->
  sel 0 (asm n d js is) (compl n d) = is.
Proof.
  intros Hl. apply nth_ext' with (d := 0); [rewrite sel_length; auto|].
  intros m Hm. rewrite sel_length in Hm. rewrite sel_nth by auto. apply asm_nth_out; auto.
Qed.
Lemma asm_nil n is : length is = n -> asm n [] [] is = is.
Proof.
  intros Hl. apply asm_ext; auto using NoDup_nil; simpl; [lia|].
  rewrite compl_nil. intros m Hm. rewrite seq_length in Hm. rewrite seq_nth by auto. auto.
Qed.
Lemma asm_all n js is : length js = n -> asm n (seq 0 n) js is = js.
Proof.
  intros Hl. apply asm_ext; auto using seq_NoDup.
  - apply Forall_forall. intros x Hx. apply in_seq in Hx. lia.
  - intros m Hm. rewrite seq_length in Hm. rewrite seq_nth; auto.
  - rewrite compl_seq. simpl. lia.
Qed.
Lemma Forall_lt_single n k : k < n -> Forall (fun x => x < n) [k].
Proof. repeat constructor; auto. Qed.
Lemma NoDup_single {A} (k : A) : NoDup [k].
Proof. repeat constructor; auto. Qed.
(** replacing one entry *)
Lemma asm_upd n k j is : length is = n -> k < n -> asm n [k] [j] (sel 0 is (compl n [k])) = upd k j is.
Proof.
  intros Hl Hk. apply asm_ext; auto using NoDup_single, Forall_lt_single.
  - rewrite upd_length; auto.
  - intros m Hm. simpl in Hm. replace m with 0 by lia. simpl. rewrite nth_upd_eq; auto; lia.
  - intros m Hm. rewrite sel_nth by auto. rewrite nth_upd_neq; auto.
    intros He. pose proof (nth_In _ 0 Hm) as Hi. rewrite He in Hi. apply in_compl in Hi.
    destruct Hi as [_ Hi]. apply Hi; simpl; auto.
Qed.
(** inserting one entry *)
Lemma asm_ins n k j is : length is = n - 1 -> k < n ->
  asm n [k] [j] is = firstn k is ++ j :: skipn k is.
Proof.
  intros Hl Hk.
  assert (Hfl : length (firstn k is) = k) by (rewrite firstn_length; lia).
  apply asm_ext; auto using NoDup_single, Forall_lt_single.
  - rewrite app_length. simpl. rewrite skipn_length, Hfl. lia.
  - intros m Hm. simpl in Hm. replace m with 0 by lia. simpl.
    rewrite app_nth2; rewrite Hfl; auto. rewrite Nat.sub_diag. auto.
  - rewrite compl_single by auto. intros m Hm. rewrite app_length, !seq_length in Hm.
    destruct (Nat.lt_ge_cases m k) as [Hmk|Hmk].
    + rewrite (app_nth1 (seq 0 k)) by (rewrite seq_length; auto). rewrite seq_nth by auto. simpl.
      rewrite app_nth1 by lia. rewrite <- (firstn_skipn k is) at 2. rewrite app_nth1; auto; lia.
    + rewrite (app_nth2 (seq 0 k)) by (rewrite seq_length; auto). rewrite seq_length.
      rewrite seq_nth by lia. rewrite app_nth2 by lia. rewrite Hfl.
      replace (S k + (m - k) - k) with (S (m - k)) by lia. simpl.
      rewrite <- (firstn_skipn k is) at 2. rewrite app_nth2 by lia. rewrite Hfl. auto.
Qed.
Lemma asm_last n j is : length is = n -> asm (S n) [n] [j] is = is ++ [j].
Proof.
  intros Hl. rewrite asm_ins by lia. rewrite <- Hl, firstn_all, skipn_all. auto.
Qed.
Lemma asm_first n j is : length is = n -> asm (S n) [0] [j] is = j :: is.
Proof. intros Hl. rewrite asm_ins by lia. auto. Qed.

Lemma valid_intro ns is : length is = length ns -> (forall k, k < length ns -> nth k is 0 < nth k ns 0) -> valid ns is.
Proof. intros Hl H. apply Forall2_of_nth with (da := 0) (db := 0); [auto|]. intros k Hk. apply H. lia. Qed.
Lemma valid_asm ns d js is : NoDup d -> Forall (fun k => k < length ns) d ->
  valid (sel 0 ns d) js -> valid (sel 0 ns (compl (length ns) d)) is ->
  valid ns (asm (length ns) d js is).
Proof.
  intros Hd Hf Hj Hi. apply valid_intro; [apply asm_length|]. intros k Hk.
  pose proof (valid_length _ _ Hj) as Lj. pose proof (valid_length _ _ Hi) as Li.
  rewrite sel_length in Lj, Li.
  destruct (in_dec Nat.eq_dec k d) as [Hin|Hin].
  - apply index_of_nth in Hin as [Hin He]. rewrite <- He.
    rewrite asm_nth_in by auto. rewrite <- sel_nth by auto. apply valid_nth; auto. rewrite sel_length; auto.
  - assert (Hc : In k (compl (length ns) d)) by (apply in_compl; auto).
    apply index_of_nth in Hc as [Hc He]. rewrite <- He. rewrite asm_nth_out by auto.
    rewrite <- sel_nth by auto. apply valid_nth; auto. rewrite sel_length; auto.
Qed.
Lemma valid_upd ns is k j : valid ns is -> j < nth k ns 0 -> valid ns (upd k j is).
Proof.
  intros Hv Hj. apply valid_intro; [rewrite upd_length; apply valid_length; auto|].
  intros m Hm. destruct (Nat.eq_dec m k) as [->|Hn].
  - rewrite nth_upd_eq; auto. rewrite (valid_length _ _ Hv); auto.
  - rewrite nth_upd_neq by auto. apply valid_nth; auto.
Qed.

(** * argsort of a permutation *)
Lemma inv_perm_unique n p q : is_perm n p -> length q = n -> Forall (fun k => k < n) q ->
  (forall k, k < n -> nth (nth k q 0) p 0 = k) -> q = inv_perm p.
Proof.
  intros Hp Hl Hf H. pose proof (is_perm_length _ _ Hp) as Lp.
  apply nth_ext' with (d := 0); [rewrite inv_perm_length; lia|].
  intros k Hk. rewrite Hl in Hk.
  assert (Hq : nth k q 0 < n) by (rewrite Forall_nth' with (d := 0) in Hf; apply Hf; lia).
  rewrite <- (inv_perm_nth' n p (nth k q 0)) by auto. rewrite H; auto.
Qed.
Lemma inv_perm_inv n p : is_perm n p -> inv_perm (inv_perm p) = p.
Proof.
  intros Hp. symmetry. apply inv_perm_unique with (n := n).
  - apply inv_perm_is_perm; auto.
  - apply is_perm_length; auto.
  - apply Forall_forall. intros k Hk. eapply is_perm_in; eauto.
  - intros k Hk. apply inv_perm_nth' with (n := n); auto.
Qed.

Lemma sorted_perm_seq a l n : Permutation l (seq a n) ->
  (forall i j, i < j -> j < length l -> nth i l 0 <= nth j l 0) -> l = seq a n.
Proof.
  revert a l. induction n as [|n IH]; intros a l Hp Hs.
  - simpl in Hp. apply Permutation_sym, Permutation_nil in Hp. auto.
  - destruct l as [|x l].
    { apply Permutation_nil in Hp. discriminate. }
    assert (Hx : x = a).
    { assert (Hi : In a (x :: l)) by (apply (Permutation_in _ (Permutation_sym Hp)); simpl; auto).
      assert (Hx : In x (seq a (S n))) by (apply (Permutation_in _ Hp); simpl; auto).
      apply in_seq in Hx. destruct Hi as [Hi|Hi]; [auto|].
      apply In_nth with (d := 0) in Hi as [k [Hk He]].
      specialize (Hs 0 (S k)). simpl in Hs. rewrite He in Hs.
      assert (x <= a) by (apply Hs; lia). lia. }
    subst x. simpl in Hp. apply Permutation_cons_inv in Hp.
    simpl. f_equal. apply IH; auto. intros i j Hi Hj. apply (Hs (S i) (S j)); simpl; lia.
Qed.
Lemma np_argsort_spec l : is_perm (length l) (np_argsort l) /\
  forall i j, i < j -> j < length l -> nth i (sel 0 l (np_argsort l)) 0 <= nth j (sel 0 l (np_argsort l)) 0.
Proof.
  unfold np_argsort. destruct (argsort_stable_is_ok (map Z.of_nat l)) as [H1 H2].
  rewrite map_length in H1, H2. split; auto.
  intros i j Hi Hj. specialize (H2 i j Hi Hj).
  pose proof (is_perm_length _ _ H1) as L.
  rewrite !sel_nth by lia.
  rewrite !(map_nth_in Z.of_nat l _ 0 0%Z) in H2 by (apply is_perm_nth; auto; lia). lia.
Qed.
Lemma np_argsort_perm n p : is_perm n p -> np_argsort p = inv_perm p.
Proof.
  intros Hp. pose proof (is_perm_length _ _ Hp) as L.
  destruct (np_argsort_spec p) as [H1 H2]. rewrite L in H1, H2.
  apply inv_perm_unique with (n := n); auto.
  - apply is_perm_length; auto.
  - apply Forall_forall. intros k Hk. eapply is_perm_in; eauto.
  - assert (Hs : sel 0 p (np_argsort p) = seq 0 n).
    { apply sorted_perm_seq.
      - rewrite (sel_perm 0 n) by auto. exact Hp.
      - rewrite sel_length, (is_perm_length _ _ H1). auto. }
    intros k Hk. rewrite <- sel_nth by (rewrite (is_perm_length _ _ H1); auto).
    rewrite Hs, seq_nth; auto.
Qed.

(** * numpy operations *)
Section NP.
  Context {R : Type} {CR : CRing R}.
  Add Ring Rr : rth.
  Local Open Scope cr_scope.
  Implicit Types A B C : nd R.

  Lemma teq_refl A : teq A A. Proof. split; auto. Qed.
  Lemma teq_sym A B : teq A B -> teq B A.
  Proof. intros [H1 H2]. split; auto. intros is Hv. symmetry. apply H2. rewrite H1; auto. Qed.
  Lemma teq_trans A B C : teq A B -> teq B C -> teq A C.
  Proof. intros [H1 H2] [H3 H4]. split; [congruence|]. intros is Hv. rewrite H2; auto. apply H4. rewrite <- H1; auto. Qed.
  Lemma teq_tensor_is A B s f : teq A B -> tensor_is A s f -> tensor_is B s f.
  Proof. intros [H1 H2] [H3 H4]. split; [congruence|]. intros is Hv. rewrite <- H4, H2; auto. rewrite H3; auto. Qed.
  Lemma tensor_is_teq A B s f : tensor_is A s f -> tensor_is B s f -> teq A B.
  Proof. intros [H1 H2] [H3 H4]. split; [congruence|]. intros is Hv. rewrite H1 in Hv. rewrite H2, H4; auto. Qed.
  Lemma tensor_is_ext A s f g : tensor_is A s f -> (forall is, valid s is -> f is = g is) -> tensor_is A s g.
  Proof. intros [H1 H2] H. split; auto. intros is Hv. rewrite H2; auto. Qed.
  Lemma returns_ext o s (f g : list nat -> R) : returns o s f -> (forall is, valid s is -> f is = g is) -> returns o s g.
  Proof. intros [A [H1 H2]] H. exists A; split; auto. eapply tensor_is_ext; eauto. Qed.

  Lemma np_transpose_perm A p : is_perm (ndim A) p ->
    np_transpose A p = Some (ND (sel 0%nat (shape A) p) (fun is => get A (sel 0%nat is (inv_perm p)))).
  Proof. intros H. unfold np_transpose. apply permb_spec in H. rewrite H. auto. Qed.
  Lemma np_transpose_some A p B : np_transpose A p = Some B -> is_perm (ndim A) p.
  Proof. unfold np_transpose. destruct (permb (ndim A) p) eqn:E; [|discriminate]. intros _. apply permb_spec; auto. Qed.

  (** broadcasting with equal shapes *)
  Lemma bshape_rev_same s : bshape_rev s s = Some s.
  Proof. induction s as [|x s IH]; auto. simpl. rewrite IH, Nat.eqb_refl. auto. Qed.
  Lemma bshape_same s : bshape s s = Some s.
  Proof. unfold bshape. rewrite bshape_rev_same, rev_involutive. auto. Qed.
  Lemma bindex_aux s is : valid s is -> map (fun p => if fst p =? 1 then 0%nat else snd p) (combine s is) = is.
  Proof.
    induction 1 as [|i n is s Hi Hv IH]; auto. simpl. rewrite IH. f_equal.
    destruct (Nat.eqb_spec n 1); lia.
  Qed.
  Lemma bindex_same s is : valid s is -> bindex s is = is.
  Proof.
    intros H. unfold bindex. rewrite bindex_aux by (apply valid_rev; auto). apply rev_involutive.
  Qed.
  Lemma bshape_scalar_r s : bshape s [] = Some s.
  Proof.
    unfold bshape. assert (H : bshape_rev (rev s) (rev []) = Some (rev s)) by (simpl; destruct (rev s); auto).
    rewrite H, rev_involutive. auto.
  Qed.
  Lemma bshape_scalar_l s : bshape [] s = Some s.
  Proof. unfold bshape. simpl. rewrite rev_involutive. auto. Qed.
  Lemma bindex_scalar is : bindex [] is = [].
  Proof. reflexivity. Qed.
  Lemma np_binop_same (f : R -> R -> R) A B : shape A = shape B ->
    returns (np_binop f A B) (shape A) (fun is => f (get A is) (get B is)).
  Proof.
    intros H. unfold np_binop. rewrite <- H, bshape_same. eexists; split; [reflexivity|].
    split; auto. intros is Hv. simpl. rewrite !bindex_same by auto. auto.
  Qed.

  Lemma np_sum_teq A B : teq A B -> np_sum A = np_sum B.
  Proof. intros [H1 H2]. unfold np_sum. rewrite <- H1. apply bsum_ext. intros js Hj. apply H2. exact Hj. Qed.
End NP.
