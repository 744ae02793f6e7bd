(** Multi-index arithmetic: column-major (Fortran) and row-major (C) linearisation. *)
From Coq Require Import List Arith Lia Bool Permutation.
From Verif.Base Require Import ListAux CRing.
Import ListNotations.
#[global] Arguments Nat.div : simpl never.
#[global] Arguments Nat.modulo : simpl never.


(** [valid ns is]: the multi-index [is] is in range for the shape [ns]. *)
Definition valid (ns is : list nat) : Prop := Forall2 lt is ns.

Fixpoint validb (ns is : list nat) : bool :=
  match ns, is with
  | [], [] => true
  | n :: ns', i :: is' => (i <? n) && validb ns' is'
  | _, _ => false
  end.

Lemma validb_spec ns is : validb ns is = true <-> valid ns is.
Proof.
  revert is; induction ns as [|n ns IH]; intros [|i is]; simpl; split; intros H; try discriminate; try (inversion H; fail).
  - constructor.
  - reflexivity.
  - apply andb_true_iff in H; destruct H as [H1 H2]. constructor; [apply Nat.ltb_lt; auto|apply IH; auto].
  - inversion H; subst. apply andb_true_iff; split; [apply Nat.ltb_lt; auto|apply IH; auto].
Qed.

Lemma valid_length ns is : valid ns is -> length is = length ns.
Proof. apply Forall2_length'. Qed.

Lemma valid_nth ns is k : valid ns is -> k < length ns -> nth k is 0 < nth k ns 0.
Proof. intros H Hk. apply Forall2_nth; auto. rewrite (valid_length _ _ H); auto. Qed.

Lemma valid_app ns ms is js :
  valid ns is -> valid ms js -> valid (ns ++ ms) (is ++ js).
Proof. intros; apply Forall2_app; auto. Qed.

Lemma valid_app_inv ns ms ks :
  valid (ns ++ ms) ks -> exists is js, ks = is ++ js /\ valid ns is /\ valid ms js.
Proof.
  intros H. exists (firstn (length ns) ks), (skipn (length ns) ks).
  rewrite firstn_skipn. split; auto.
  apply Forall2_app_split. 
  - rewrite firstn_length. apply valid_length in H. rewrite app_length in H. lia.
  - rewrite firstn_skipn; auto.
Qed.

(** column-major: first index fastest *)
Fixpoint sub2indF (ns is : list nat) : nat :=
  match ns, is with
  | n :: ns', i :: is' => i + n * sub2indF ns' is'
  | _, _ => 0
  end.

Fixpoint ind2subF (ns : list nat) (k : nat) : list nat :=
  match ns with
  | [] => []
  | n :: ns' => (k mod n) :: ind2subF ns' (k / n)
  end.

(** row-major: last index fastest *)
Definition sub2indC (ns is : list nat) : nat := sub2indF (rev ns) (rev is).
Definition ind2subC (ns : list nat) (k : nat) : list nat := rev (ind2subF (rev ns) k).

Lemma sub2indF_lt ns is : valid ns is -> sub2indF ns is < prodn ns.
Proof. induction 1 as [|i n is ns Hi H IH]; simpl; [lia|]. nia. Qed.

Lemma ind2subF_length ns k : length (ind2subF ns k) = length ns.
Proof. revert k; induction ns as [|n ns IH]; intros k; simpl; auto. Qed.

Lemma ind2subF_valid ns k : k < prodn ns -> valid ns (ind2subF ns k).
Proof.
  revert k; induction ns as [|n ns IH]; simpl; intros k H; constructor.
  - apply Nat.mod_upper_bound; nia.
  - apply IH. apply Nat.div_lt_upper_bound; [nia|lia].
Qed.

Lemma ind2subF_sub2indF ns is : valid ns is -> ind2subF ns (sub2indF ns is) = is.
Proof.
  induction 1 as [|i n is ns Hi H IH]; simpl; auto.
  assert (n <> 0) by lia.
  rewrite (Nat.mul_comm n), Nat.mod_add, Nat.mod_small, Nat.div_add, Nat.div_small by lia.
  simpl. rewrite IH; auto.
Qed.

Lemma sub2indF_ind2subF ns k : k < prodn ns -> sub2indF ns (ind2subF ns k) = k.
Proof.
  revert k; induction ns as [|n ns IH]; simpl; intros k H; [lia|].
  rewrite IH.
  - pose proof (Nat.div_mod k n). nia.
  - apply Nat.div_lt_upper_bound; [nia|lia].
Qed.

Lemma sub2indF_inj ns is js : valid ns is -> valid ns js -> sub2indF ns is = sub2indF ns js -> is = js.
Proof. intros H1 H2 H. rewrite <- (ind2subF_sub2indF ns is), <- (ind2subF_sub2indF ns js), H; auto. Qed.

Lemma valid_rev ns is : valid ns is -> valid (rev ns) (rev is).
Proof.
  induction 1; simpl; [constructor|]. apply Forall2_app; auto.
Qed.

Lemma prodn_rev ns : prodn (rev ns) = prodn ns.
Proof. apply prodn_perm. symmetry; apply Permutation_rev. Qed.

Lemma sub2indC_lt ns is : valid ns is -> sub2indC ns is < prodn ns.
Proof. intros H. unfold sub2indC. rewrite <- prodn_rev. apply sub2indF_lt, valid_rev; auto. Qed.

Lemma ind2subC_valid ns k : k < prodn ns -> valid ns (ind2subC ns k).
Proof.
  intros H. unfold ind2subC. rewrite <- (rev_involutive ns) at 1. apply valid_rev, ind2subF_valid.
  rewrite prodn_rev; auto.
Qed.

Lemma ind2subC_sub2indC ns is : valid ns is -> ind2subC ns (sub2indC ns is) = is.
Proof.
  intros H. unfold ind2subC, sub2indC. rewrite ind2subF_sub2indF; [apply rev_involutive|apply valid_rev; auto].
Qed.

Lemma sub2indC_ind2subC ns k : k < prodn ns -> sub2indC ns (ind2subC ns k) = k.
Proof.
  intros H. unfold ind2subC, sub2indC. rewrite rev_involutive. apply sub2indF_ind2subF. rewrite prodn_rev; auto.
Qed.

Lemma sub2indF_app ns ms is js : valid ns is ->
  sub2indF (ns ++ ms) (is ++ js) = sub2indF ns is + prodn ns * sub2indF ms js.
Proof. induction 1 as [|i n is ns Hi H IH]; simpl; [lia|]. rewrite IH. nia. Qed.

Lemma ind2subF_app ns ms k : 
  ind2subF (ns ++ ms) k = ind2subF ns k ++ ind2subF ms (k / prodn ns).
Proof.
  revert k; induction ns as [|n ns IH]; intros k; simpl.
  - rewrite Nat.div_1_r; auto.
  - f_equal. rewrite IH. do 2 f_equal.
    destruct (Nat.eq_dec n 0) as [->|Hn].
    + simpl. change (k / 0) with 0. destruct (prodn ns); auto.
    + destruct (Nat.eq_dec (prodn ns) 0) as [E|Hp].
      * rewrite E, Nat.mul_0_r. reflexivity.
      * rewrite Nat.div_div; auto.
Qed.

(** the box of all multi-indices, first coordinate fastest *)
Fixpoint boxF (ns : list nat) : list (list nat) :=
  match ns with
  | [] => [[]]
  | n :: ns' => concat (map (fun is => map (fun i => i :: is) (seq 0 n)) (boxF ns'))
  end.

Lemma in_boxF ns is : In is (boxF ns) <-> valid ns is.
Proof.
  revert is; induction ns as [|n ns IH]; intros is; simpl.
  - split; [intros [<-|[]]; constructor|intros H; inversion H; auto].
  - rewrite in_concat. split.
    + intros [x [Hx Hi]]. apply in_map_iff in Hx; destruct Hx as [js [<- Hj]].
      apply in_map_iff in Hi; destruct Hi as [i [<- Hi]]. apply in_seq in Hi.
      constructor; [lia|apply IH; auto].
    + intros H; inversion H as [|i m js ms Hi Hj]; subst.
      exists (map (fun i => i :: js) (seq 0 n)). split.
      * apply (in_map (fun is => map (fun i => i :: is) (seq 0 n))), IH; exact Hj.
      * apply (in_map (fun i => i :: js)). apply in_seq; lia.
Qed.

Lemma seq_mul_split {B} n m (a : nat -> B) :
  map a (seq 0 (n * m)) = concat (map (fun j => map (fun i => a (i + n * j)) (seq 0 n)) (seq 0 m)).
Proof.
  induction m as [|m IH].
  - rewrite Nat.mul_0_r; auto.
  - rewrite seq_S_snoc, map_app, concat_app, <- IH. simpl. rewrite app_nil_r.
    rewrite Nat.mul_succ_r, seq_app, map_app. f_equal. simpl.
    rewrite map_seq_shift. apply map_ext; intros; f_equal; lia.
Qed.

Lemma boxF_ind2sub ns : boxF ns = map (ind2subF ns) (seq 0 (prodn ns)).
Proof.
  induction ns as [|n ns IH]; simpl; auto.
  rewrite seq_mul_split, IH, map_map. f_equal. apply map_ext_in; intros k _.
  apply map_ext_in; intros i Hi. apply in_seq in Hi.
  assert (n <> 0) by lia.
  rewrite (Nat.mul_comm n k), Nat.mod_add, Nat.div_add, Nat.mod_small, Nat.div_small; auto; lia.
Qed.

Lemma boxF_length ns : length (boxF ns) = prodn ns.
Proof. rewrite boxF_ind2sub, map_length, seq_length; auto. Qed.

Lemma NoDup_boxF ns : NoDup (boxF ns).
Proof.
  rewrite boxF_ind2sub. apply NoDup_map_inj; [|apply seq_NoDup].
  intros x y Hx Hy E. apply in_seq in Hx, Hy.
  rewrite <- (sub2indF_ind2subF ns x), <- (sub2indF_ind2subF ns y), E; auto; lia.
Qed.

Lemma nth_boxF ns k : k < prodn ns -> nth k (boxF ns) [] = ind2subF ns k.
Proof. intros H. rewrite boxF_ind2sub, nth_map_seq; auto. Qed.

Section BoxSums.
  Context {R : Type} {CR : CRing R}.

  Lemma bsum_lsum ns (f : list nat -> R) : bsum ns f = lsum (boxF ns) f.
  Proof.
    revert f; induction ns as [|n ns IH]; intros f; simpl.
    - rewrite (Radd_comm rth), (Radd_0_l rth); auto.
    - rewrite lsum_concat.
      rewrite (lsum_ext (boxF ns) _ (fun a => rsum n (fun i => f (i :: a)))).
      2:{ intros a _. rewrite lsum_map, lsum_seq; auto. }
      rewrite lsum_rsum_exchange. apply rsum_ext; intros. apply IH.
  Qed.

  Lemma bsum_linear ns (f : list nat -> R) : bsum ns f = rsum (prodn ns) (fun k => f (ind2subF ns k)).
  Proof. rewrite bsum_lsum, boxF_ind2sub, lsum_map, lsum_seq; auto. Qed.

  Lemma bsum_linear' ns (f : nat -> R) : bsum ns (fun is => f (sub2indF ns is)) = rsum (prodn ns) f.
  Proof. rewrite bsum_linear. apply rsum_ext; intros. rewrite sub2indF_ind2subF; auto. Qed.

  (** change of summation box along a bijection *)
  Lemma bsum_bij ns ms (h : list nat -> list nat) (g : list nat -> list nat) (f : list nat -> R) :
    (forall is, valid ns is -> valid ms (h is) /\ g (h is) = is) ->
    (forall js, valid ms js -> valid ns (g js) /\ h (g js) = js) ->
    bsum ns (fun is => f (h is)) = bsum ms f.
  Proof.
    intros H1 H2. rewrite !bsum_lsum.
    rewrite <- (lsum_map h (boxF ns) f).
    apply lsum_perm. apply NoDup_Permutation.
    - apply NoDup_map_inj; [|apply NoDup_boxF].
      intros x y Hx Hy E. apply in_boxF in Hx, Hy.
      destruct (H1 x Hx) as [_ <-], (H1 y Hy) as [_ <-]. congruence.
    - apply NoDup_boxF.
    - intros x. rewrite in_map_iff, in_boxF. split.
      + intros [y [<- Hy]]. apply in_boxF in Hy. apply H1; auto.
      + intros Hx. exists (g x). rewrite in_boxF. split; apply H2; auto.
  Qed.
End BoxSums.

(** positions selected from a list (numpy fancy indexing [a[ks]]) *)
Definition sel {A} (d : A) (l : list A) (ks : list nat) : list A := map (fun k => nth k l d) ks.

Lemma sel_length {A} (d : A) l ks : length (sel d l ks) = length ks.
Proof. apply map_length. Qed.

Lemma sel_nth {A} (d : A) l ks k : k < length ks -> nth k (sel d l ks) d = nth (nth k ks 0) l d.
Proof. intros H. unfold sel. rewrite map_nth_in with (da := 0); auto. Qed.

Lemma sel_seq {A} (d : A) l : sel d l (seq 0 (length l)) = l.
Proof. apply map_seq_nth. Qed.

Lemma sel_valid ns is ks : valid ns is -> Forall (fun k => k < length ns) ks ->
  valid (sel 0 ns ks) (sel 0 is ks).
Proof.
  intros H; induction 1 as [|k ks Hk Hks IH]; simpl; constructor; auto.
  apply valid_nth; auto.
Qed.

(** [is_perm n p]: [p] is a permutation of 0..n-1 *)
Definition is_perm (n : nat) (p : list nat) : Prop := Permutation p (seq 0 n).

Fixpoint index_of (k : nat) (l : list nat) : nat :=
  match l with [] => 0 | a :: l' => if a =? k then 0 else S (index_of k l') end.

Lemma index_of_nth l k : In k l -> index_of k l < length l /\ nth (index_of k l) l 0 = k.
Proof.
  induction l as [|a l IH]; simpl; [contradiction|]. intros H.
  destruct (Nat.eqb_spec a k) as [E|E]; [split; [lia|auto]|].
  destruct H as [H|H]; [contradiction|]. destruct (IH H). split; [lia|auto].
Qed.

Lemma index_of_NoDup l n : NoDup l -> n < length l -> index_of (nth n l 0) l = n.
Proof.
  intros H; revert n; induction H as [|a l Ha Hl IH]; simpl; intros n Hn; [lia|].
  destruct n as [|n]; simpl.
  - rewrite Nat.eqb_refl; auto.
  - destruct (Nat.eqb_spec a (nth n l 0)) as [E|E].
    + exfalso; apply Ha; rewrite E; apply nth_In; lia.
    + f_equal; apply IH; lia.
Qed.

Lemma is_perm_length n p : is_perm n p -> length p = n.
Proof. intros H. apply Permutation_length in H. rewrite seq_length in H; auto. Qed.

Lemma is_perm_in n p k : is_perm n p -> (In k p <-> k < n).
Proof.
  intros H. split; intros Hk.
  - apply (Permutation_in _ H) in Hk. apply in_seq in Hk; lia.
  - apply (Permutation_in _ (Permutation_sym H)). apply in_seq; lia.
Qed.

Lemma is_perm_NoDup n p : is_perm n p -> NoDup p.
Proof. intros H. apply (Permutation_NoDup (Permutation_sym H)), seq_NoDup. Qed.

Lemma is_perm_nth n p k : is_perm n p -> k < n -> nth k p 0 < n.
Proof. intros H Hk. apply (is_perm_in n p); auto. apply nth_In. rewrite (is_perm_length n p H); auto. Qed.

Lemma is_perm_intro n p : length p = n -> NoDup p -> Forall (fun k => k < n) p -> is_perm n p.
Proof.
  intros Hl Hn Hf. unfold is_perm. apply NoDup_Permutation_bis; auto.
  - rewrite seq_length; lia.
  - intros k Hk. apply in_seq. rewrite Forall_forall in Hf. apply Hf in Hk; lia.
Qed.

(** inverse permutation *)
Definition inv_perm (p : list nat) : list nat := map (fun k => index_of k p) (seq 0 (length p)).

Lemma inv_perm_length p : length (inv_perm p) = length p.
Proof. unfold inv_perm. rewrite map_length, seq_length; auto. Qed.

Lemma inv_perm_nth n p k : is_perm n p -> k < n -> nth k (inv_perm p) 0 < n /\ nth (nth k (inv_perm p) 0) p 0 = k.
Proof.
  intros H Hk. unfold inv_perm. rewrite (is_perm_length n p H), nth_map_seq by auto.
  rewrite <- (is_perm_length n p H). apply index_of_nth. apply (is_perm_in n p); auto.
Qed.

Lemma inv_perm_nth' n p k : is_perm n p -> k < n -> nth (nth k p 0) (inv_perm p) 0 = k.
Proof.
  intros H Hk. unfold inv_perm. rewrite (is_perm_length n p H), nth_map_seq by (apply is_perm_nth; auto).
  apply index_of_NoDup; [eapply is_perm_NoDup; eauto|]. rewrite (is_perm_length n p H); auto.
Qed.

Lemma inv_perm_is_perm n p : is_perm n p -> is_perm n (inv_perm p).
Proof.
  intros H. pose proof (is_perm_length n p H) as Hl. apply is_perm_intro.
  - rewrite inv_perm_length; auto.
  - apply (NoDup_nth _ 0). rewrite inv_perm_length, Hl. intros i j Hi Hj E.
    destruct (inv_perm_nth n p i H Hi) as [_ Ei]. destruct (inv_perm_nth n p j H Hj) as [_ Ej]. congruence.
  - apply Forall_nth' with (d := 0). rewrite inv_perm_length, Hl. intros k Hk.
    apply (inv_perm_nth n p k H Hk).
Qed.

Lemma sel_inv_perm {A} (d : A) n p l : is_perm n p -> length l = n -> sel d (sel d l p) (inv_perm p) = l.
Proof.
  intros H Hl. pose proof (is_perm_length n p H) as Hp.
  apply nth_ext' with (d := d); rewrite !sel_length, inv_perm_length; [congruence|].
  intros k Hk. rewrite Hp in Hk. rewrite sel_nth by (rewrite inv_perm_length; congruence).
  destruct (inv_perm_nth n p k H Hk) as [H1 H2].
  rewrite sel_nth by congruence. rewrite H2; auto.
Qed.

Lemma sel_inv_perm' {A} (d : A) n p l : is_perm n p -> length l = n -> sel d (sel d l (inv_perm p)) p = l.
Proof.
  intros H Hl. pose proof (is_perm_length n p H) as Hp.
  apply nth_ext' with (d := d); rewrite !sel_length; [congruence|].
  intros k Hk. rewrite Hp in Hk. rewrite sel_nth by congruence.
  rewrite sel_nth by (rewrite inv_perm_length, Hp; apply is_perm_nth; auto).
  rewrite (inv_perm_nth' n); auto.
Qed.

Lemma sel_perm {A} (d : A) n p l : is_perm n p -> length l = n -> Permutation (sel d l p) l.
Proof.
  intros H Hl. unfold sel. eapply Permutation_trans; [apply Permutation_map, H|].
  rewrite <- Hl, map_seq_nth. reflexivity.
Qed.

Lemma sel_sel {A} (d : A) l ks js : Forall (fun j => j < length ks) js ->
  sel d (sel d l ks) js = sel d l (sel 0 ks js).
Proof.
  intros H. unfold sel. rewrite map_map. apply map_ext_in. intros j Hj.
  rewrite Forall_forall in H. rewrite map_nth_in with (da := 0); auto.
Qed.

Lemma nth_ind2subF ns k j : j < length ns ->
  nth j (ind2subF ns k) 0 = (k / prodn (firstn j ns)) mod nth j ns 0.
Proof.
  revert k j; induction ns as [|n ns IH]; intros k j Hj; simpl in *; [lia|].
  destruct j as [|j]; simpl; [rewrite Nat.div_1_r; auto|].
  rewrite IH by lia. f_equal.
  destruct (Nat.eq_dec n 0) as [->|Hn].
  - simpl. change (k / 0) with 0. destruct (prodn (firstn j ns)) eqn:E; auto.
  - destruct (Nat.eq_dec (prodn (firstn j ns)) 0) as [E|Hp].
    + rewrite E, Nat.mul_0_r. reflexivity.
    + rewrite Nat.div_div; auto.
Qed.
