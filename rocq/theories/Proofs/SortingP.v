From Coq Require Import List Arith ZArith Lia Bool Permutation Sorted.
From Verif.Base Require Import ListAux Index.
From Verif.Model Require Import Sorting.
Import ListNotations.

Section DedupP.
  Context {A : Type} (eqb : A -> A -> bool) (eqb_spec : forall a b, eqb a b = true <-> a = b).

  Lemma memb_spec a l : memb eqb a l = true <-> In a l.
  Proof.
    unfold memb. rewrite existsb_exists. split.
    - intros [x [Hx E]]. apply eqb_spec in E; subst; auto.
    - intros H. exists a; split; auto. apply eqb_spec; auto.
  Qed.
  Lemma memb_false a l : memb eqb a l = false <-> ~ In a l.
  Proof. rewrite <- memb_spec. destruct (memb eqb a l); split; congruence. Qed.

  Lemma dedup_aux_in seen l x : In x (dedup_aux eqb seen l) <-> In x l /\ ~ In x seen.
  Proof.
    revert seen; induction l as [|a l IH]; intros seen; simpl; [tauto|].
    destruct (memb eqb a seen) eqn:E.
    - apply memb_spec in E. rewrite IH. split; [tauto|]. intros [[->|H] Hn]; tauto.
    - apply memb_false in E. simpl. rewrite IH. simpl.
      assert (D : {a = x} + {a <> x}).
      { destruct (eqb a x) eqn:Ea; [left; apply eqb_spec; auto|right; intros ->].
        assert (eqb x x = true) by (apply eqb_spec; auto). congruence. }
      destruct D as [->|D]; tauto.
  Qed.
  Lemma dedup_in l x : In x (dedup eqb l) <-> In x l.
  Proof. unfold dedup. rewrite dedup_aux_in. simpl; tauto. Qed.

  Lemma dedup_aux_NoDup seen l : NoDup (dedup_aux eqb seen l).
  Proof.
    revert seen; induction l as [|a l IH]; intros seen; simpl; [constructor|].
    destruct (memb eqb a seen); auto. constructor; auto.
    rewrite dedup_aux_in. simpl; tauto.
  Qed.
  Lemma dedup_NoDup l : NoDup (dedup eqb l).
  Proof. apply dedup_aux_NoDup. Qed.

  Lemma dedup_aux_id seen l : NoDup l -> (forall x, In x l -> ~ In x seen) -> dedup_aux eqb seen l = l.
  Proof.
    revert seen; induction l as [|a l IH]; intros seen Hn H; simpl; auto.
    inversion Hn; subst.
    assert (memb eqb a seen = false) as -> by (apply memb_false; apply H; simpl; auto).
    f_equal. apply IH; auto. intros x Hx [->|Hs]; auto. apply (H x); simpl; auto.
  Qed.
  Lemma dedup_id l : NoDup l -> dedup eqb l = l.
  Proof. intros; apply dedup_aux_id; auto. Qed.
End DedupP.

(** the concrete stable sort meets its contract *)
Lemma insert_pos_perm key k l : Permutation (insert_pos key k l) (k :: l).
Proof.
  induction l as [|j l IH]; simpl; auto. destruct (Z.leb _ _); auto.
  rewrite IH. constructor.
Qed.

Definition pos_lt (key : nat -> Z) (i j : nat) : Prop := (key i < key j)%Z \/ (key i = key j /\ i < j).

Lemma pos_lt_trans key : forall a b c, pos_lt key a b -> pos_lt key b c -> pos_lt key a c.
Proof. unfold pos_lt; intros; lia. Qed.

Lemma insert_pos_sorted key k l :
  (forall j, In j l -> k < j) -> StronglySorted (pos_lt key) l -> StronglySorted (pos_lt key) (insert_pos key k l).
Proof.
  induction l as [|j l IH]; simpl; intros Hk Hs; [repeat constructor|].
  inversion Hs as [|? ? Hs' Hf]; subst.
  destruct (Z.leb_spec (key k) (key j)).
  - assert (pos_lt key k j) as Hkj.
    { unfold pos_lt. pose proof (Hk j). lia. }
    constructor; auto. constructor; auto.
    eapply Forall_impl; [|exact Hf]. intros a Ha. eapply pos_lt_trans; eauto.
  - constructor; [apply IH; auto|].
    apply Forall_forall. intros x Hx. apply (Permutation_in _ (insert_pos_perm key k l)) in Hx.
    destruct Hx as [<-|Hx]; [left; lia|]. rewrite Forall_forall in Hf; auto.
Qed.

Lemma argsort_stable_perm a : is_perm (length a) (argsort_stable a).
Proof.
  unfold is_perm, argsort_stable. generalize (seq 0 (length a)); intros l.
  induction l as [|k l IH]; simpl; auto. rewrite insert_pos_perm, IH; auto.
Qed.

Lemma argsort_stable_sorted a : StronglySorted (pos_lt (fun i => nth i a 0%Z)) (argsort_stable a).
Proof.
  unfold argsort_stable. generalize 0%nat. generalize (length a). intros n.
  induction n as [|n IH]; intros s; simpl; [constructor|].
  apply insert_pos_sorted; [|apply IH].
  intros j Hj.
  assert (P : Permutation (fold_right (insert_pos (fun i => nth i a 0%Z)) [] (seq (S s) n)) (seq (S s) n)).
  { clear. generalize (seq (S s) n); intros l. induction l as [|k l IH]; simpl; auto.
    rewrite insert_pos_perm, IH; auto. }
  apply (Permutation_in _ P) in Hj. apply in_seq in Hj; lia.
Qed.

Lemma StronglySorted_nth {A} (R : A -> A -> Prop) l d i j :
  StronglySorted R l -> i < j -> j < length l -> R (nth i l d) (nth j l d).
Proof.
  intros H; revert i j; induction H as [|a l Hs IH Hf]; simpl; intros i j Hij Hj; [lia|].
  destruct j as [|j]; [lia|]. destruct i as [|i].
  - rewrite Forall_forall in Hf. apply Hf, nth_In; lia.
  - apply IH; lia.
Qed.

Lemma StronglySorted_of_nth {A} (R : A -> A -> Prop) l d :
  (forall i j, i < j -> j < length l -> R (nth i l d) (nth j l d)) -> StronglySorted R l.
Proof.
  induction l as [|a l IH]; intros H; constructor.
  - apply IH. intros i j Hi Hj. apply (H (S i) (S j)); simpl; lia.
  - apply Forall_forall. intros x Hx. apply (In_nth _ _ d) in Hx. destruct Hx as [n [Hn <-]].
    apply (H 0 (S n)); simpl; lia.
Qed.

Lemma argsort_stable_is_stable : argsort_stable_ok argsort_stable.
Proof.
  assert (Hlen : forall a, length (argsort_stable a) = length a).
  { intros a. apply is_perm_length, argsort_stable_perm. }
  split; [split|].
  - apply argsort_stable_perm.
  - intros i j Hij Hj.
    pose proof (StronglySorted_nth _ _ 0 i j (argsort_stable_sorted a) Hij) as H.
    rewrite Hlen in H. specialize (H Hj). unfold pos_lt in H. lia.
  - intros a i j Hij Hj E.
    pose proof (StronglySorted_nth _ _ 0 i j (argsort_stable_sorted a) Hij) as H.
    rewrite Hlen in H. specialize (H Hj). unfold pos_lt in H. lia.
Qed.

Lemma argsort_stable_is_ok : argsort_ok argsort_stable.
Proof. apply argsort_stable_is_stable. Qed.

Lemma sel_perm_rows {A} (d : A) l ind : is_perm (length l) ind -> Permutation (sel d l ind) l.
Proof. intros H. apply (sel_perm d (length l)); auto. Qed.
