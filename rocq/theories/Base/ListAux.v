(** General list lemmas missing from the standard library (no modelling here). *)
From Coq Require Import List Arith Lia Permutation Bool Sorted.
Import ListNotations.

Lemma nth_error_ext {A} (l1 l2 : list A) :
  (forall n, nth_error l1 n = nth_error l2 n) -> l1 = l2.
Proof.
  revert l2; induction l1 as [|a l1 IH]; intros [|b l2] H; auto.
  - specialize (H 0); discriminate.
  - specialize (H 0); discriminate.
  - f_equal; [specialize (H 0); injection H; auto|].
    apply IH; intros n; exact (H (S n)).
Qed.

Lemma nth_ext' {A} (d : A) (l1 l2 : list A) :
  length l1 = length l2 -> (forall n, n < length l1 -> nth n l1 d = nth n l2 d) -> l1 = l2.
Proof. intros; eapply nth_ext; eauto. Qed.

Lemma map_nth_in {A B} (f : A -> B) (l : list A) (n : nat) (da : A) (db : B) :
  n < length l -> nth n (map f l) db = f (nth n l da).
Proof.
  revert n; induction l as [|a l IH]; simpl; intros n H; [lia|].
  destruct n; auto. apply IH; lia.
Qed.

Lemma nth_map_seq {B} (f : nat -> B) (m n : nat) (db : B) :
  n < m -> nth n (map f (seq 0 m)) db = f n.
Proof.
  intros H. rewrite map_nth_in with (da := 0); [|rewrite seq_length; lia].
  rewrite seq_nth; auto.
Qed.

Lemma map_seq_nth {A} (d : A) (l : list A) :
  map (fun k => nth k l d) (seq 0 (length l)) = l.
Proof.
  apply nth_ext' with (d := d); rewrite map_length, seq_length; auto.
  intros n H; rewrite nth_map_seq; auto.
Qed.

Lemma map_seq_shift {B} (f : nat -> B) (a m : nat) :
  map f (seq a m) = map (fun k => f (a + k)) (seq 0 m).
Proof.
  revert a f; induction m as [|m IH]; intros a f; simpl; auto.
  rewrite Nat.add_0_r. f_equal.
  rewrite IH, (IH 1). apply map_ext; intros; f_equal; lia.
Qed.

Lemma seq_S_snoc (a n : nat) : seq a (S n) = seq a n ++ [a + n].
Proof. rewrite seq_S; reflexivity. Qed.

Lemma NoDup_map_inj {A B} (f : A -> B) (l : list A) :
  (forall x y, In x l -> In y l -> f x = f y -> x = y) -> NoDup l -> NoDup (map f l).
Proof.
  induction l as [|a l IH]; intros Hi Hn; simpl; [constructor|].
  inversion Hn as [|? ? Ha Hl]; subst; constructor.
  - intros Hin; apply in_map_iff in Hin; destruct Hin as [x [Hx Hin]].
    assert (x = a) by (apply Hi; simpl; auto). subst; auto.
  - apply IH; auto; intros; apply Hi; simpl; auto.
Qed.

Lemma NoDup_app {A} (l1 l2 : list A) :
  NoDup l1 -> NoDup l2 -> (forall x, In x l1 -> ~ In x l2) -> NoDup (l1 ++ l2).
Proof.
  induction l1 as [|a l1 IH]; simpl; intros H1 H2 H; auto.
  inversion H1; subst; constructor.
  - rewrite in_app_iff; intros [?|?]; auto. eapply H; eauto.
  - apply IH; auto; intros; apply H; auto.
Qed.

Lemma Forall2_length' {A B} (P : A -> B -> Prop) l1 l2 :
  Forall2 P l1 l2 -> length l1 = length l2.
Proof. induction 1; simpl; auto. Qed.

Lemma Forall2_nth {A B} (P : A -> B -> Prop) l1 l2 n da db :
  Forall2 P l1 l2 -> n < length l1 -> P (nth n l1 da) (nth n l2 db).
Proof.
  intros H; revert n; induction H; simpl; intros n Hn; [lia|].
  destruct n; auto. apply IHForall2; lia.
Qed.

Lemma Forall2_of_nth {A B} (P : A -> B -> Prop) l1 l2 da db :
  length l1 = length l2 ->
  (forall n, n < length l1 -> P (nth n l1 da) (nth n l2 db)) -> Forall2 P l1 l2.
Proof.
  revert l2; induction l1 as [|a l1 IH]; intros [|b l2] Hl H; simpl in *; try lia; constructor.
  - apply (H 0); lia.
  - apply IH; [lia|]. intros n Hn; apply (H (S n)); lia.
Qed.

Lemma Forall2_app_split {A B} (P : A -> B -> Prop) l1 l2 m1 m2 :
  length l1 = length m1 -> Forall2 P (l1 ++ l2) (m1 ++ m2) -> Forall2 P l1 m1 /\ Forall2 P l2 m2.
Proof.
  revert m1; induction l1 as [|a l1 IH]; intros [|b m1] Hl H; simpl in *; try lia.
  - split; auto.
  - inversion H; subst. destruct (IH m1) as [? ?]; auto.
Qed.

Lemma combine_map_l {A B C} (f : A -> B) (l : list A) (m : list C) :
  combine (map f l) m = map (fun p => (f (fst p), snd p)) (combine l m).
Proof. revert m; induction l as [|a l IH]; intros [|c m]; simpl; auto; f_equal; auto. Qed.

Lemma length_concat_map {A B} (f : A -> list B) (l : list A) (n : nat) :
  (forall x, In x l -> length (f x) = n) -> length (concat (map f l)) = length l * n.
Proof.
  induction l as [|a l IH]; simpl; intros H; auto.
  rewrite app_length, H, IH; auto.
Qed.

Lemma filter_true {A} (f : A -> bool) l : (forall x, In x l -> f x = true) -> filter f l = l.
Proof.
  induction l as [|a l IH]; simpl; intros H; auto.
  rewrite (H a) by auto. f_equal; auto.
Qed.

Lemma filter_none {A} (f : A -> bool) l : (forall x, In x l -> f x = false) -> filter f l = [].
Proof.
  induction l as [|a l IH]; simpl; intros H; auto.
  rewrite (H a) by auto. auto.
Qed.

Lemma NoDup_filter' {A} (f : A -> bool) l : NoDup l -> NoDup (filter f l).
Proof. apply NoDup_filter. Qed.

Lemma in_seq' a n x : In x (seq a n) <-> a <= x < a + n.
Proof. apply in_seq. Qed.

Lemma Forall_nth' {A} (P : A -> Prop) l d : Forall P l <-> (forall n, n < length l -> P (nth n l d)).
Proof. rewrite Forall_nth. split; intros H n; [intros; apply H; auto|intros d' Hn; rewrite (nth_indep _ d' d); auto]. Qed.

Lemma fold_left_ext_in {A B} (f g : A -> B -> A) (l : list B) (a : A) :
  (forall x y, In y l -> f x y = g x y) -> fold_left f l a = fold_left g l a.
Proof.
  revert a; induction l as [|b l IH]; simpl; intros a H; auto.
  rewrite H by auto. apply IH; auto.
Qed.

(** list update *)
Fixpoint upd {A} (n : nat) (a : A) (l : list A) : list A :=
  match l, n with
  | [], _ => []
  | _ :: l', 0 => a :: l'
  | b :: l', S n' => b :: upd n' a l'
  end.

Lemma upd_length {A} n (a : A) l : length (upd n a l) = length l.
Proof. revert n; induction l as [|b l IH]; intros [|n]; simpl; auto. Qed.

Lemma nth_upd {A} n m (a d : A) l :
  nth m (upd n a l) d = if (m =? n) && (n <? length l) then a else nth m l d.
Proof.
  revert n m; induction l as [|b l IH]; intros n m; simpl.
  - destruct n, m; simpl; try rewrite Bool.andb_false_r; auto.
  - destruct n as [|n], m as [|m]; simpl; auto.
    rewrite IH. reflexivity.
Qed.

Lemma nth_upd_eq {A} n (a d : A) l : n < length l -> nth n (upd n a l) d = a.
Proof. intros H; rewrite nth_upd, Nat.eqb_refl. simpl. destruct (Nat.ltb_spec n (length l)); auto; lia. Qed.

Lemma nth_upd_neq {A} n m (a d : A) l : m <> n -> nth m (upd n a l) d = nth m l d.
Proof. intros H; rewrite nth_upd. destruct (Nat.eqb_spec m n); auto; lia. Qed.

Lemma upd_same {A} n (d : A) l : upd n (nth n l d) l = l.
Proof. revert n; induction l as [|b l IH]; intros [|n]; simpl; auto. f_equal; auto. Qed.

Lemma upd_upd {A} n (a b : A) l : upd n a (upd n b l) = upd n a l.
Proof. revert n; induction l as [|c l IH]; intros [|n]; simpl; auto. f_equal; auto. Qed.

Lemma upd_app_l {A} n (a : A) l1 l2 : n < length l1 -> upd n a (l1 ++ l2) = upd n a l1 ++ l2.
Proof. revert n; induction l1 as [|c l1 IH]; intros [|n]; simpl; intros; try lia; auto. f_equal; apply IH; lia. Qed.

Lemma upd_app_r {A} n (a : A) l1 l2 : length l1 <= n -> upd n a (l1 ++ l2) = l1 ++ upd (n - length l1) a l2.
Proof.
  revert n; induction l1 as [|c l1 IH]; intros n; simpl; intros.
  - f_equal; lia.
  - destruct n as [|n]; [lia|]. simpl. f_equal. apply IH; lia.
Qed.

Lemma upd_map {A B} (f : A -> B) n a l : upd n (f a) (map f l) = map f (upd n a l).
Proof. revert n; induction l as [|c l IH]; intros [|n]; simpl; auto. f_equal; auto. Qed.

Lemma upd_split {A} n (a d : A) l : n < length l -> upd n a l = firstn n l ++ a :: skipn (S n) l.
Proof.
  revert n; induction l as [|c l IH]; intros [|n]; simpl; intros; try lia; auto.
  f_equal. apply IH; lia.
Qed.

Lemma list_split_nth {A} n (d : A) l : n < length l -> l = firstn n l ++ nth n l d :: skipn (S n) l.
Proof.
  revert n; induction l as [|c l IH]; intros [|n]; simpl; intros; try lia; auto.
  f_equal. apply IH; lia.
Qed.

(** sums and products of nat lists *)
Fixpoint prodn (l : list nat) : nat := match l with [] => 1 | a :: l' => a * prodn l' end.

Lemma prodn_app l1 l2 : prodn (l1 ++ l2) = prodn l1 * prodn l2.
Proof. induction l1 as [|a l1 IH]; simpl; [lia|]. rewrite IH; lia. Qed.

Lemma prodn_perm l1 l2 : Permutation l1 l2 -> prodn l1 = prodn l2.
Proof. induction 1; simpl; lia. Qed.

Lemma prodn_pos l : Forall (fun n => 0 < n) l -> 0 < prodn l.
Proof. induction 1; simpl; lia. Qed.

Lemma prodn_zero l : prodn l = 0 <-> In 0 l.
Proof.
  induction l as [|a l IH]; simpl; [lia|]. rewrite Nat.eq_mul_0, IH. intuition lia.
Qed.

Lemma prodn_repeat b d : prodn (repeat b d) = b ^ d.
Proof. induction d; simpl; auto. Qed.

Fixpoint sumn (l : list nat) : nat := match l with [] => 0 | a :: l' => a + sumn l' end.
Lemma sumn_app l1 l2 : sumn (l1 ++ l2) = sumn l1 + sumn l2.
Proof. induction l1 as [|a l1 IH]; simpl; [lia|]. rewrite IH; lia. Qed.

Lemma skipn_nth_cons {A} (d : A) n l : n < length l -> skipn n l = nth n l d :: skipn (S n) l.
Proof.
  revert n; induction l as [|a l IH]; intros [|n] H; simpl in *; try lia; auto.
  apply IH; lia.
Qed.

Lemma option_map_some {A B} (f : A -> B) o b : option_map f o = Some b -> exists a, o = Some a /\ f a = b.
Proof. destruct o; simpl; intros H; inversion H; eauto. Qed.

(** sequencing of error-returning steps *)
Fixpoint omap {A B} (f : A -> option B) (l : list A) : option (list B) :=
  match l with
  | [] => Some []
  | a :: l' => match f a, omap f l' with Some b, Some bs => Some (b :: bs) | _, _ => None end
  end.

Lemma omap_some {A B} (f : A -> option B) (g : A -> B) l :
  (forall x, In x l -> f x = Some (g x)) -> omap f l = Some (map g l).
Proof.
  induction l as [|a l IH]; simpl; intros H; auto.
  rewrite (H a) by auto. rewrite IH; auto.
Qed.

Lemma omap_Forall2 {A B} (f : A -> option B) l bs :
  omap f l = Some bs -> Forall2 (fun a b => f a = Some b) l bs.
Proof.
  revert bs; induction l as [|a l IH]; simpl; intros bs H.
  - inversion H; constructor.
  - destruct (f a) eqn:E; [|discriminate]. destruct (omap f l) eqn:E2; [|discriminate].
    inversion H; subst; constructor; auto.
Qed.

Fixpoint ofold {A S} (f : S -> A -> option S) (l : list A) (s : S) : option S :=
  match l with [] => Some s | a :: l' => match f s a with Some s' => ofold f l' s' | None => None end end.

Lemma filter_length_le {A} (f : A -> bool) l : length (filter f l) <= length l.
Proof. induction l as [|a l IH]; simpl; auto. destruct (f a); simpl; lia. Qed.

Lemma filter_length_lt {A} (f : A -> bool) l x : In x l -> f x = false -> length (filter f l) < length l.
Proof.
  induction l as [|y l IH]; intros Hx E; [contradiction|]. simpl.
  pose proof (filter_length_le f l). destruct Hx as [->|Hx].
  - rewrite E. lia.
  - destruct (f y); simpl; [|lia]. apply -> Nat.succ_lt_mono. apply IH; auto.
Qed.
