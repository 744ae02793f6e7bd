(** tensordot_eval_diag: what its einsum computes. *)
From Coq Require Import List Arith Lia Bool Sorted Ring Permutation.
From Verif.Base Require Import ListAux CRing Index.
From Verif.Model Require Import Numpy FullTensor.
From Verif.Spec Require Import TensorSpec.
From Verif.Proofs Require Import NumpyP FullTensorP FunctionsP.
Import ListNotations.

Lemma lab_upd_spec ks : forall vs (l : list nat), NoDup ks -> Forall (fun k => k < length l) ks -> length vs = length ks ->
  lab_upd l ks vs = map (fun a => if inb a ks then nth (index_of a ks) vs 0 else nth a l 0) (seq 0 (length l)).
Proof.
  induction ks as [|k ks IH]; intros [|v vs] l ND HF L; cbn [length] in L; try lia.
  - unfold lab_upd. cbn [combine fold_left]. apply nth_ext' with (d := 0); [rewrite map_length, seq_length; auto|]. intros i Hi. rewrite nth_map_seq by auto. reflexivity.
  - unfold lab_upd. cbn [combine fold_left fst snd]. fold (lab_upd (upd k v l) ks vs). inversion ND as [|? ? Hn ND']. inversion HF as [|? ? Hk HF']. subst.
    rewrite IH; auto; [|rewrite upd_length; auto]. rewrite upd_length. apply map_ext_in. intros a Ha. apply in_seq in Ha. cbn [inb existsb index_of].
    fold (inb a ks). destruct (Nat.eqb_spec a k) as [->|Ne].
    + cbn [orb]. assert (inb k ks = false) as -> by (apply inb_false; auto). rewrite nth_upd_eq by auto. rewrite Nat.eqb_refl. reflexivity.
    + cbn [orb]. destruct (Nat.eqb_spec k a) as [->|_]; [contradiction|]. destruct (inb a ks); [reflexivity|]. apply nth_upd_neq. auto.
Qed.
Lemma nubn_app l : forall m, nubn (l ++ m) = nubn l ++ filter (fun b => negb (inb b l)) (nubn m).
Proof.
  induction l as [|a l IH]; intros m; cbn [app nubn].
  - cbn. induction (nubn m); cbn; auto. f_equal. auto.
  - rewrite IH. cbn [app]. f_equal. rewrite filter_app. f_equal.
    induction (nubn m) as [|b q IHq]; auto. cbn [filter].
    assert (EE : inb b (a :: l) = (b =? a) || inb b l) by reflexivity. rewrite EE.
    destruct (inb b l) eqn:E.
    + rewrite orb_true_r. cbn [negb]. exact IHq.
    + rewrite orb_false_r. cbn [negb filter]. destruct (b =? a) eqn:E2; cbn [negb]; [exact IHq|f_equal; exact IHq].
Qed.
Lemma nubn_fix f n : (forall a, a < n -> f a <= a /\ f (f a) = f a) -> nubn (map f (seq 0 n)) = filter (fun a => f a =? a) (seq 0 n).
Proof.
  induction n as [|n IH]; intros H; auto. rewrite seq_S, map_app, nubn_app, filter_app, IH by (intros; apply H; lia). f_equal. cbn [map Nat.add nubn filter].
  destruct (H n) as [H1 H2]; [lia|]. destruct (Nat.eqb_spec (f n) n) as [E|E].
  - assert (inb (f n) (map f (seq 0 n)) = false) as ->; [|cbn; f_equal; auto]. apply inb_false. intros K. apply in_map_iff in K. destruct K as (a & Ea & Ha). apply in_seq in Ha.
    pose proof (proj1 (H a ltac:(lia))). lia.
  - assert (inb (f n) (map f (seq 0 n)) = true) as ->; [|auto]. apply inb_spec. apply in_map_iff. exists (f n). split; auto. apply in_seq. lia.
Qed.
Lemma filter_filter {A} (p q : A -> bool) l : filter p (filter q l) = filter (fun a => q a && p a) l.
Proof. induction l as [|a l IH]; auto. cbn [filter]. destruct (q a) eqn:E; cbn [filter andb]; [destruct (p a); rewrite IH; auto|auto]. Qed.
Lemma index_of_fix f n a : a < n -> f a = a -> (forall b, b < n -> f b <= b) -> index_of a (map f (seq 0 n)) = a.
Proof.
  intros Ha E H. replace n with (a + (n - a)) by lia. rewrite seq_app, map_app.
  assert (NI : ~ In a (map f (seq 0 a))). { intros K. apply in_map_iff in K. destruct K as (b & Eb & Hb). apply in_seq in Hb. pose proof (H b ltac:(lia)). lia. }
  assert (G : forall l m, ~ In a l -> index_of a (l ++ m) = length l + index_of a m).
  { clear. induction l as [|b l IH]; intros m K; auto. cbn [app index_of length]. destruct (Nat.eqb_spec b a) as [->|Ne]; [exfalso; apply K; simpl; auto|].
    rewrite IH; [lia|]. intros Q. apply K. simpl. auto. }
  rewrite G by auto. rewrite map_length, seq_length. destruct (n - a) eqn:En; [lia|]. cbn [seq map Nat.add index_of]. rewrite E, Nat.eqb_refl. lia.
Qed.
Lemma index_of_app_r a l m : ~ In a l -> index_of a (l ++ m) = length l + index_of a m.
Proof.
  induction l as [|b l IH]; intros K; auto. cbn [app index_of length]. destruct (Nat.eqb_spec b a) as [->|Ne]; [exfalso; apply K; simpl; auto|].
  rewrite IH; [lia|]. intros Q. apply K. simpl. auto.
Qed.
Lemma index_of_app_l a l m : In a l -> index_of a (l ++ m) = index_of a l.
Proof.
  induction l as [|b l IH]; intros K; [destruct K|]. cbn [app index_of]. destruct (Nat.eqb_spec b a); auto. f_equal. apply IH. destruct K; [congruence|auto].
Qed.
Lemma index_of_map_add n b l : index_of (n + b) (map (Nat.add n) l) = index_of b l.
Proof. induction l as [|c l IH]; auto. cbn [map index_of]. destruct (Nat.eqb_spec (n + c) (n + b)), (Nat.eqb_spec c b); try lia; auto. Qed.

Section Ted.
  Context {R : Type} {CR : CRing R}.
  Add Ring Rrte : rth.
  Local Open Scope cr_scope.
  Variables (A B : nd R) (dims1 dims2 diag1 diag2 : list nat) (d0 : nat).
  Let nA := ndim A. Let nB := ndim B.
  Let diagA := d0 :: diag1.
  Hypothesis S1 : StronglySorted lt dims1.
  Hypothesis N2 : NoDup dims2.
  Hypothesis L12 : length dims2 = length dims1.
  Hypothesis F1 : Forall (fun k => (k < nA)%nat) (dims1 ++ diagA).
  Hypothesis F2 : Forall (fun k => (k < nB)%nat) (dims2 ++ diag2).
  Hypothesis ND1 : NoDup diagA.
  Hypothesis M1 : Forall (fun k => (d0 <= k)%nat) diag1.
  Hypothesis ND2 : NoDup diag2.
  Hypothesis D1 : forall k, In k dims1 -> ~ In k diagA.
  Hypothesis D2 : forall k, In k dims2 -> ~ In k diag2.
  Hypothesis Sz : sel 0%nat (shape A) dims1 = sel 0%nat (shape B) dims2.
  Hypothesis Sd1 : forall k, In k diag1 -> nth k (shape A) 0%nat = nth d0 (shape A) 0%nat.
  Hypothesis Sd2 : forall k, In k diag2 -> nth k (shape B) 0%nat = nth d0 (shape A) 0%nat.

  Definition ted_free1 : list nat := filter (fun k => negb (inb k (dims1 ++ diag1))) (seq 0 nA).
  Definition ted_free2 : list nat := compl nB (dims2 ++ diag2).
  Definition ted_ixA (is ks : list nat) : list nat :=
    map (fun a => if inb a dims1 then nth (index_of a dims1) ks 0%nat
                  else nth (index_of (if inb a diagA then d0 else a) ted_free1) is 0%nat) (seq 0 nA).
  Definition ted_ixB (is ks : list nat) : list nat :=
    map (fun b => if inb b dims2 then nth (index_of b dims2) ks 0%nat
                  else if inb b diag2 then nth (index_of d0 ted_free1) is 0%nat
                  else nth (length ted_free1 + index_of b ted_free2) is 0%nat) (seq 0 nB).

  Let fA (a : nat) : nat := if inb a diagA then d0 else a.
  Let fB (b : nat) : nat := if inb b dims2 then nth (index_of b dims2) dims1 0%nat else if inb b diag2 then d0 else (nA + b)%nat.
  Let f (x : nat) : nat := if (x <? nA)%nat then fA x else fB (x - nA).

  Lemma ted_N1 : NoDup dims1.
  Proof. clear - S1. induction S1 as [|a l H IH HF]; constructor; auto. rewrite Forall_forall in HF. intros K. specialize (HF a K). lia. Qed.
  Lemma ted_dims1_lt k : In k dims1 -> (k < nA)%nat.
  Proof. intros H. rewrite Forall_forall in F1. apply F1. apply in_or_app. auto. Qed.
  Lemma ted_d0_lt : (d0 < nA)%nat.
  Proof. rewrite Forall_forall in F1. apply F1. apply in_or_app. right. left. auto. Qed.
  Lemma ted_fA_dims1 k : In k dims1 -> fA k = k.
  Proof. intros H. unfold fA. rewrite (proj2 (inb_false k diagA)); auto. Qed.
  Lemma ted_fA_d0 : fA d0 = d0.
  Proof. unfold fA. destruct (inb d0 diagA); auto. Qed.
  Lemma ted_fB_val b : (b < nB)%nat -> (In (fB b) dims1 /\ In b dims2) \/ fB b = d0 /\ In b diag2 \/ fB b = (nA + b)%nat /\ ~ In b (dims2 ++ diag2).
  Proof.
    intros Hb. unfold fB. destruct (inb b dims2) eqn:E.
    - apply inb_spec in E. left. split; auto. apply nth_In. rewrite <- L12. apply index_of_nth. auto.
    - apply inb_false in E. destruct (inb b diag2) eqn:E2; [right; left; apply inb_spec in E2; auto|right; right; split; auto]. apply inb_false in E2. intros K. apply in_app_or in K. tauto.
  Qed.
  Lemma ted_f_ok a : (a < nA + nB)%nat -> (f a <= a)%nat /\ f (f a) = f a.
  Proof.
    intros Ha. pose proof ted_d0_lt as Hd. unfold f. destruct (Nat.ltb_spec a nA) as [H|H].
    - assert (K : (fA a = d0 /\ (d0 <= a)%nat) \/ fA a = a).
      { unfold fA. destruct (inb a diagA) eqn:E; auto. left. split; auto. apply inb_spec in E. destruct E as [E|E]; [lia|]. rewrite Forall_forall in M1. apply M1. auto. }
      destruct K as [[-> K]|K].
      + destruct (Nat.ltb_spec d0 nA); [|lia]. split; [auto|apply ted_fA_d0].
      + rewrite K. destruct (Nat.ltb_spec a nA); [|lia]. auto.
    - destruct (ted_fB_val (a - nA)) as [[K _]|[[K _]|[K _]]]; [lia| | |].
      + pose proof (ted_dims1_lt _ K). destruct (Nat.ltb_spec (fB (a - nA)) nA); [|lia]. split; [lia|apply ted_fA_dims1; auto].
      + rewrite K. destruct (Nat.ltb_spec d0 nA); [|lia]. split; [lia|apply ted_fA_d0].
      + rewrite K. replace (nA + (a - nA))%nat with a by lia. destruct (Nat.ltb_spec a nA); [lia|]. split; auto. rewrite K. lia.
  Qed.
  Lemma ted_ind1 : map fA (seq 0 nA) = map f (seq 0 nA).
  Proof. apply map_ext_in. intros a Ha. apply in_seq in Ha. unfold f. destruct (Nat.ltb_spec a nA); auto. lia. Qed.
  Lemma ted_ind2 : map fB (seq 0 nB) = map f (seq nA nB).
  Proof.
    replace (seq nA nB) with (map (Nat.add nA) (seq 0 nB)).
    - rewrite map_map. apply map_ext_in. intros b Hb. unfold f. destruct (Nat.ltb_spec (nA + b) nA); [lia|]. f_equal. lia.
    - clear. replace nA with (nA + 0)%nat at 2 by lia. generalize 0%nat as k. induction nB as [|n IH]; intros k; auto. cbn [seq map]. f_equal. rewrite IH. f_equal. lia.
  Qed.
  Lemma ted_nub : nubn (map fA (seq 0 nA) ++ map fB (seq 0 nB)) = filter (fun a => fA a =? a) (seq 0 nA) ++ map (Nat.add nA) ted_free2.
  Proof.
    rewrite ted_ind1, ted_ind2, <- map_app, <- seq_app.
    assert (nubn (map f (seq 0 (nA + nB))) = filter (fun a => f a =? a) (seq 0 (nA + nB))) as -> by (apply nubn_fix; intros; apply ted_f_ok; auto).
    rewrite seq_app, filter_app. f_equal.
    - apply filter_ext_in. intros a Ha. apply in_seq in Ha. unfold f. destruct (Nat.ltb_spec a nA); auto. lia.
    - cbn [Nat.add]. replace (seq nA nB) with (map (Nat.add nA) (seq 0 nB)).
      + unfold ted_free2, compl. assert (G : forall l, Forall (fun b => (b < nB)%nat) l -> filter (fun a => f a =? a) (map (Nat.add nA) l) = map (Nat.add nA) (filter (fun k => negb (inb k (dims2 ++ diag2))) l)).
        { induction l as [|b l IH]; intros HF; auto. inversion HF as [|? ? Hb HF']. subst. cbn [map filter]. rewrite IH by auto.
          unfold f. destruct (Nat.ltb_spec (nA + b) nA); [lia|]. replace (nA + b - nA)%nat with b by lia. pose proof ted_d0_lt.
          destruct (ted_fB_val b Hb) as [[K Q]|[[K Q]|[K Q]]].
          - pose proof (ted_dims1_lt _ K). destruct (Nat.eqb_spec (fB b) (nA + b)); [lia|]. rewrite (proj2 (inb_spec b _)); auto. apply in_or_app; auto.
          - rewrite K. destruct (Nat.eqb_spec d0 (nA + b)); [lia|]. rewrite (proj2 (inb_spec b _)); auto. apply in_or_app; auto.
          - rewrite K, Nat.eqb_refl. rewrite (proj2 (inb_false b _)); auto. }
        apply G. apply Forall_forall. intros b Hb. apply in_seq in Hb. lia.
      + clear. replace nA with (nA + 0)%nat at 2 by lia. generalize 0%nat as k. induction nB as [|n IH]; intros k; auto. cbn [seq map]. f_equal. rewrite IH. f_equal. lia.
  Qed.
  Lemma ted_free1_in k : In k ted_free1 <-> (k < nA)%nat /\ ~ In k dims1 /\ ~ In k diag1.
  Proof.
    unfold ted_free1. rewrite filter_In, in_seq, negb_true_iff, inb_false. split.
    - intros [H1 H2]. split; [lia|]. split; intros K; apply H2, in_or_app; auto.
    - intros (H1 & H2 & H3). split; [lia|]. intros K. apply in_app_or in K. tauto.
  Qed.
  Lemma ted_d0_free : In d0 ted_free1.
  Proof.
    apply ted_free1_in. split; [apply ted_d0_lt|]. split; [intros K; apply (D1 d0 K); left; auto|]. inversion ND1. auto.
  Qed.
  Lemma ted_lo : filter (fun i => negb (inb i dims1)) (nubn (map fA (seq 0 nA) ++ map fB (seq 0 nB))) = ted_free1 ++ map (Nat.add nA) ted_free2.
  Proof.
    rewrite ted_nub, filter_app. f_equal.
    - rewrite filter_filter. unfold ted_free1. apply filter_ext_in. intros a Ha. apply in_seq in Ha.
      assert (E : inb a (dims1 ++ diag1) = inb a dims1 || inb a diag1) by (unfold inb; apply existsb_app). rewrite E.
      unfold fA, diagA. unfold inb at 1. cbn [existsb]. fold (inb a diag1). destruct (Nat.eqb_spec a d0) as [->|Ne].
      + cbn [orb]. rewrite Nat.eqb_refl. cbn [andb]. destruct (inb d0 diag1) eqn:Q; [|rewrite orb_false_r; auto]. apply inb_spec in Q. inversion ND1. contradiction.
      + cbn [orb]. destruct (inb a diag1) eqn:Q; [|rewrite Nat.eqb_refl, orb_false_r; auto]. destruct (Nat.eqb_spec d0 a); [congruence|]. rewrite orb_true_r. auto.
    - assert (G : forall l, filter (fun i => negb (inb i dims1)) (map (Nat.add nA) l) = map (Nat.add nA) l).
      { induction l as [|b l IH]; auto. cbn [map filter]. rewrite IH. rewrite (proj2 (inb_false (nA + b) dims1)); auto. intros K. apply ted_dims1_lt in K. lia. }
      apply G.
  Qed.
  Lemma ted_ls : filter (fun x => negb (inb x (ted_free1 ++ map (Nat.add nA) ted_free2))) (nubn (map fA (seq 0 nA) ++ map fB (seq 0 nB))) = dims1.
  Proof.
    rewrite ted_nub, filter_app.
    assert (filter (fun x => negb (inb x (ted_free1 ++ map (Nat.add nA) ted_free2))) (map (Nat.add nA) ted_free2) = []) as ->.
    { assert (G : forall l, (forall x, In x l -> In x ted_free2) -> filter (fun x => negb (inb x (ted_free1 ++ map (Nat.add nA) ted_free2))) (map (Nat.add nA) l) = []).
      { induction l as [|b l IH]; intros HF; auto. cbn [map filter]. rewrite (proj2 (inb_spec (nA + b) _)); [cbn [negb]; apply IH; intros; apply HF; simpl; auto|].
        apply in_or_app. right. apply in_map. apply HF. simpl. auto. }
      apply G. auto. }
    rewrite app_nil_r, filter_filter. apply sorted_same; [apply sorted_filter_seq|exact S1|]. intros c. rewrite filter_In, in_seq, andb_true_iff, negb_true_iff, inb_false, Nat.eqb_eq. split.
    - intros (H1 & H2 & H3). destruct (in_dec Nat.eq_dec c dims1) as [|Hn]; auto. exfalso. apply H3. apply in_or_app. left. apply ted_free1_in. split; [lia|]. split; auto.
      intros K. unfold fA in H2. rewrite (proj2 (inb_spec c diagA)) in H2 by (right; auto). subst c. inversion ND1. contradiction.
    - intros H. pose proof (ted_dims1_lt c H). split; [lia|]. split; [apply ted_fA_dims1; auto|]. intros K. apply in_app_or in K. destruct K as [K|K].
      + apply ted_free1_in in K. tauto.
      + apply in_map_iff in K. destruct K as (b & Eb & _). lia.
  Qed.
  Lemma ted_fA_in a : (a < nA)%nat -> In (fA a) (map fA (seq 0 nA)).
  Proof. intros H. apply in_map. apply in_seq. lia. Qed.
  Lemma ted_sz_A a : (a < nA)%nat -> fA a = a -> lab_size A B (map fA (seq 0 nA)) (map fB (seq 0 nB)) a = nth a (shape A) 0%nat.
  Proof.
    intros H E. unfold lab_size. rewrite (proj2 (inb_spec a _)) by (rewrite <- E at 1; apply ted_fA_in; auto). f_equal.
    apply index_of_fix; auto. intros b Hb. pose proof (proj1 (ted_f_ok b ltac:(lia))) as K. unfold f in K. destruct (Nat.ltb_spec b nA); auto. lia.
  Qed.
  Lemma ted_sz_B b : (b < nB)%nat -> ~ In b (dims2 ++ diag2) -> lab_size A B (map fA (seq 0 nA)) (map fB (seq 0 nB)) (nA + b) = nth b (shape B) 0%nat.
  Proof.
    intros H Hn. pose proof ted_d0_lt as Hd. unfold lab_size. rewrite (proj2 (inb_false (nA + b) _)).
    - f_equal. assert (In (nA + b)%nat (map fB (seq 0 nB))) as I0.
      { apply in_map_iff. exists b. split; [|apply in_seq; lia]. destruct (ted_fB_val b H) as [[_ K]|[[_ K]|[K _]]]; auto; exfalso; apply Hn, in_or_app; auto. }
      apply index_of_nth in I0. destruct I0 as [I1 I2]. rewrite map_length, seq_length in I1. rewrite nth_map_seq in I2 by auto.
      set (x := index_of (nA + b) (map fB (seq 0 nB))) in *. cbn [Nat.add] in I2. destruct (ted_fB_val x I1) as [[K _]|[[K _]|[K _]]].
      + apply ted_dims1_lt in K. lia.
      + lia.
      + lia.
    - intros K. apply in_map_iff in K. destruct K as (a & Ea & Ha). apply in_seq in Ha. unfold fA in Ea. destruct (inb a diagA); lia.
  Qed.
  Lemma ted_spec : exists C, ft_tensordot_eval_diag A B dims1 dims2 diagA diag2 false = Some C /\
    shape C = sel 0%nat (shape A) ted_free1 ++ sel 0%nat (shape B) ted_free2 /\
    forall is, get C is = bsum (sel 0%nat (shape A) dims1) (fun ks => get A (ted_ixA is ks) * get B (ted_ixB is ks)).
  Proof.
    unfold ft_tensordot_eval_diag. change (ndim A) with nA. change (ndim B) with nB.
    rewrite (proj2 (forallb_ltb nA (dims1 ++ diagA))) by auto. rewrite (proj2 (forallb_ltb nB (dims2 ++ diag2))) by auto. cbn [andb negb].
    change (match diagA with [] => None | d :: _ => Some (lab_upd (seq 0 nA) diagA (repeat (nth d (seq 0 nA) 0%nat) (length diagA)),
        lab_upd (seq nA nB) diag2 (repeat (nth d (lab_upd (seq 0 nA) diagA (repeat (nth d (seq 0 nA) 0%nat) (length diagA))) 0%nat) (length diag2))) end)
      with (Some (lab_upd (seq 0 nA) diagA (repeat (nth d0 (seq 0 nA) 0%nat) (length diagA)),
        lab_upd (seq nA nB) diag2 (repeat (nth d0 (lab_upd (seq 0 nA) diagA (repeat (nth d0 (seq 0 nA) 0%nat) (length diagA))) 0%nat) (length diag2)))).
    cbn [bind fst snd]. pose proof ted_d0_lt as Hd.
    assert (FA : Forall (fun k => (k < nA)%nat) diagA) by (apply Forall_app in F1; apply F1).
    assert (FB2 : Forall (fun k => (k < nB)%nat) dims2) by (apply Forall_app in F2; apply F2).
    assert (FB3 : Forall (fun k => (k < nB)%nat) diag2) by (apply Forall_app in F2; apply F2).
    assert (E1 : lab_upd (seq 0 nA) diagA (repeat (nth d0 (seq 0 nA) 0%nat) (length diagA)) = map fA (seq 0 nA)).
    { rewrite lab_upd_spec; [|auto|rewrite seq_length; auto|rewrite repeat_length; auto]. rewrite seq_length. apply map_ext_in. intros a Ha. apply in_seq in Ha. unfold fA.
      destruct (inb a diagA) eqn:E; [|rewrite seq_nth by lia; lia]. rewrite (nth_indep _ 0%nat (nth d0 (seq 0 nA) 0%nat)) by (rewrite repeat_length; apply index_of_nth, inb_spec; auto).
      rewrite nth_repeat, seq_nth by lia. lia. }
    rewrite E1. assert (nth d0 (map fA (seq 0 nA)) 0%nat = d0) as -> by (rewrite nth_map_seq by auto; apply ted_fA_d0).
    set (l2 := if negb (length dims1 =? 0)%nat && negb (length dims2 =? 0)%nat then _ else _).
    assert (El2 : l2 = Some (map fB (seq 0 nB))).
    { assert (E2 : lab_upd (seq nA nB) diag2 (repeat d0 (length diag2)) = map (fun b => if inb b diag2 then d0 else (nA + b)%nat) (seq 0 nB)).
      { rewrite lab_upd_spec; [|auto|rewrite seq_length; auto|rewrite repeat_length; auto]. rewrite seq_length. apply map_ext_in. intros a Ha. apply in_seq in Ha.
        destruct (inb a diag2) eqn:E; [|rewrite seq_nth by lia; lia]. rewrite (nth_indep _ 0%nat d0) by (rewrite repeat_length; apply index_of_nth, inb_spec; auto).
        rewrite nth_repeat. reflexivity. }
      unfold l2. rewrite E2. destruct (Nat.eqb_spec (length dims1) 0) as [Z|Z].
      - cbn [negb andb]. f_equal. apply map_ext_in. intros b Hb. unfold fB. destruct dims2; [reflexivity|cbn [length] in L12; lia].
      - destruct (Nat.eqb_spec (length dims2) 0); [lia|]. cbn [negb andb]. rewrite L12, Nat.eqb_refl. f_equal.
        rewrite lab_upd_spec; [|auto|rewrite map_length, seq_length; auto|rewrite sel_length; auto]. rewrite map_length, seq_length. apply map_ext_in. intros b Hb. apply in_seq in Hb. unfold fB.
        destruct (inb b dims2) eqn:E; [|rewrite nth_map_seq by lia; reflexivity]. apply inb_spec in E. apply index_of_nth in E. destruct E as [E _]. rewrite L12 in E.
        rewrite sel_nth by auto. rewrite nth_map_seq by (apply ted_dims1_lt, nth_In; auto). cbn [Nat.add]. apply ted_fA_dims1, nth_In. auto. }
    rewrite El2. cbn [bind]. rewrite ted_lo.
    assert (Hsz1 : map (lab_size A B (map fA (seq 0 nA)) (map fB (seq 0 nB))) (map fA (seq 0 nA)) = shape A).
    { apply nth_ext' with (d := 0%nat); [rewrite !map_length, seq_length; auto|]. rewrite !map_length, seq_length. intros a Ha. rewrite map_map, nth_map_seq by auto. cbn [Nat.add].
      destruct (inb a diagA) eqn:E.
      - assert (fA a = d0) as -> by (unfold fA; rewrite E; auto). rewrite ted_sz_A by first [exact Hd|apply ted_fA_d0]. apply inb_spec in E. destruct E as [E|E]; [subst a; auto|]. symmetry. auto.
      - assert (Q : fA a = a) by (unfold fA; rewrite E; auto). rewrite Q. apply ted_sz_A; auto. }
    assert (Hsz2 : map (lab_size A B (map fA (seq 0 nA)) (map fB (seq 0 nB))) (map fB (seq 0 nB)) = shape B).
    { apply nth_ext' with (d := 0%nat); [rewrite !map_length, seq_length; auto|]. rewrite !map_length, seq_length. intros b Hb. rewrite map_map, nth_map_seq by auto. cbn [Nat.add].
      destruct (ted_fB_val b Hb) as [[K Q]|[[K Q]|[K Q]]].
      - rewrite ted_sz_A by first [apply ted_dims1_lt; auto|apply ted_fA_dims1; auto]. unfold fB. rewrite (proj2 (inb_spec b dims2)) by auto.
        destruct (index_of_nth _ _ Q) as [I1 I2]. pose proof (f_equal (fun l => nth (index_of b dims2) l 0%nat) Sz) as Q2. cbn beta in Q2. rewrite !sel_nth in Q2 by lia. rewrite Q2, I2. auto.
      - rewrite K. rewrite ted_sz_A by first [exact Hd|apply ted_fA_d0]. symmetry. auto.
      - rewrite K. apply ted_sz_B; auto. }
    unfold np_einsum. change (ndim A) with nA. change (ndim B) with nB. rewrite !map_length, !seq_length, !Nat.eqb_refl. cbn [andb].
    assert (ND : nodupb (ted_free1 ++ map (Nat.add nA) ted_free2) = true).
    { apply nodupb_spec. apply ListAux.NoDup_app.
      - apply NoDup_filter, seq_NoDup.
      - apply FinFun.Injective_map_NoDup; [intros u v; lia|apply NoDup_compl].
      - intros x Hx Hy. apply ted_free1_in in Hx. apply in_map_iff in Hy. destruct Hy as (b & Eb & _). lia. }
    rewrite ND. cbn [andb].
    assert (HI : forallb (fun x => inb x (map fA (seq 0 nA) ++ map fB (seq 0 nB))) (ted_free1 ++ map (Nat.add nA) ted_free2) = true).
    { apply forallb_forall. intros x Hx. apply inb_spec. rewrite <- ted_lo in Hx. apply filter_In in Hx. destruct Hx as [Hx _].
      revert Hx. generalize (map fA (seq 0 nA) ++ map fB (seq 0 nB)). clear. induction l as [|a l IH]; cbn [nubn]; auto. intros [->|H]; [left; auto|]. apply filter_In in H. right. apply IH. apply H. }
    rewrite HI. cbn [andb]. rewrite Hsz1, Hsz2, !list_eqb_refl. cbn [andb]. rewrite ted_ls. eexists. split; [reflexivity|]. cbn [shape get]. split.
    - rewrite map_app, map_map. f_equal.
      + unfold sel. apply map_ext_in. intros k Hk. apply ted_free1_in in Hk. destruct Hk as (H1 & H2 & H3). apply ted_sz_A; auto.
        unfold fA. destruct (inb k diagA) eqn:E; auto. apply inb_spec in E. destruct E as [E|E]; [auto|contradiction].
      + unfold sel. apply map_ext_in. intros b Hb. apply in_compl in Hb. apply ted_sz_B; apply Hb.
    - intros is. assert (Es : map (lab_size A B (map fA (seq 0 nA)) (map fB (seq 0 nB))) dims1 = sel 0%nat (shape A) dims1).
      { unfold sel. apply map_ext_in. intros k Hk. apply ted_sz_A; [apply ted_dims1_lt; auto|apply ted_fA_dims1; auto]. }
      rewrite Es. apply bsum_ext. intros ks Hks. rewrite !map_map.
      assert (VD : forall k, In k dims1 -> inb k (ted_free1 ++ map (Nat.add nA) ted_free2) = false).
      { intros k Hk. apply inb_false. intros K. apply in_app_or in K. destruct K as [K|K]; [apply ted_free1_in in K; tauto|]. apply in_map_iff in K. destruct K as (b & Eb & _). apply ted_dims1_lt in Hk. lia. }
      assert (VF : forall k, In k ted_free1 -> inb k (ted_free1 ++ map (Nat.add nA) ted_free2) = true /\ index_of k (ted_free1 ++ map (Nat.add nA) ted_free2) = index_of k ted_free1).
      { intros k Hk. split; [apply inb_spec, in_or_app; auto|apply index_of_app_l; auto]. }
      f_equal; f_equal; apply map_ext_in; intros a Ha; apply in_seq in Ha.
      + destruct (inb a dims1) eqn:E.
        * apply inb_spec in E. rewrite (ted_fA_dims1 a E), VD by auto. reflexivity.
        * apply inb_false in E. assert (K : In (fA a) ted_free1).
          { unfold fA. destruct (inb a diagA) eqn:Q; [apply ted_d0_free|]. apply ted_free1_in. apply inb_false in Q. split; [lia|]. split; auto. intros K. apply Q. right. auto. }
          destruct (VF _ K) as [V1 V2]. rewrite V1, V2. reflexivity.
      + destruct (ted_fB_val a) as [[K Q]|[[K Q]|[K Q]]]; [lia| | |].
        * rewrite (proj2 (inb_spec a dims2)) by auto. rewrite VD by auto. f_equal. unfold fB. rewrite (proj2 (inb_spec a dims2)) by auto. apply index_of_NoDup; [apply ted_N1|]. rewrite <- L12. apply index_of_nth. auto.
        * rewrite (proj2 (inb_false a dims2)) by (intros H; apply (D2 a H); auto). rewrite (proj2 (inb_spec a diag2)) by auto. rewrite K.
          destruct (VF _ ted_d0_free) as [V1 V2]. rewrite V1, V2. reflexivity.
        * assert (Q1 : ~ In a dims2) by (intros H; apply Q, in_or_app; auto). assert (Q2 : ~ In a diag2) by (intros H; apply Q, in_or_app; auto).
          rewrite (proj2 (inb_false a dims2)), (proj2 (inb_false a diag2)) by auto. rewrite K.
          assert (H1 : In (nA + a)%nat (map (Nat.add nA) ted_free2)) by (apply in_map, in_compl; split; [lia|auto]).
          rewrite (proj2 (inb_spec _ _)) by (apply in_or_app; auto). rewrite index_of_app_r, index_of_map_add by (intros H; apply ted_free1_in in H; lia). reflexivity.
  Qed.
End Ted.
