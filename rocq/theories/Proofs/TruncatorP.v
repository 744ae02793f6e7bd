(** Truncator: the number of kept singular values. *)
From Coq Require Import List Arith Lia Bool Reals Lra.
From Verif.Base Require Import ListAux CRing Index RealAux.
From Verif.Model Require Import Sorting Numpy FullTensor Diagonal Canonical DimensionTree TreeBased Truncator.
From Verif.Spec Require Import TensorSpec TruncatorSpec.
Import ListNotations.
Local Open Scope R_scope.

Lemma first_true_some l k : first_true l = Some k <-> (k < length l)%nat /\ nth k l false = true /\ forall j, (j < k)%nat -> nth j l false = false.
Proof.
  revert k. induction l as [|b l IH]; intros k; simpl.
  - split; [discriminate|]. intros [H _]. lia.
  - destruct b.
    + split.
      * intros E. injection E as <-. split; [lia|]. split; auto. intros j Hj. lia.
      * intros (_ & _ & H). destruct k; auto. specialize (H 0%nat ltac:(lia)). discriminate.
    + destruct (first_true l) as [j|] eqn:E; simpl.
      * pose proof (proj1 (IH j) eq_refl) as (H1 & H2 & H3). split.
        -- intros E'. injection E' as <-. split; [lia|]. split; auto. intros [|i] Hi; auto. apply H3. lia.
        -- destruct k as [|k]; intros (K1 & K2 & K3); [discriminate|].
           f_equal. f_equal. assert (Some j = Some k); [|congruence]. apply IH. split; [lia|]. split; auto. intros i Hi. apply (K3 (S i)). lia.
      * split; [discriminate|]. destruct k as [|k]; intros (K1 & K2 & K3); [discriminate|].
        assert (None = Some k); [|discriminate]. apply IH. split; [lia|]. split; auto. intros i Hi. apply (K3 (S i)). lia.
Qed.
Lemma first_true_none l : first_true l = None <-> forall j, (j < length l)%nat -> nth j l false = false.
Proof.
  induction l as [|b l IH]; simpl.
  - split; auto. intros _ j Hj. lia.
  - destruct b.
    + split; [discriminate|]. intros H. specialize (H 0%nat ltac:(lia)). discriminate.
    + destruct (first_true l) as [j|] eqn:E; simpl.
      * split; [discriminate|]. intros H. assert (Some j = None); [|discriminate]. apply IH. intros i Hi. apply (H (S i)). lia.
      * split; auto. intros _ [|i] Hi; auto. apply IH; auto. lia.
Qed.

Definition tsum (q : list R) : R := lsum q (fun x => x).
Lemma tsum_rev q : tsum (rev q) = tsum q.
Proof. unfold tsum. induction q as [|a q IH]; simpl; auto. rewrite lsum_app_R. simpl. rcbn. rewrite IH. ring. Qed.
Lemma cumsum_length l : length (np_cumsum l) = length l.
Proof. unfold np_cumsum. rewrite map_length, seq_length. auto. Qed.
Lemma tails q : rev (np_cumsum (rev q)) = map (fun k => tsum (skipn k q)) (seq 0 (length q)).
Proof.
  apply nth_ext with (d := 0) (d' := 0); [rewrite rev_length, cumsum_length, rev_length, map_length, seq_length; auto|].
  rewrite rev_length, cumsum_length, rev_length. intros k Hk.
  rewrite rev_nth by (rewrite cumsum_length, rev_length; auto). rewrite cumsum_length, rev_length.
  unfold np_cumsum. rewrite rev_length.
  rewrite map_nth_in with (da := 0%nat) by (rewrite seq_length; lia). rewrite map_nth_in with (da := 0%nat) by (rewrite seq_length; lia).
  rewrite !seq_nth by lia. cbn [plus]. fold (tsum (firstn (S (length q - S k)) (rev q))).
  replace (S (length q - S k)) with (length q - k)%nat by lia. rewrite firstn_rev. rewrite tsum_rev.
  replace (length q - (length q - k))%nat with k by lia. auto.
Qed.
Lemma tsum_map p l : tsum (map (fun x => rpow x p) l) = lsum l (fun x => rpow x p).
Proof. unfold tsum. induction l; simpl; auto. rewrite IHl. auto. Qed.
Lemma tsum_nonneg p l : 0 <= lsum l (fun x => rpow x p).
Proof. apply lsum_nonneg. intros. apply rpow_nonneg. Qed.
Lemma skipn_skipn {A} a b (l : list A) : skipn a (skipn b l) = skipn (a + b) l.
Proof. revert l. induction b; intros l; [rewrite Nat.add_0_r; auto|]. rewrite Nat.add_succ_r. destruct l; [rewrite !skipn_nil; auto|]. simpl. auto. Qed.
Lemma lsum_skipn_le l (f : R -> R) k j : (forall x, 0 <= f x) -> (k <= j)%nat -> lsum (skipn j l) f <= lsum (skipn k l) f.
Proof.
  intros Hf Hk. replace j with ((j - k) + k)%nat by lia. rewrite <- skipn_skipn. set (m := skipn k l).
  rewrite <- (firstn_skipn (j - k) m) at 2. rewrite lsum_app_R. assert (0 <= lsum (firstn (j - k) m) f) by (apply lsum_nonneg; auto). lra.
Qed.

(** relative p-norm of the discarded values *)
Lemma pnorm_nonneg p l : 0 <= pnorm p l.
Proof. apply rpow_nonneg. Qed.
Lemma pnorm_skip_le p l k j : 0 < p -> (k <= j)%nat -> pnorm p (skipn j l) <= pnorm p (skipn k l).
Proof.
  intros Hp Hk. apply rpow_le; [apply Rdiv_lt_0_compat; lra|apply tsum_nonneg|]. apply lsum_skipn_le; auto. intros. apply rpow_nonneg.
Qed.
Lemma rel_err p s k : 0 < p -> lsum s (fun x => rpow x p) <> 0 -> forall tol,
  (rpow (lsum (skipn k s) (fun x => rpow x p) / lsum s (fun x => rpow x p)) (1 / p) < tol <-> pnorm p (skipn k s) < tol * pnorm p s).
Proof.
  intros Hp Hne tol. pose proof (tsum_nonneg p s) as H0. assert (H1 : 0 < lsum s (fun x => rpow x p)) by lra.
  rewrite rpow_div by (auto; apply tsum_nonneg). unfold pnorm. pose proof (rpow_pos _ (1 / p) H1) as H2. set (a := rpow (lsum (skipn k s) _) _). set (b := rpow (lsum s _) _) in *.
  split; intros H.
  - apply (Rmult_lt_compat_r b) in H; auto. unfold Rdiv in H. rewrite Rmult_assoc, Rinv_l, Rmult_1_r in H by lra. auto.
  - apply (Rmult_lt_reg_r b); auto. unfold Rdiv. rewrite Rmult_assoc, Rinv_l, Rmult_1_r by lra. auto.
Qed.
Lemma sv_error_p p s : lsum s (fun x => rpow x p) <> 0 ->
  sv_error (Pw p) s = map (fun k => Some (rpow (lsum (skipn k s) (fun x => rpow x p) / lsum s (fun x => rpow x p)) (1 / p))) (seq 0 (length s)).
Proof.
  intros Hne. unfold sv_error. rewrite tails. rewrite map_map, map_length. apply map_ext. intros k.
  change (lsum (map (fun x : R => rpow x p) s) (fun x => x)) with (tsum (map (fun x : R => rpow x p) s)). rewrite skipn_map, !tsum_map.
  destruct (Req_EM_T _ _); [contradiction|auto].
Qed.
Lemma sv_error_zero pw s : (match pw with Pw p => lsum s (fun x => rpow x p) | Pinf => maxnorm s end) = 0 -> sv_error pw s = repeat None (length s).
Proof.
  intros Hz. destruct pw as [p|]; unfold sv_error.
  - change (lsum (map (fun x : R => rpow x p) s) (fun x => x)) with (tsum (map (fun x : R => rpow x p) s)). rewrite tsum_map, Hz. destruct (Req_EM_T 0 0); [|lra].
    rewrite <- (map_length (fun x => rpow x p) s). rewrite <- rev_length. rewrite <- cumsum_length. rewrite <- rev_length.
    generalize (rev (np_cumsum (rev (map (fun x => rpow x p) s)))). induction l; simpl; auto. f_equal. auto.
  - unfold maxnorm in Hz. rewrite Hz. destruct (Req_EM_T 0 0); [|lra]. clear. induction s; simpl; auto. f_equal. auto.
Qed.
(** the smallest k >= 1 such that [below k] *)
Definition is_first (n : nat) (below : nat -> Prop) (k : nat) : Prop := (1 <= k <= n)%nat /\ below k /\ forall j, (1 <= j < k)%nat -> ~ below j.
Lemma tol_rank_gen pw tol n s (e : nat -> option R) : 0 < tol -> length s = n -> (0 < n)%nat -> sv_error pw s = map e (seq 0 n) ->
  is_first n (fun k => k = n \/ exists x, e k = Some x /\ x < tol) (tol_rank pw tol n s).
Proof.
  intros Ht Hn Hpos E. unfold tol_rank. rewrite E.
  assert (Et : tl (map e (seq 0 n)) = map e (seq 1 (n - 1))) by (destruct n; [lia|]; cbn [seq map tl]; rewrite Nat.sub_succ, Nat.sub_0_r; auto). rewrite Et.
  set (L := map (err_lt tol) (map e (seq 1 (n - 1)) ++ [Some 0])).
  assert (LL : length L = n) by (unfold L; rewrite map_length, app_length, map_length, seq_length; simpl; lia).
  assert (LN : forall j, (j < n)%nat -> nth j L false = true <-> (S j = n \/ exists x, e (S j) = Some x /\ x < tol)).
  { intros j Hj. unfold L. rewrite map_app. destruct (Nat.eq_dec (S j) n) as [Ej|Hne].
    - rewrite app_nth2 by (rewrite !map_length, seq_length; lia). rewrite !map_length, seq_length. replace (j - (n - 1))%nat with 0%nat by lia. cbn [map nth err_lt].
      destruct (Rlt_dec 0 tol); [|lra]. tauto.
    - rewrite app_nth1 by (rewrite !map_length, seq_length; lia). rewrite (nth_indep _ false (err_lt tol (e 0%nat))) by (rewrite !map_length, seq_length; lia).
      rewrite map_nth, map_nth, seq_nth by lia. cbn [plus]. unfold err_lt. destruct (e (S j)) as [x|].
      + destruct (Rlt_dec x tol).
        * split; auto. intros _. right. eauto.
        * split; [discriminate|]. intros [H|(y & Ey & Hy)]; [lia|]. injection Ey as <-. lra.
      + split; [discriminate|]. intros [H|(y & Ey & Hy)]; [lia|discriminate]. }
  destruct (first_true L) as [k|] eqn:EL.
  - apply first_true_some in EL. destruct EL as (K1 & K2 & K3). split; [lia|]. split.
    + rewrite Nat.add_1_r. apply LN; auto. lia.
    + intros j Hj HB. destruct j as [|j]; [lia|]. apply LN in HB; [|lia]. rewrite K3 in HB by lia. discriminate.
  - rewrite first_true_none in EL. specialize (EL (n - 1)%nat ltac:(lia)). assert (nth (n - 1) L false = true) by (apply LN; lia). congruence.
Qed.
Lemma tol_rank_p p tol s : 0 < p -> 0 < tol -> (0 < length s)%nat -> lsum s (fun x => rpow x p) <> 0 ->
  is_first (length s) (fun k => pnorm p (skipn k s) < tol * pnorm p s) (tol_rank (Pw p) tol (length s) s).
Proof.
  intros Hp Ht Hn Hne. pose proof (tol_rank_gen (Pw p) tol (length s) s _ Ht eq_refl Hn (sv_error_p p s Hne)) as (H1 & H2 & H3).
  assert (Hpos : 0 < pnorm p s) by (apply rpow_pos; pose proof (tsum_nonneg p s); lra).
  split; auto. split.
  - destruct H2 as [E|(x & Ex & Hx)].
    + rewrite E, skipn_all. unfold pnorm at 1. cbn. rewrite rpow_0. apply Rmult_lt_0_compat; auto.
    + injection Ex as <-. apply rel_err; auto.
  - intros j Hj HB. apply (H3 j Hj). right. eexists. split; [reflexivity|]. apply rel_err; auto.
Qed.
Lemma tol_rank_zero pw tol s : 0 < tol -> (0 < length s)%nat -> (match pw with Pw p => lsum s (fun x => rpow x p) | Pinf => maxnorm s end) = 0 -> tol_rank pw tol (length s) s = length s.
Proof.
  intros Ht Hn Hz. assert (E : sv_error pw s = map (fun _ => None) (seq 0 (length s))).
  { rewrite (sv_error_zero pw s Hz). generalize (length s) 0%nat. induction n; intros m; simpl; auto. f_equal. auto. }
  pose proof (tol_rank_gen pw tol (length s) s _ Ht eq_refl Hn E) as (H1 & [H2|(x & Ex & _)] & _); auto. discriminate.
Qed.
Lemma maxnorm_nonneg s : 0 <= maxnorm s.
Proof. unfold maxnorm. induction s; simpl; [lra|]. pose proof (Rmax_r a (fold_right Rmax 0 s)). lra. Qed.
Lemma tol_rank_inf tol s : 0 < tol -> (0 < length s)%nat -> maxnorm s <> 0 -> (forall c, (c < length s)%nat -> 0 <= nth c s 0) ->
  is_first (length s) (fun k => nth k s 0 < tol * maxnorm s) (tol_rank Pinf tol (length s) s).
Proof.
  intros Ht Hn Hne Hs. pose proof (maxnorm_nonneg s) as H0. assert (Hpos : 0 < maxnorm s) by lra.
  assert (E : sv_error Pinf s = map (fun k => Some (nth k s 0 / maxnorm s)) (seq 0 (length s))).
  { unfold sv_error. unfold maxnorm in *. destruct (Req_EM_T _ _); [contradiction|].
    generalize (fold_right Rmax 0 s). intros m. transitivity (map (fun x => Some (x / m)) (sel 0 s (seq 0 (length s)))); [rewrite sel_seq; auto|]. unfold sel. rewrite map_map. auto. }
  pose proof (tol_rank_gen Pinf tol (length s) s _ Ht eq_refl Hn E) as (H1 & H2 & H3).
  assert (HE : forall k, nth k s 0 / maxnorm s < tol <-> nth k s 0 < tol * maxnorm s).
  { intros k. split; intros H.
    - apply (Rmult_lt_compat_r (maxnorm s)) in H; auto. unfold Rdiv in H. rewrite Rmult_assoc, Rinv_l, Rmult_1_r in H by lra. auto.
    - apply (Rmult_lt_reg_r (maxnorm s)); auto. unfold Rdiv. rewrite Rmult_assoc, Rinv_l, Rmult_1_r by lra. auto. }
  split; auto. split.
  - destruct H2 as [E'|(x & Ex & Hx)].
    + rewrite E'. rewrite nth_overflow by lia. apply Rmult_lt_0_compat; auto.
    + injection Ex as <-. apply HE; auto.
  - intros j Hj HB. apply (H3 j Hj). right. eexists. split; [reflexivity|]. apply HE; auto.
Qed.
(** tolerance <= 0: everything is kept *)
Lemma tol_rank_notol pw tol n s : tol <= 0 -> (match pw with Pw _ => True | Pinf => forall x, In x s -> 0 <= x end) -> tol_rank pw tol n s = (n + 1)%nat.
Proof.
  intros Ht Hs. unfold tol_rank. destruct (first_true _) as [k|] eqn:E; auto. apply first_true_some in E. destruct E as (K1 & K2 & _). exfalso.
  rewrite map_length in K1. rewrite (nth_indep _ false (err_lt tol None)) in K2 by (rewrite map_length; auto). rewrite map_nth in K2.
  assert (Hin : In (nth k (tl (sv_error pw s) ++ [Some 0]) None) (tl (sv_error pw s) ++ [Some 0])) by (apply nth_In; auto).
  set (e := nth k _ None) in *. apply in_app_or in Hin.
  assert (HP : forall x, e = Some x -> 0 <= x).
  { intros x Ex. destruct Hin as [Hin|[Hin|[]]]; [|rewrite Ex in Hin; injection Hin as <-; lra].
    assert (Hin' : In e (sv_error pw s)) by (destruct (sv_error pw s); simpl in *; auto). clear Hin. rewrite Ex in Hin'.
    destruct pw as [p|]; unfold sv_error in Hin'; apply in_map_iff in Hin'; destruct Hin' as (y & Ey & Hy); destruct (Req_EM_T _ _); try discriminate; injection Ey as <-.
    - apply rpow_nonneg.
    - apply Rmult_le_pos; auto. apply Rlt_le, Rinv_0_lt_compat. pose proof (maxnorm_nonneg s). unfold maxnorm in *. lra. }
  unfold err_lt in K2. destruct e as [x|]; [|discriminate]. specialize (HP x eq_refl). destruct (Rlt_dec x tol); [lra|discriminate].
Qed.
