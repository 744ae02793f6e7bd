(** Proofs about the evaluation cache. *)
From Coq Require Import List Arith Bool ZArith Lia Sorted Permutation.
From Verif.Base Require Import ListAux CRing Index.
From Verif.Model Require Import Sorting MultiIndices Numpy FullTensor Functions.
From Verif.Spec Require Import FunctionSpec.
From Verif.Proofs Require Import NumpyP FunctionsP.
Import ListNotations.

Lemma valid_ones : forall m is, valid (repeat 1 m) is -> is = repeat 0 m.
Proof.
  induction m as [|m IH]; intros is H; simpl in *; inversion H; subst; auto. f_equal; [lia|auto].
Qed.
Lemma sub2indF_ones m : sub2indF (repeat 1 m) (repeat 0 m) = 0.
Proof. induction m as [|m IH]; simpl; auto. lia. Qed.
Lemma sub2indF_one_axis : forall a b n i, i < n -> sub2indF (repeat 1 a ++ n :: repeat 1 b) (repeat 0 a ++ i :: repeat 0 b) = i.
Proof.
  induction a as [|a IH]; intros b n i Hi; simpl.
  - rewrite sub2indF_ones; auto. lia.
  - rewrite IH by auto. lia.
Qed.
Lemma one_axis_cases os : length (filter (fun n => negb (n =? 1)) os) <= 1 ->
  (exists m, os = repeat 1 m) \/ exists a n b, os = repeat 1 a ++ n :: repeat 1 b.
Proof.
  induction os as [|n os IH]; simpl; intros H; [left; exists 0; auto|].
  destruct (Nat.eqb_spec n 1) as [->|Hn]; simpl in H.
  - destruct IH as [[m ->]|[a [n [b ->]]]]; auto; [left; exists (S m); auto|right; exists (S a), n, b; auto].
  - right. exists 0, n, (length os). simpl. f_equal.
    assert (F : filter (fun n => negb (n =? 1)) os = []) by (destruct (filter _ os); auto; simpl in H; lia).
    clear - F. induction os as [|m os IH]; simpl in *; auto. destruct (Nat.eqb_spec m 1); simpl in F; [subst; f_equal; auto|discriminate].
Qed.
Lemma C_eq_F os is : length (filter (fun n => negb (n =? 1)) os) <= 1 -> valid os is -> sub2indC os is = sub2indF os is.
Proof.
  assert (RR : forall (A:Type) (x:A) m, rev (repeat x m) = repeat x m).
  { intros A x m. induction m as [|m IH]; auto. simpl. rewrite IH.
    clear. induction m; simpl; auto. f_equal. auto. }
  intros H V. unfold sub2indC. destruct (one_axis_cases os H) as [[m ->]|[a [n [b ->]]]].
  - apply valid_ones in V. subst is. rewrite !RR. auto.
  - unfold valid in V. apply Forall2_app_inv_r in V. destruct V as [i1 [i2 [V1 [V2 ->]]]].
    inversion V2 as [|i n' i2' ? Hi V3]; subst. apply valid_ones in V1, V3. subst.
    rewrite !rev_app_distr. simpl. rewrite !RR, <- !app_assoc. simpl. rewrite !sub2indF_one_axis; auto.
Qed.
Section CacheP.
  Context {A B : Type} (eqA : forall a b : A, {a = b} + {a <> b}) (b0 : B).
  Lemma toF_id os (v : list B) : length (filter (fun n => negb (n =? 1)) os) <= 1 -> length v = prodn os -> toF b0 os v = v.
  Proof.
    intros H L. unfold toF. transitivity (map (fun k => nth k v b0) (seq 0 (prodn os))); [|rewrite <- L; apply map_seq_nth]. apply map_ext_in. intros k Hk. apply in_seq in Hk.
    rewrite C_eq_F by (auto; apply ind2subF_valid; lia). rewrite sub2indF_ind2subF; auto. lia.
  Qed.
  Lemma ofF_id os (v : list B) : length (filter (fun n => negb (n =? 1)) os) <= 1 -> length v = prodn os -> ofF b0 os v = v.
  Proof.
    intros H L. unfold ofF. transitivity (map (fun k => nth k v b0) (seq 0 (prodn os))); [|rewrite <- L; apply map_seq_nth]. apply map_ext_in. intros k Hk. apply in_seq in Hk.
    assert (V : valid os (ind2subC os k)) by (apply ind2subC_valid; lia).
    rewrite <- C_eq_F; auto. rewrite sub2indC_ind2subC; auto. lia.
  Qed.
  Lemma lookup_ok (f : list A -> list B) xs p : lookup eqA xs (map f xs) p = if in_dec (list_eq_dec eqA) p xs then Some (f p) else None.
  Proof.
    unfold lookup.
    assert (G : forall xs acc, fold_left (fun acc q => if peq eqA p (fst q) then Some (snd q) else acc) (combine xs (map f xs)) acc =
              if in_dec (list_eq_dec eqA) p xs then Some (f p) else acc).
    { clear. induction xs as [|x xs IH]; intros acc; simpl; auto. rewrite IH. unfold peq.
      destruct (list_eq_dec eqA p x) as [E|E]; destruct (list_eq_dec eqA x p) as [E'|E']; try congruence;
      destruct (in_dec (list_eq_dec eqA) p xs); congruence. }
    apply G.
  Qed.
  Lemma map_filter_seq {C} (d : C) (q : C -> bool) l : map (fun i => nth i l d) (filter (fun i => q (nth i l d)) (seq 0 (length l))) = filter q l.
  Proof.
    assert (G : forall (h : nat -> bool) (m : list nat), map (fun i => nth i l d) (filter (fun i => q (nth i l d)) m) = filter q (map (fun i => nth i l d) m)).
    { intros _ m. induction m as [|i m IH]; simpl; auto. destruct (q (nth i l d)); simpl; rewrite IH; auto. }
    rewrite G by (intros; exact true). rewrite map_seq_nth. auto.
  Qed.
  Definition newp (R : list (list A)) (p : list A) : bool := if in_dec (list_eq_dec eqA) p R then false else true.
  Definition cinv (f : list A -> list B) (st : cache) (R : list (list A)) : Prop :=
    (forall p, In p (c_x st) <-> In p R) /\ c_y st = map f (c_x st) /\ (c_store st = true \/ c_x st = []).
  Lemma store_eval_ok os (f : list A -> list B) d st R x :
    length (filter (fun n => negb (n =? 1)) os) <= 1 -> 0 < prodn os -> 0 < d ->
    (forall p, length p = d -> length (f p) = prodn os) ->
    cinv f st R -> Forall (fun p => length p = d) R -> Forall (fun p => length p = d) x ->
    exists st', store_eval eqA b0 os (row_eval f) st x = (map f x, st', filter (newp R) x) /\ cinv f st' (R ++ x).
  Proof.
    intros Ho Hp Hd Hf [I1 [I2 I3]] HR Hx. unfold store_eval, row_eval.
    assert (HXd : forall p, In p (c_x st) -> length p = d) by (intros p H; apply I1 in H; rewrite Forall_forall in HR; auto).
    assert (EZ : length (concat (c_y st)) = 0 <-> c_x st = []).
    { rewrite I2. destruct (c_x st) as [|p l]; simpl; [tauto|]. rewrite app_length, Hf by (apply HXd; simpl; auto). split; [lia|discriminate]. }
    destruct (c_store st && negb (length (concat (c_y st)) =? 0)) eqn:Ec.
    - apply andb_true_iff in Ec. destruct Ec as [Es Ec]. apply negb_true_iff, Nat.eqb_neq in Ec.
      assert (LK : forall i, i < length x -> nth i (map (lookup eqA (c_x st) (c_y st)) x) None = if newp R (nth i x []) then None else Some (f (nth i x []))).
      { intros i Hi. rewrite (map_nth_in _ _ _ []) by auto. rewrite I2, lookup_ok. unfold newp.
        destruct (in_dec _ (nth i x []) (c_x st)) as [H|H], (in_dec _ (nth i x []) R) as [H'|H']; auto; apply I1 in H || (exfalso; apply H; apply I1); auto; contradiction. }
      set (new := filter _ (seq 0 (length x))).
      assert (En : new = filter (fun i => newp R (nth i x [])) (seq 0 (length x))).
      { apply filter_ext_in. intros i Hi. apply in_seq in Hi. rewrite LK by lia. destruct (newp R (nth i x [])); auto. }
      assert (Ex : map (fun i => nth i x []) new = filter (newp R) x) by (rewrite En; apply map_filter_seq).
      rewrite Ex.
      assert (Hxn : forall p, In p (filter (newp R) x) -> length p = d) by (intros p H; apply filter_In in H; rewrite Forall_forall in Hx; apply Hx, H).
      destruct (Nat.eqb_spec (length (concat (filter (newp R) x))) 0) as [E0|E0].
      + assert (EN : filter (newp R) x = []).
        { destruct (filter (newp R) x) as [|p l]; auto. simpl in E0. rewrite app_length, (Hxn p) in E0 by (simpl; auto). lia. }
        assert (HN : forall p, In p x -> newp R p = false).
        { intros p Hpx. destruct (newp R p) eqn:E; auto. assert (In p (filter (newp R) x)) by (apply filter_In; auto). rewrite EN in H. destruct H. }
        rewrite EN. exists st. split.
        * f_equal. f_equal. transitivity (map f (map (fun i => nth i x []) (seq 0 (length x)))); [|rewrite map_seq_nth; auto]. rewrite map_map. apply map_ext_in. intros i Hi. apply in_seq in Hi.
          rewrite LK by lia. rewrite HN by (apply nth_In; lia). apply ofF_id; auto. apply Hf. rewrite Forall_forall in Hx. apply Hx, nth_In. lia.
        * split; [|split; auto]. intros p. rewrite in_app_iff, <- I1. split; auto. intros [|Hpx]; auto. apply I1.
          specialize (HN p Hpx). unfold newp in HN. destruct (in_dec _ p R); auto. discriminate.
      + eexists; split; [f_equal; f_equal|].
        * transitivity (map f (map (fun i => nth i x []) (seq 0 (length x)))); [|rewrite map_seq_nth; auto]. rewrite !map_map. apply map_ext_in. intros i Hi. apply in_seq in Hi.
          rewrite LK by lia. assert (HD : length (nth i x []) = d) by (rewrite Forall_forall in Hx; apply Hx, nth_In; lia).
          destruct (newp R (nth i x [])) eqn:Eq; [|apply ofF_id; auto].
          assert (Hin : In i new) by (rewrite En; apply filter_In; split; auto; apply in_seq; lia).
          rewrite <- Ex, map_map.
          assert (HI : index_of i new < length new /\ nth (index_of i new) new 0 = i).
          { clear - Hin. induction new as [|j l IH]; [destruct Hin|]. simpl. destruct (Nat.eqb_spec j i) as [->|Hne]; simpl; [split; auto; lia|].
            destruct Hin as [Hin|Hin]; [congruence|]. destruct (IH Hin). split; [lia|auto]. }
          rewrite (map_nth_in _ new _ 0) by apply HI. rewrite (proj2 HI). apply ofF_id; auto.
        * split; [|split]; simpl; auto.
          -- intros p. rewrite !in_app_iff, filter_In, I1. unfold newp. destruct (in_dec _ p R); intuition congruence.
          -- rewrite map_app, I2. auto.
    - eexists; split; [f_equal; f_equal|].
      + symmetry. apply filter_true. intros p Hpx. unfold newp. destruct (in_dec _ p R) as [H|]; auto. exfalso.
        apply I1 in H. apply andb_false_iff in Ec. destruct Ec as [Ec|Ec].
        * destruct I3 as [E|E]; [congruence|]. rewrite E in H. destruct H.
        * apply negb_false_iff, Nat.eqb_eq, EZ in Ec. rewrite Ec in H. destruct H.
      + assert (EX : c_x st = []).
        { apply andb_false_iff in Ec. destruct Ec as [Ec|Ec]; [destruct I3; congruence|]. apply negb_false_iff, Nat.eqb_eq, EZ in Ec. auto. }
        split; [|split]; simpl; auto.
        * intros p. rewrite in_app_iff, <- I1, EX. simpl. tauto.
        * rewrite map_map. apply map_ext_in. intros p Hpx. apply toF_id; auto. apply Hf. rewrite Forall_forall in Hx. auto.
  Qed.
  Theorem run_calls_ok os (f : list A -> list B) d calls :
    length (filter (fun n => negb (n =? 1)) os) <= 1 -> 0 < prodn os -> 0 < d ->
    (forall p, length p = d -> length (f p) = prodn os) -> Forall (Forall (fun p => length p = d)) calls ->
    forall store, 
    length (run_calls eqA b0 os (row_eval f) (Cache store [] []) calls) = length calls /\
    forall k, k < length calls -> nth k (run_calls eqA b0 os (row_eval f) (Cache store [] []) calls) ([], []) =
      (map f (nth k calls []), filter (fun p => if in_dec (list_eq_dec eqA) p (concat (firstn k calls)) then false else true) (nth k calls [])).
  Proof.
    intros Ho Hp Hd Hf HC store.
    assert (G : forall calls st R, Forall (Forall (fun p => length p = d)) calls -> Forall (fun p => length p = d) R -> cinv f st R ->
      length (run_calls eqA b0 os (row_eval f) st calls) = length calls /\
      forall k, k < length calls -> nth k (run_calls eqA b0 os (row_eval f) st calls) ([], []) =
        (map f (nth k calls []), filter (newp (R ++ concat (firstn k calls))) (nth k calls []))).
    { clear calls HC. induction calls as [|x calls IH]; intros st R HC HR HI; simpl; [split; auto; intros; lia|].
      inversion HC as [|? ? Hx HC']; subst.
      destruct (store_eval_ok os f d st R x Ho Hp Hd Hf HI HR Hx) as [st' [E I']]. rewrite E. simpl.
      destruct (IH st' (R ++ x) HC') as [L N]; auto; [apply Forall_app; auto|].
      split; [rewrite L; auto|]. intros [|k] Hk; simpl; [rewrite app_nil_r; auto|]. rewrite N by lia. rewrite app_assoc. auto. }
    destruct (G calls (Cache store [] []) [] HC) as [L N]; auto.
    split; [|split]; simpl; auto. tauto.
  Qed.
End CacheP.
