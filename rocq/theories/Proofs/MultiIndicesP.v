From Coq Require Import List Arith ZArith Lia Bool Permutation Sorted.
From Verif.Base Require Import ListAux Index.
From Verif.Model Require Import Sorting MultiIndices.
From Verif.Spec Require Export MultiIndicesSpec.
From Verif.Proofs Require Import SortingP.
Import ListNotations.

Lemma row_eqb_spec a b : row_eqb a b = true <-> a = b.
Proof.
  revert b; induction a as [|x a IH]; intros [|y b]; simpl; split; intros H; try discriminate; auto.
  - apply andb_true_iff in H; destruct H as [H1 H2]. apply Z.eqb_eq in H1. apply IH in H2. congruence.
  - inversion H; subst. rewrite Z.eqb_refl. apply IH; auto.
Qed.

Lemma row_leb_spec a b : row_leb a b = true <-> Forall2 Z.le a b.
Proof.
  revert b; induction a as [|x a IH]; intros [|y b]; simpl; split; intros H; try discriminate; auto;
    try (inversion H; fail).
  - apply andb_true_iff in H; destruct H as [H1 H2]. constructor; [lia|apply IH; auto].
  - inversion H; subst. apply andb_true_iff; split; [lia|apply IH; auto].
Qed.

Lemma rmem_spec r l : rmem r l = true <-> In r l.
Proof. apply memb_spec, row_eqb_spec. Qed.
Lemma rmem_false r l : rmem r l = false <-> ~ In r l.
Proof. apply memb_false, row_eqb_spec. Qed.
Lemma negb_rmem r l : negb (rmem r l) = true <-> ~ In r l.
Proof. rewrite negb_true_iff. apply rmem_false. Qed.
Lemma rdedup_in l x : In x (dedup row_eqb l) <-> In x l.
Proof. apply dedup_in, row_eqb_spec. Qed.
Lemma rdedup_NoDup l : NoDup (dedup row_eqb l).
Proof. apply dedup_NoDup, row_eqb_spec. Qed.


Lemma mi_of_rows_rows d rows : rows <> [] -> mi_of_rows d rows = MI d rows.
Proof. destruct rows; simpl; congruence. Qed.

(** * product sets *)
Lemma in_arangeZ a b x : In x (arangeZ a b) <-> (a <= x < b)%Z.
Proof.
  unfold arangeZ. rewrite in_map_iff. split.
  - intros [k [<- Hk]]. apply in_seq in Hk. lia.
  - intros H. exists (Z.to_nat (x - a)). split; [lia|]. apply in_seq. lia.
Qed.
Lemma arangeZ_NoDup a b : NoDup (arangeZ a b).
Proof. apply NoDup_map_inj; [intros; lia|apply seq_NoDup]. Qed.
Lemma arangeZ_length a b : length (arangeZ a b) = Z.to_nat (b - a).
Proof. unfold arangeZ. rewrite map_length, seq_length; auto. Qed.
Lemma nth_arangeZ a b k : k < Z.to_nat (b - a) -> nth k (arangeZ a b) 0%Z = (a + Z.of_nat k)%Z.
Proof. intros H. unfold arangeZ. rewrite nth_map_seq; auto. Qed.

(** the row number [k] of the product *)
Definition prod_row (Ls : list (list row)) (is : list nat) : row :=
  concat (map (fun p => nth (snd p) (fst p) []) (combine Ls is)).

Definition prod_rows (Ls : list (list row)) : list row :=
  map (fun k => prod_row Ls (ind2subF (map (@length row) Ls) k)) (seq 0 (prodn (map (@length row) Ls))).

Lemma prod_rows_box Ls : prod_rows Ls = map (prod_row Ls) (boxF (map (@length row) Ls)).
Proof. unfold prod_rows. rewrite boxF_ind2sub, map_map; auto. Qed.

Lemma product_set_eq L :
  product_set L None =
  if prodn (map (fun f => length (factor_rows f)) L) =? 0 then None
  else Some (MI (sumn (map factor_dim L)) (prod_rows (map factor_rows L))).
Proof.
  assert (E : (match L with [l] => if 1 <? length L then repeat l (length L) else L | _ => L end) = L).
  { destruct L as [|l [|]]; auto. }
  unfold product_set. rewrite E.
  assert (E2 : map (fun f => length (factor_rows f)) L = map (@length row) (map factor_rows L)).
  { rewrite map_map; auto. }
  rewrite E2. destruct (_ =? 0); auto. do 2 f_equal.
  unfold prod_rows. apply map_ext. intros k. unfold prod_row. f_equal.
  rewrite combine_map_l, !map_map. reflexivity.
Qed.

Lemma in_prod_rows Ls r :
  In r (prod_rows Ls) <-> exists rs, Forall2 (fun x l => In x l) rs Ls /\ r = concat rs.
Proof.
  rewrite prod_rows_box. rewrite in_map_iff. split.
  - intros [is [<- H]]. apply in_boxF in H.
    exists (map (fun p => nth (snd p) (fst p) []) (combine Ls is)). split; auto.
    revert is H. induction Ls as [|l Ls IH]; intros is H; inversion H; subst; simpl; constructor.
    + apply nth_In; auto.
    + apply IH; auto.
  - intros [rs [H ->]]. 
    assert (exists is, valid (map (@length row) Ls) is /\ map (fun p => nth (snd p) (fst p) []) (combine Ls is) = rs) as [is [H1 H2]].
    { induction H as [|x l rs Ls Hx H IH].
      - exists []; split; [constructor|auto].
      - destruct IH as [is [H1 H2]]. apply (In_nth _ _ []) in Hx. destruct Hx as [n [Hn <-]].
        exists (n :: is). split; [constructor; auto|]. simpl. f_equal; exact H2. }
    exists is. split; [unfold prod_row; f_equal; exact H2|apply in_boxF; auto].
Qed.

(** uniqueness of decomposition when the factors have fixed widths *)
Lemma concat_inj_lengths (rs ss : list row) :
  Forall2 (fun r s => length r = length s) rs ss -> concat rs = concat ss -> rs = ss.
Proof.
  induction 1 as [|r s rs ss Hl H IH]; simpl; intros E; auto.
  assert (firstn (length r) (r ++ concat rs) = firstn (length s) (s ++ concat ss)) as E1 by congruence.
  rewrite !firstn_app, !Nat.sub_diag, !firstn_all in E1. simpl in E1. rewrite !app_nil_r in E1. subst s.
  f_equal. apply IH. eapply app_inv_head; eauto.
Qed.

Lemma prod_rows_NoDup Ls ds :
  Forall2 (fun l d => NoDup l /\ Forall (fun r => length r = d) l) Ls ds -> NoDup (prod_rows Ls).
Proof.
  intros H. rewrite prod_rows_box. apply NoDup_map_inj; [|apply NoDup_boxF].
  intros is js Hi Hj E. apply in_boxF in Hi, Hj. unfold prod_row in E.
  apply concat_inj_lengths in E.
  - revert is js Hi Hj E. induction H as [|l d Ls ds [Hn Hf] H IH]; intros is js Hi Hj E;
      inversion Hi; inversion Hj; subst; auto.
    simpl in E. inversion E. f_equal; [|apply IH; auto].
    match goal with E1 : nth _ l [] = nth _ l [] |- _ => apply (proj1 (NoDup_nth l []) Hn) in E1; auto end.
  - clear E. revert is js Hi Hj. induction H as [|l d Ls ds [Hn Hf] H IH]; intros is js Hi Hj;
      inversion Hi; inversion Hj; subst; simpl; constructor.
    + rewrite Forall_nth in Hf. rewrite !Hf; auto.
    + apply IH; auto.
Qed.

Lemma bounded_by_eq (m : list Z) (m0 : Z) :
  bounded_by m m0 =
  if forallb (fun x => (m0 <=? x)%Z) m
  then Some (MI (length m) (map (fun is => map (fun i => (m0 + Z.of_nat i)%Z) is)
                               (boxF (map (fun x => Z.to_nat (x + 1 - m0)) m))))
  else None.
Proof.
  unfold bounded_by. rewrite product_set_eq.
  set (L := map (fun x => Vec (arangeZ m0 (x + 1))) m).
  assert (E1 : map (fun f => length (factor_rows f)) L = map (fun x => Z.to_nat (x + 1 - m0)) m).
  { unfold L. rewrite map_map. apply map_ext. intros x. simpl. rewrite map_length, arangeZ_length; auto. }
  rewrite E1.
  assert (E2 : sumn (map factor_dim L) = length m).
  { unfold L. rewrite map_map. simpl. clear. induction m; simpl; auto. }
  rewrite E2.
  destruct (forallb (fun x => (m0 <=? x)%Z) m) eqn:F.
  - assert (P : prodn (map (fun x => Z.to_nat (x + 1 - m0)) m) <> 0).
    { intros H. apply prodn_zero in H. apply in_map_iff in H. destruct H as [x [Hx Hi]].
      rewrite forallb_forall in F. apply F in Hi. lia. }
    apply Nat.eqb_neq in P. rewrite P. do 2 f_equal.
    rewrite prod_rows_box, <- E1. unfold L. rewrite !map_map.
    assert (E3 : map (fun x => length (factor_rows (Vec (arangeZ m0 (x + 1))))) m = map (fun x => Z.to_nat (x + 1 - m0)) m).
    { apply map_ext. intros x. simpl. rewrite map_length, arangeZ_length; auto. }
    rewrite E3. apply map_ext_in. intros is Hi. apply in_boxF in Hi. clear - Hi.
    revert is Hi. induction m as [|x m IH]; intros is Hi; inversion Hi; subst; auto.
    unfold prod_row in *. simpl. rewrite IH by auto.
    rewrite map_nth_in with (da := 0%Z) by (rewrite arangeZ_length; auto).
    rewrite nth_arangeZ by auto. reflexivity.
  - assert (P : prodn (map (fun x => Z.to_nat (x + 1 - m0)) m) = 0).
    { apply prodn_zero. apply in_map_iff.
      assert (exists x, In x m /\ (m0 <=? x)%Z = false) as [x [Hx Hi]].
      { clear - F. induction m as [|x m IH]; simpl in F; [discriminate|].
        destruct (m0 <=? x)%Z eqn:E; [destruct (IH F) as [y [? ?]]; exists y; simpl; auto|exists x; simpl; auto]. }
      exists x. split; [lia|auto]. }
    apply Nat.eqb_eq in P. rewrite P. auto.
Qed.


Lemma bounded_by_spec m m0 I :
  bounded_by m m0 = Some I ->
  mi_dim I = length m /\ NoDup (mi_rows I) /\ (forall r, In r (mi_rows I) <-> in_box m0 m r).
Proof.
  rewrite bounded_by_eq. destruct (forallb _ m) eqn:F; [|discriminate]. intros H; inversion H; subst; clear H. simpl.
  split; auto. split.
  - apply NoDup_map_inj; [|apply NoDup_boxF]. intros is js _ _ E.
    revert js E. induction is as [|i is IH]; intros [|j js] E; simpl in E; inversion E; auto.
    f_equal; [lia|auto].
  - intros r. rewrite in_map_iff. split.
    + intros [is [<- Hi]]. apply in_boxF in Hi. clear F. revert is Hi. unfold in_box.
      induction m as [|x m IH]; intros is Hi; inversion Hi; subst; simpl; constructor; [lia|]. apply IH; auto.
    + intros H. exists (map (fun x => Z.to_nat (x - m0)) r). rewrite in_boxF.
      clear F. induction H as [|x b r m Hx H IH]; simpl; [split; [auto|constructor]|].
      destruct IH as [E V]. split; [rewrite E; f_equal; lia|constructor; [lia|auto]].
Qed.

Lemma bounded_by_some m m0 : (exists I, bounded_by m m0 = Some I) <-> Forall (fun x => (m0 <= x)%Z) m.
Proof.
  rewrite bounded_by_eq. rewrite Forall_forall. destruct (forallb _ m) eqn:F.
  - rewrite forallb_forall in F. split; eauto. intros _ x Hx. apply F in Hx. lia.
  - split; [intros [I H]; discriminate|]. intros H.
    assert (forallb (fun x => (m0 <=? x)%Z) m = true); [|congruence].
    apply forallb_forall. intros x Hx. apply H in Hx. lia.
Qed.

(** * set operations *)
Lemma add_indices_rows I J r : mi_rows I <> [] ->
  (In r (mi_rows (add_indices I J)) <-> In r (mi_rows I) \/ In r (mi_rows J)).
Proof.
  intros H. unfold add_indices. rewrite mi_of_rows_rows.
  - simpl. rewrite rdedup_in, in_app_iff. tauto.
  - intros E. destruct (mi_rows I) as [|x l] eqn:Ex; auto.
    assert (In x (dedup row_eqb ((x :: l) ++ mi_rows J))) by (apply rdedup_in; simpl; auto).
    rewrite E in *. contradiction.
Qed.

Lemma add_indices_NoDup I J : NoDup (mi_rows (add_indices I J)).
Proof.
  unfold add_indices, mi_of_rows. pose proof (rdedup_NoDup (mi_rows I ++ mi_rows J)) as H.
  destruct (dedup _ _); auto. simpl. constructor; [simpl; tauto|constructor].
Qed.

Lemma dedup_nonempty l : l <> [] -> dedup row_eqb l <> [].
Proof.
  intros H E. destruct l as [|x l]; auto.
  assert (In x (dedup row_eqb (x :: l))) by (apply rdedup_in; simpl; auto). rewrite E in *; contradiction.
Qed.

Lemma add_indices_dim I J : mi_rows I <> [] -> mi_dim (add_indices I J) = mi_dim I.
Proof.
  intros H. unfold add_indices. rewrite mi_of_rows_rows; auto.
  apply dedup_nonempty. destruct (mi_rows I); simpl; congruence.
Qed.

Lemma add_indices_nonempty I J : mi_rows (add_indices I J) <> [].
Proof. unfold add_indices, mi_of_rows. destruct (dedup _ _); simpl; congruence. Qed.

Lemma eq_pairs_in I J i j :
  In (j, i) (eq_pairs I J) <->
  j < length (mi_rows J) /\ i < length (mi_rows I) /\ nth i (mi_rows I) [] = nth j (mi_rows J) [].
Proof.
  unfold eq_pairs. rewrite in_concat. split.
  - intros [l [Hl Hi]]. apply in_map_iff in Hl. destruct Hl as [j' [<- Hj]].
    apply in_map_iff in Hi. destruct Hi as [i' [E Hi]]. inversion E; subst.
    apply filter_In in Hi. destruct Hi as [Hi He]. apply row_eqb_spec in He.
    apply in_seq in Hi, Hj. repeat split; auto; lia.
  - intros [Hj [Hi He]].
    exists (map (fun i => (j, i)) (filter (fun i => row_eqb (nth i (mi_rows I) []) (nth j (mi_rows J) [])) (seq 0 (length (mi_rows I))))).
    split.
    + apply in_map_iff. exists j; split; auto. apply in_seq; lia.
    + apply in_map. apply filter_In; split; [apply in_seq; lia|]. apply row_eqb_spec; auto.
Qed.

Lemma intersect_rows I J r :
  In r (mi_rows (fst (fst (intersect_indices I J)))) <-> In r (mi_rows I) /\ In r (mi_rows J).
Proof.
  simpl. unfold sel. rewrite map_map, in_map_iff. split.
  - intros [[j i] [E H]]. simpl in E. apply eq_pairs_in in H. destruct H as [Hj [Hi He]].
    split; subst; [apply nth_In; auto|rewrite He; apply nth_In; auto].
  - intros [HI HJ]. apply (In_nth _ _ []) in HI, HJ. destruct HI as [i [Hi Ei]], HJ as [j [Hj Ej]].
    exists (j, i). split; auto. apply eq_pairs_in. repeat split; auto; congruence.
Qed.

Lemma intersect_NoDup I J : NoDup (mi_rows I) -> NoDup (mi_rows J) ->
  NoDup (mi_rows (fst (fst (intersect_indices I J)))).
Proof.
  intros HI HJ. simpl. unfold sel. rewrite map_map.
  apply NoDup_map_inj.
  - intros [j i] [j' i'] H1 H2 E. simpl in E. apply eq_pairs_in in H1, H2.
    destruct H1 as [Hj [Hi He]], H2 as [Hj' [Hi' He']].
    f_equal.
    + apply (proj1 (NoDup_nth _ []) HJ); auto. congruence.
    + apply (proj1 (NoDup_nth _ []) HI); auto.
  - unfold eq_pairs. generalize (seq_NoDup (length (mi_rows J)) 0). generalize (seq 0 (length (mi_rows J))). intros l Hl.
    induction Hl as [|j l Hj Hl IH]; simpl; [constructor|]. apply NoDup_app; auto.
    + apply NoDup_map_inj; [intros; congruence|]. apply NoDup_filter, seq_NoDup.
    + intros [a b] H1 H2. apply in_map_iff in H1. destruct H1 as [i [E _]]. inversion E; subst.
      apply in_concat in H2. destruct H2 as [x [Hx H2]]. apply in_map_iff in Hx. destruct Hx as [j' [<- Hj']].
      apply in_map_iff in H2. destruct H2 as [i' [E' _]]. inversion E'; subst. auto.
Qed.

Lemma remove_indices_rows I J r :
  In r (mi_rows (remove_indices I J)) <-> In r (mi_rows I) /\ ~ In r (mi_rows J).
Proof. simpl. rewrite filter_In, negb_rmem. tauto. Qed.

Lemma nmem_spec k l : nmem k l = true <-> In k l.
Proof.
  unfold nmem. rewrite existsb_exists. split.
  - intros [x [Hx E]]. apply Nat.eqb_eq in E; subst; auto.
  - intros H; exists k; split; auto. apply Nat.eqb_refl.
Qed.
Lemma negb_nmem k l : negb (nmem k l) = true <-> ~ In k l.
Proof. rewrite negb_true_iff, <- nmem_spec. destruct (nmem k l); split; congruence. Qed.

(** * neighbours and margins *)
Lemma bump_length k c r : length (bump k c r) = length r.
Proof. apply upd_length. Qed.
Lemma nth_bump k c r n : k < length r ->
  nth n (bump k c r) 0%Z = (nth n r 0 + if (n =? k)%nat then c else 0)%Z.
Proof.
  intros H. unfold bump. rewrite nth_upd. destruct (Nat.eqb_spec n k) as [->|E]; simpl.
  - destruct (Nat.ltb_spec k (length r)); lia.
  - lia.
Qed.
Lemma bump_bump k c e r : k < length r -> bump k e (bump k c r) = bump k (c + e) r.
Proof.
  intros H. apply nth_ext' with (d := 0%Z); rewrite !bump_length; auto. intros n Hn.
  rewrite !nth_bump; rewrite ?bump_length; auto. destruct (n =? k); lia.
Qed.
Lemma bump_0 k r : bump k 0 r = r.
Proof. unfold bump. rewrite Z.add_0_r. apply upd_same. Qed.

Lemma in_neighbours I c r :
  In r (neighbours I c) <-> exists k s, k < mi_dim I /\ In s (mi_rows I) /\ r = bump k c s.
Proof.
  unfold neighbours. rewrite in_concat. split.
  - intros [l [Hl Hr]]. apply in_map_iff in Hl. destruct Hl as [k [<- Hk]]. apply in_seq in Hk.
    apply in_map_iff in Hr. destruct Hr as [s [<- Hs]]. exists k, s; repeat split; auto; lia.
  - intros [k [s [Hk [Hs ->]]]]. exists (map (bump k c) (mi_rows I)). split.
    + apply in_map_iff. exists k; split; auto. apply in_seq; lia.
    + apply in_map; auto.
Qed.

(** backward-neighbour formulation, for sets whose rows have [mi_dim] entries *)
Lemma margin_raw I r : mi_wf I ->
  ((In r (neighbours I 1) /\ ~ In r (mi_rows I)) <->
   (length r = mi_dim I /\ ~ In r (mi_rows I) /\ exists k, k < mi_dim I /\ In (bump k (-1) r) (mi_rows I))).
Proof.
  intros Hw. unfold mi_wf in Hw. rewrite Forall_forall in Hw. rewrite in_neighbours. split.
  - intros [[k [s [Hk [Hs ->]]]] Hn]. rewrite bump_length. rewrite (Hw s Hs). repeat split; auto.
    exists k; split; auto. rewrite bump_bump by (rewrite (Hw s Hs); auto). simpl. rewrite bump_0; auto.
  - intros [Hl [Hn [k [Hk Hb]]]]. split; auto. exists k, (bump k (-1) r). repeat split; auto.
    rewrite bump_bump by lia. simpl. rewrite bump_0; auto.
Qed.

Definition margin_rows (I : mi) : list row :=
  dedup row_eqb (filter (fun r => negb (rmem r (mi_rows I))) (neighbours I 1)).

Lemma in_margin_rows I r : mi_wf I ->
  (In r (margin_rows I) <->
   (length r = mi_dim I /\ ~ In r (mi_rows I) /\ exists k, k < mi_dim I /\ In (bump k (-1) r) (mi_rows I))).
Proof.
  intros Hw. unfold margin_rows. rewrite rdedup_in, filter_In, negb_rmem, margin_raw; auto. tauto.
Qed.

(** a nonempty finite set with at least one column has a nonempty margin *)
Lemma max_entry (k : nat) (l : list row) : l <> [] -> exists r, In r l /\ forall s, In s l -> (nth k s 0 <= nth k r 0)%Z.
Proof.
  induction l as [|a l IH]; [congruence|]. intros _. destruct l as [|b l].
  - exists a; split; [left; auto|]. intros s [<-|[]]; lia.
  - destruct IH as [r [Hr H]]; [congruence|].
    destruct (Z.le_gt_cases (nth k a 0%Z) (nth k r 0%Z)).
    + exists r; split; [right; auto|]. intros s [<-|Hs]; auto.
    + exists a; split; [left; auto|]. intros s [<-|Hs]; [lia|]. apply H in Hs; lia.
Qed.

Lemma margin_rows_nonempty I : mi_wf I -> 0 < mi_dim I -> mi_rows I <> [] -> margin_rows I <> [].
Proof.
  intros Hw Hd Hn E. destruct (max_entry 0 (mi_rows I) Hn) as [r [Hr Hm]].
  unfold mi_wf in Hw. pose proof Hw as Hw'. rewrite Forall_forall in Hw'. pose proof (Hw' r Hr) as Hl.
  assert (In (bump 0 1 r) (margin_rows I)) as H; [|rewrite E in H; contradiction].
  apply in_margin_rows; auto. rewrite bump_length. repeat split; auto.
  - intros Hc. apply Hm in Hc. rewrite nth_bump in Hc by lia. simpl in Hc. lia.
  - exists 0; split; auto. rewrite bump_bump by lia. simpl. rewrite bump_0; auto.
Qed.

Lemma get_margin_eq I : mi_wf I -> 0 < mi_dim I -> mi_rows I <> [] -> get_margin I = MI (mi_dim I) (margin_rows I).
Proof. intros. unfold get_margin. fold (margin_rows I). apply mi_of_rows_rows, margin_rows_nonempty; auto. Qed.

Lemma get_margin_rows I r : mi_wf I -> 0 < mi_dim I -> mi_rows I <> [] ->
  (In r (mi_rows (get_margin I)) <->
   (length r = mi_dim I /\ ~ In r (mi_rows I) /\ exists k, k < mi_dim I /\ In (bump k (-1) r) (mi_rows I))).
Proof. intros Hw Hd Hn. rewrite get_margin_eq by auto. simpl. apply in_margin_rows; auto. Qed.

Lemma get_margin_NoDup I : mi_wf I -> 0 < mi_dim I -> mi_rows I <> [] -> NoDup (mi_rows (get_margin I)).
Proof. intros. rewrite get_margin_eq by auto. apply rdedup_NoDup. Qed.


Lemma existsb_neg_false r : existsb (fun x => (x <? 0)%Z) r = false <-> nonneg r.
Proof.
  unfold nonneg. rewrite Forall_forall. split.
  - intros H x Hx. destruct (Z.ltb_spec x 0); auto.
    assert (existsb (fun x => (x <? 0)%Z) r = true); [|congruence].
    apply existsb_exists. exists x; split; auto. lia.
  - intros H. destruct (existsb _ r) eqn:E; auto. apply existsb_exists in E. destruct E as [x [Hx E]].
    apply H in Hx. lia.
Qed.

Lemma get_reduced_margin_rows I r : mi_wf I -> 0 < mi_dim I -> mi_rows I <> [] ->
  (In r (mi_rows (get_reduced_margin I)) <->
   (length r = mi_dim I /\ ~ In r (mi_rows I) /\
    (exists k, k < mi_dim I /\ In (bump k (-1) r) (mi_rows I)) /\
    forall k, k < mi_dim I -> nonneg (bump k (-1) r) -> In (bump k (-1) r) (mi_rows I))).
Proof.
  intros Hw Hd Hn. unfold get_reduced_margin. simpl. rewrite filter_In, get_margin_rows by auto.
  rewrite forallb_forall. 
  assert ((forall x, In x (seq 0 (mi_dim I)) ->
     rmem (bump x (-1) r) (mi_rows I) || existsb (fun x0 => (x0 <? 0)%Z) (bump x (-1) r) = true) <->
     (forall k, k < mi_dim I -> nonneg (bump k (-1) r) -> In (bump k (-1) r) (mi_rows I))) as ->.
  { split; intros H k Hk.
    - intros Hnn. assert (In k (seq 0 (mi_dim I))) as Hin by (apply in_seq; lia). apply H in Hin.
      apply existsb_neg_false in Hnn. rewrite Hnn, orb_false_r in Hin. apply rmem_spec; auto.
    - apply in_seq in Hk. destruct (existsb _ _) eqn:E; [apply orb_true_r|].
      rewrite orb_false_r. apply rmem_spec, H; [lia|]. apply existsb_neg_false; auto. }
  tauto.
Qed.

Lemma get_reduced_margin_dim I : mi_wf I -> 0 < mi_dim I -> mi_rows I <> [] -> mi_dim (get_reduced_margin I) = mi_dim I.
Proof. intros. unfold get_reduced_margin. simpl. rewrite get_margin_eq; auto. Qed.

Lemma get_reduced_margin_NoDup I : mi_wf I -> 0 < mi_dim I -> mi_rows I <> [] -> NoDup (mi_rows (get_reduced_margin I)).
Proof. intros. unfold get_reduced_margin. simpl. apply NoDup_filter, get_margin_NoDup; auto. Qed.

Lemma get_maximal_rows I r :
  In r (mi_rows (get_maximal_indices I)) <->
  In r (mi_rows I) /\ forall k, k < mi_dim I -> ~ In (bump k 1 r) (mi_rows I).
Proof.
  simpl. rewrite filter_In, negb_true_iff. apply and_iff_compat_l. split.
  - intros H k Hk Hin. 
    assert (existsb (fun k => rmem (bump k 1 r) (mi_rows I)) (seq 0 (mi_dim I)) = true); [|congruence].
    apply existsb_exists. exists k; split; [apply in_seq; lia|apply rmem_spec; auto].
  - intros H. destruct (existsb _ _) eqn:E; auto. apply existsb_exists in E. destruct E as [k [Hk E]].
    apply in_seq in Hk. apply rmem_spec in E. exfalso; apply (H k); auto; lia.
Qed.

(** * downward closedness *)

Lemma in_box_0 m s : in_box 0 m s <-> nonneg s /\ Forall2 Z.le s m.
Proof.
  unfold in_box, nonneg. split.
  - induction 1 as [|x b r m Hx H IH]; [split; constructor|]. destruct IH. split; constructor; auto; lia.
  - intros [H1 H2]. induction H2 as [|x b r m Hx H IH]; constructor; inversion H1; subst; auto.
Qed.

Lemma dc_loop_spec fuel I test :
  length test <= fuel -> Forall (fun k => k < length (mi_rows I)) test ->
  Forall nonneg (mi_rows I) ->
  exists b, dc_loop fuel I 0 test = Some b /\
    (b = true <-> forall k, In k test -> forall s, in_box 0 (nth k (mi_rows I) []) s -> In s (mi_rows I)).
Proof.
  revert test; induction fuel as [|fuel IH]; intros test Hf Ht Hn.
  - destruct test; simpl in Hf; [|lia]. exists true; simpl; split; auto. split; auto; contradiction.
  - destruct test as [|a test0] eqn:Et.
    + exists true; simpl; split; auto. split; auto; contradiction.
    + set (l := last (a :: test0) 0).
      assert (Hl : In l (a :: test0)).
      { unfold l. clear. revert a. induction test0 as [|b t IH]; intros a; [left; auto|]. right. apply IH. }
      assert (Hlt : l < length (mi_rows I)). { rewrite Forall_forall in Ht; apply Ht; auto. }
      cbn [dc_loop]. fold l. set (p := nth l (mi_rows I) []).
      assert (Hp : In p (mi_rows I)) by (apply nth_In; auto).
      assert (Hpn : nonneg p) by (rewrite Forall_forall in Hn; auto).
      assert (exists Ip, bounded_by p 0 = Some Ip) as [Ip HIp] by (apply bounded_by_some; exact Hpn).
      rewrite HIp. destruct (bounded_by_spec _ _ _ HIp) as [_ [_ HIpr]].
      destruct (forallb (fun q => rmem q (mi_rows I)) (mi_rows Ip)) eqn:F.
      * rewrite forallb_forall in F.
        assert (Fb : forall s, in_box 0 p s -> In s (mi_rows I)).
        { intros s Hs. apply rmem_spec, F, HIpr; auto. }
        destruct (IH (filter (fun k => negb (rmem (nth k (mi_rows I) []) (mi_rows Ip))) (a :: test0))) as [b [Hb Hb']]; auto.
        { assert (Hlen : length (filter (fun k => negb (rmem (nth k (mi_rows I) []) (mi_rows Ip))) (a :: test0)) < length (a :: test0)).
          { assert (Hex : exists x, In x (a :: test0) /\ negb (rmem (nth x (mi_rows I) []) (mi_rows Ip)) = false).
            { exists l; split; auto. apply negb_false_iff, rmem_spec. fold p. apply HIpr. apply in_box_0. split; auto.
              clear. induction p; constructor; auto; lia. }
            clear - Hex. set (f := fun k => negb (rmem (nth k (mi_rows I) []) (mi_rows Ip))) in *.
            assert (G : forall l, (exists x, In x l /\ f x = false) -> length (filter f l) < length l).
            { induction l as [|y l IH]; intros [x [Hx E]]; [contradiction|]. simpl.
              pose proof (filter_length_le f l). destruct Hx as [->|Hx].
              - rewrite E. lia.
              - destruct (f y); simpl; [|lia]. apply -> Nat.succ_lt_mono. apply IH; eauto. }
            apply G; auto. }
          simpl in Hf. simpl length in Hlen at 2. lia. }
        { apply Forall_forall. intros x Hx. apply filter_In in Hx. rewrite Forall_forall in Ht. apply Ht, Hx. }
        exists b. split; [exact Hb|]. rewrite Hb'. split; intros H k Hk s Hs.
        -- destruct (rmem (nth k (mi_rows I) []) (mi_rows Ip)) eqn:E.
           ++ apply rmem_spec, HIpr in E. apply Fb. apply in_box_0 in E, Hs. apply in_box_0.
              destruct E as [_ E], Hs as [Hs1 Hs]. split; auto.
              clear - E Hs. revert s Hs. induction E; intros s Hs; inversion Hs; subst; constructor; auto; lia.
           ++ apply (H k); auto. apply filter_In. rewrite E; auto.
        -- apply filter_In in Hk. apply (H k); tauto.
      * exists false. split; auto. split; [discriminate|]. intros H.
        assert (forallb (fun q => rmem q (mi_rows I)) (mi_rows Ip) = true); [|congruence].
        apply forallb_forall. intros q Hq. apply rmem_spec. apply (H l); auto. fold p. apply HIpr; auto.
Qed.

Lemma is_downward_closed_spec I : Forall nonneg (mi_rows I) ->
  exists b, is_downward_closed I 0 = Some b /\ (b = true <-> down_closed (mi_rows I)).
Proof.
  intros Hn. unfold is_downward_closed.
  destruct (dc_loop_spec (length (mi_rows I)) I (seq 0 (length (mi_rows I)))) as [b [Hb H]]; auto.
  - rewrite seq_length; auto.
  - apply Forall_forall. intros k Hk. apply in_seq in Hk; lia.
  - exists b; split; auto. rewrite H. unfold down_closed. split.
    + intros G r s Hr Hs Hle. apply (In_nth _ _ []) in Hr. destruct Hr as [k [Hk <-]].
      apply (G k); [apply in_seq; lia|]. apply in_box_0; auto.
    + intros G k Hk s Hs. apply in_seq in Hk. apply in_box_0 in Hs. apply (G (nth k (mi_rows I) [])); try tauto.
      apply nth_In; lia.
Qed.

(** one-step characterisation of downward closedness *)
Definition rsz (r : row) : Z := zsum r.

Lemma down_closed_step (l : list row) d :
  Forall (fun r => length r = d) l ->
  (forall r k, In r l -> k < d -> nonneg (bump k (-1) r) -> In (bump k (-1) r) l) -> 
  Forall nonneg l -> down_closed l.
Proof.
  intros Hd H Hnn r s Hr Hs Hle.
  (* induction on the total distance *)
  remember (Z.to_nat (zsum r - zsum s)) as n eqn:En. revert r Hr Hle En.
  assert (Hsum : forall a b, Forall2 Z.le a b -> (zsum a <= zsum b)%Z).
  { induction 1; simpl; lia. }
  assert (Heq : forall a b, Forall2 Z.le a b -> (zsum b <= zsum a)%Z -> a = b).
  { induction 1 as [|x y a b Hxy Hab IH]; simpl; intros Hz; auto. pose proof (Hsum _ _ Hab). f_equal; [lia|apply IH; lia]. }
  induction n as [|n IH]; intros r Hr Hle En.
  - rewrite (Heq s r Hle); [auto|]. pose proof (Hsum _ _ Hle). lia.
  - assert (exists k, k < length r /\ (nth k s 0 < nth k r 0)%Z) as [k [Hk Hlt]].
    { assert (s <> r) as Hne by (intros ->; lia). clear - Hle Hne.
      induction Hle as [|x y s r Hxy Hsr IH]; [congruence|].
      destruct (Z.eq_dec x y) as [->|E].
      - destruct IH as [k [Hk Hlt]]; [congruence|]. exists (S k); simpl; split; auto; lia.
      - exists 0; simpl; split; lia. }
    assert (Hlen : length r = d) by (rewrite Forall_forall in Hd; auto).
    assert (Hle' : Forall2 Z.le s (bump k (-1) r)).
    { apply Forall2_of_nth with (da := 0%Z) (db := 0%Z).
      - rewrite bump_length. apply Forall2_length' in Hle; auto.
      - intros m Hm. rewrite nth_bump by auto. pose proof (Forall2_nth _ _ _ m 0%Z 0%Z Hle Hm).
        destruct (Nat.eqb_spec m k) as [->|]; lia. }
    apply (IH (bump k (-1) r)); auto.
    + apply H; auto; [lia|]. apply Forall_nth' with (d := 0%Z). rewrite bump_length. intros m Hm.
      pose proof (Forall2_nth _ _ _ m 0%Z 0%Z Hle') as Hx. rewrite (Forall2_length' _ _ _ Hle) in Hx.
      specialize (Hx Hm). unfold nonneg in Hs. rewrite (Forall_nth' _ _ 0%Z) in Hs.
      rewrite (Forall2_length' _ _ _ Hle) in Hs. specialize (Hs m Hm). simpl in *. lia.
    + assert (zsum (bump k (-1) r) = zsum r - 1)%Z as ->; [|lia].
      clear - Hk. revert k Hk. unfold bump. induction r as [|x r IH]; intros [|k] Hk; simpl in *; try lia.
      rewrite IH by lia. lia.
Qed.

Lemma down_closed_bump l r k : down_closed l -> In r l -> k < length r -> nonneg (bump k (-1) r) -> In (bump k (-1) r) l.
Proof.
  intros H Hr Hk Hn. apply (H r); auto. apply Forall2_of_nth with (da := 0%Z) (db := 0%Z).
  - apply bump_length.
  - intros m Hm. rewrite nth_bump by auto. destruct (m =? k); lia.
Qed.

(** * neighbours *)
Lemma is_succ_bump k s r : k < length r -> (is_succ k s r <-> s = bump k (-1) r).
Proof.
  intros Hk. split.
  - intros [Hl [H1 H2]]. apply nth_ext' with (d := 0%Z); [rewrite bump_length; auto|]. intros n Hn.
    rewrite nth_bump by auto. destruct (Nat.eqb_spec n k) as [->|E]; [lia|]. rewrite H2 by auto. lia.
  - intros ->. split; [rewrite bump_length; auto|]. split.
    + rewrite nth_bump, Nat.eqb_refl by auto. lia.
    + intros n Hn. rewrite nth_bump by auto. destruct (Nat.eqb_spec n k); [contradiction|lia].
Qed.
Lemma is_succ_bump' k s r : k < length s -> (is_succ k s r <-> r = bump k 1 s).
Proof.
  intros Hk. split.
  - intros [Hl [H1 H2]]. apply nth_ext' with (d := 0%Z); [rewrite bump_length; auto|]. intros n Hn.
    rewrite nth_bump by auto. destruct (Nat.eqb_spec n k) as [->|E]; [lia|]. rewrite H2 by auto. lia.
  - intros ->. split; [rewrite bump_length; auto|]. split.
    + rewrite nth_bump, Nat.eqb_refl by auto. lia.
    + intros n Hn. rewrite nth_bump by auto. destruct (Nat.eqb_spec n k); [contradiction|lia].
Qed.

Lemma margin_set I : mi_wf I -> 0 < mi_dim I -> mi_rows I <> [] ->
  is_set (get_margin I) (mi_dim I)
    (fun r => ~ In r (mi_rows I) /\ exists k s, k < mi_dim I /\ In s (mi_rows I) /\ is_succ k s r).
Proof.
  intros Hw Hd Hn. split; [rewrite get_margin_eq; auto|]. split; [apply get_margin_NoDup; auto|].
  intros r. rewrite get_margin_rows by auto. split.
  - intros [Hl [Hi [k [Hk Hb]]]]. split; auto. exists k, (bump k (-1) r). split; [auto|split; [auto|]]. apply is_succ_bump; auto; lia.
  - intros [Hi [k [s [Hk [Hs Hsu]]]]].
    assert (Hl : length r = mi_dim I). { unfold mi_wf in Hw. rewrite Forall_forall in Hw. rewrite <- (Hw s Hs). apply Hsu. }
    repeat split; auto. exists k; split; auto. apply is_succ_bump in Hsu; [subst; auto|lia].
Qed.

Lemma reduced_margin_set I : mi_wf I -> 0 < mi_dim I -> mi_rows I <> [] ->
  is_set (get_reduced_margin I) (mi_dim I)
    (fun r => ~ In r (mi_rows I) /\ (exists k s, k < mi_dim I /\ In s (mi_rows I) /\ is_succ k s r) /\ forall k s, k < mi_dim I -> is_succ k s r -> nonneg s -> In s (mi_rows I)).
Proof.
  intros Hw Hd Hn. split; [apply get_reduced_margin_dim; auto|]. split; [apply get_reduced_margin_NoDup; auto|].
  intros r. rewrite get_reduced_margin_rows by auto.
  destruct (margin_set I Hw Hd Hn) as [_ [_ HM]].
  pose proof (get_margin_rows I r Hw Hd Hn) as HM2. rewrite HM in HM2. split.
  - intros [Hl [Hi [He Hall]]]. destruct HM2 as [_ HM2]. destruct HM2 as [_ [k He']]; auto. split; auto. split; eauto.
    intros k' s Hk' Hsu Hs. apply is_succ_bump in Hsu; [subst; auto|lia].
  - intros [Hi [He Hall]]. destruct HM2 as [HM2 _]. destruct HM2 as [Hl [_ He']]; auto. split; auto. split; auto. split; auto.
    intros k Hk Hnn. apply (Hall k); auto. apply is_succ_bump; auto; lia.
Qed.

Lemma maximal_set I : mi_wf I -> 
  mi_dim (get_maximal_indices I) = mi_dim I /\ forall r, In r (mi_rows (get_maximal_indices I)) <->
    In r (mi_rows I) /\ forall k s, k < mi_dim I -> is_succ k r s -> ~ In s (mi_rows I).
Proof.
  intros Hw. split; auto. intros r. rewrite get_maximal_rows. split.
  - intros [Hr H]. split; auto. intros k s Hk Hsu.
    assert (length r = mi_dim I) by (unfold mi_wf in Hw; rewrite Forall_forall in Hw; auto).
    apply is_succ_bump' in Hsu; [subst; auto|lia].
  - intros [Hr H]. split; auto. intros k Hk. apply (H k); auto.
    assert (length r = mi_dim I) by (unfold mi_wf in Hw; rewrite Forall_forall in Hw; auto).
    apply is_succ_bump'; auto; lia.
Qed.

(** * adaptive enrichment *)
Lemma adaptive_inv d I : 0 < d -> adaptive d I ->
  mi_dim I = d /\ mi_wf I /\ mi_rows I <> [] /\ NoDup (mi_rows I) /\ Forall nonneg (mi_rows I) /\ down_closed (mi_rows I).
Proof.
  intros Hd. induction 1 as [|I S HI IH Hincl].
  - simpl. assert (nonneg (repeat 0%Z d)).
    { apply Forall_forall. intros x Hx. apply repeat_spec in Hx; lia. }
    repeat split; auto; try congruence.
    + unfold mi_wf; simpl. constructor; auto. apply repeat_length.
    + constructor; auto. constructor.
    + intros r s [<-|[]] Hs Hle. left.
      assert (length s = d) as Hl by (apply Forall2_length' in Hle; rewrite repeat_length in Hle; auto).
      apply nth_ext' with (d := 0%Z); rewrite repeat_length; auto. intros n Hn.
      pose proof (Forall2_nth _ _ _ n 0%Z 0%Z Hle ltac:(lia)) as H1. rewrite nth_repeat in *.
      unfold nonneg in Hs. rewrite (Forall_nth' _ _ 0%Z) in Hs. specialize (Hs n ltac:(lia)). simpl in Hs. lia.
  - destruct IH as [E [Hw [Hne [Hnd [Hnn Hdc]]]]].
    assert (HS : forall r, In r (mi_rows S) -> length r = mi_dim I /\ nonneg r /\ forall k, k < mi_dim I -> nonneg (bump k (-1) r) -> In (bump k (-1) r) (mi_rows I)).
    { intros r Hr. apply Hincl in Hr. apply get_reduced_margin_rows in Hr; auto; [|lia].
      destruct Hr as [Hl [Hni [[k [Hk Hb]] Hall]]]. repeat split; auto.
      rewrite Forall_forall in Hnn. apply Hnn in Hb. assert (r = bump k 1 (bump k (-1) r)) as ->.
      { rewrite bump_bump by lia. simpl. rewrite bump_0; auto. }
      apply Forall_nth' with (d := 0%Z). rewrite bump_length. intros n Hn. rewrite bump_length in Hn.
      rewrite nth_bump by (rewrite bump_length; lia). unfold nonneg in Hb. rewrite (Forall_nth' _ _ 0%Z) in Hb.
      rewrite bump_length in Hb. specialize (Hb n Hn). simpl in Hb. destruct (n =? k)%nat; lia. }
    assert (Hrows : forall r, In r (mi_rows (add_indices I S)) <-> In r (mi_rows I) \/ In r (mi_rows S)).
    { intros r. apply add_indices_rows; auto. }
    assert (Hdim : mi_dim (add_indices I S) = d) by (rewrite add_indices_dim; auto).
    assert (Hw' : mi_wf (add_indices I S)).
    { unfold mi_wf in *. rewrite Hdim. rewrite Forall_forall in *. intros r Hr. apply Hrows in Hr. rewrite <- E.
      destruct Hr as [Hr|Hr]; [auto|apply HS; auto]. }
    assert (Hnn' : Forall nonneg (mi_rows (add_indices I S))).
    { rewrite Forall_forall in *. intros r Hr. apply Hrows in Hr. destruct Hr as [Hr|Hr]; [auto|apply HS; auto]. }
    repeat split; auto; [apply add_indices_nonempty|apply add_indices_NoDup|].
    apply (down_closed_step _ d).
    + unfold mi_wf in Hw'. rewrite Hdim in Hw'. auto.
    + intros r k Hr Hk Hb. apply Hrows. apply Hrows in Hr. left. destruct Hr as [Hr|Hr].
      * apply down_closed_bump; auto. unfold mi_wf in Hw. rewrite Forall_forall in Hw. rewrite (Hw r Hr). lia.
      * apply HS; auto. lia.
    + auto.
Qed.
