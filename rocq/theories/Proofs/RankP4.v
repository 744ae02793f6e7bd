(** Proofs for Model/RankAdapt.v: the nodes whose rank is increased. *)
From Coq Require Import List Arith Lia Bool Permutation Sorted Reals Lra.
From Verif.Base Require Import ListAux CRing Index RealAux.
From Verif.Model Require Import Sorting Utils Numpy FullTensor DimensionTree TreeBased HSVD RankAdapt.
From Verif.Spec Require Import TensorSpec TreeSpec TreeTensorSpec RankSpec.
From Verif.Proofs Require Import NumpyP DimTreeP TreeTensorP TreeTensorP2 TreeTensorP3 TreeTensorP4 HsvdP2 RankP1 RankP2.
Import ListNotations.

(** *** sorting and unique_tol *)
Lemma insert_r_perm x l : Permutation (insert_r x l) (x :: l).
Proof. induction l as [|y l IH]; cbn; auto. destruct (Rle_dec x y); auto. rewrite IH. apply perm_swap. Qed.
Lemma sort_r_perm l : Permutation (sort_r l) l.
Proof. induction l as [|x l IH]; cbn; auto. rewrite insert_r_perm, IH. auto. Qed.
Lemma insert_r_sorted x l : StronglySorted Rle l -> StronglySorted Rle (insert_r x l).
Proof.
  induction 1 as [|y l Hs IH Hf]; cbn; [repeat constructor|]. destruct (Rle_dec x y) as [L|L].
  - constructor; [constructor; auto|]. constructor; auto. eapply Forall_impl; [|exact Hf]. cbn. intros; lra.
  - constructor; auto. apply Forall_forall. intros z Hz. apply (Permutation_in z (insert_r_perm x l)) in Hz. destruct Hz as [<- | Hz]; [lra|]. rewrite Forall_forall in Hf. auto.
Qed.
Lemma sort_r_sorted l : StronglySorted Rle (sort_r l).
Proof. induction l; cbn; [constructor|]. apply insert_r_sorted. auto. Qed.
Lemma unique_from_in tol : forall l a x, In x (unique_from tol a l) -> x = a \/ In x l.
Proof.
  induction l as [|y l IH]; intros a x H; cbn [unique_from] in H; [destruct H as [<- | []]; auto|].
  destruct (Rlt_dec _ _); [destruct H as [<- | H]; auto|]; destruct (IH _ _ H) as [-> | H']; cbn [In]; auto.
Qed.
Lemma unique_from_sorted tol : forall l a, StronglySorted Rle (a :: l) -> StronglySorted Rle (unique_from tol a l).
Proof.
  induction l as [|y l IH]; intros a H; cbn [unique_from]; auto.
  inversion H as [|? ? H1 H2]; subst. inversion H2 as [|? ? H3 H4]; subst. destruct (Rlt_dec _ _).
  - constructor; [apply IH; auto|]. apply Forall_forall. intros x Hx. destruct (unique_from_in _ _ _ _ Hx) as [-> | Hx']; auto. rewrite Forall_forall in H4. auto.
  - apply IH. inversion H1; subst. constructor; auto.
Qed.
Lemma unique_from_hd tol : forall l a, In a (unique_from tol a l).
Proof. induction l as [|y l IH]; intros a; cbn [unique_from]; [left; auto|]. destruct (Rlt_dec _ _); [left; auto|apply IH]. Qed.
(** a value far from all the smaller ones is kept *)
Lemma unique_from_keep tol y : (0 < tol)%R -> forall l a, StronglySorted Rle (a :: l) -> (0 < a)%R -> In y (a :: l) ->
  (forall x, In x (a :: l) -> (x < y)%R -> (x + x * tol < y)%R) -> In y (unique_from tol a l).
Proof.
  intros Ht. induction l as [|z l IH]; intros a H Ha Hy Hg; [destruct Hy as [<- | []]; left; auto|].
  inversion H as [|? ? H1 H2]; subst. inversion H2 as [|? ? H3 H4]; subst. inversion H1 as [|? ? H5 H6]; subst.
  destruct (Rle_lt_dec y a) as [Y|Y].
  - assert (y = a). { destruct Hy as [<- | Hy]; auto. rewrite Forall_forall in H2. specialize (H2 _ Hy). lra. } subst y. apply unique_from_hd.
  - destruct Hy as [Hy | Hy]; [lra|]. cbn [unique_from]. destruct (Rlt_dec tol (Rabs (a - z) / a)) as [L|L].
    + right. apply IH; auto; [lra|]. intros x Hx. apply Hg. right. auto.
    + apply IH; auto.
      * constructor; auto.
      * destruct Hy as [<- | Hy]; [|right; auto]. exfalso. apply L. specialize (Hg a (or_introl eq_refl) Y). rewrite Rabs_left by lra. apply (Rmult_lt_reg_r a); auto. unfold Rdiv. rewrite Rmult_assoc, Rinv_l by lra. lra.
      * intros x [<- | Hx]; apply Hg; [left|right; right]; auto.
Qed.
Lemma unique_tol_in tol l x : In x (unique_tol tol l) -> In x l.
Proof.
  unfold unique_tol. intros H. apply (Permutation_in x (sort_r_perm l)). destruct (sort_r l) as [|a l']; [destruct H|]. destruct (unique_from_in _ _ _ _ H) as [-> | H']; cbn [In]; auto.
Qed.
Lemma unique_tol_sorted tol l : StronglySorted Rle (unique_tol tol l).
Proof. unfold unique_tol. pose proof (sort_r_sorted l) as H. destruct (sort_r l); [constructor|]. apply unique_from_sorted. auto. Qed.
Lemma unique_tol_keep tol l y : (0 < tol)%R -> (forall x, In x l -> (0 < x)%R) -> In y l -> (forall x, In x l -> (x < y)%R -> (x + x * tol < y)%R) -> In y (unique_tol tol l).
Proof.
  intros Ht HP Hy Hg. unfold unique_tol. pose proof (sort_r_sorted l) as Hs. pose proof (sort_r_perm l) as P. destruct (sort_r l) as [|a l'].
  - apply Permutation_nil in P. subst l. destruct Hy.
  - apply unique_from_keep; auto.
    + apply HP. apply (Permutation_in a P). left; auto.
    + apply (Permutation_in y (Permutation_sym P)). auto.
    + intros x Hx. apply Hg. apply (Permutation_in x P). auto.
Qed.
Lemma sorted_rev_split (l : list R) l1 x l2 y : StronglySorted Rle l -> rev l = l1 ++ x :: l2 -> In y l2 -> (y <= x)%R.
Proof.
  intros H E Hy. apply (f_equal (@rev R)) in E. rewrite rev_involutive, rev_app_distr in E. cbn [rev] in E. rewrite E, <- app_assoc in H. clear E. apply in_rev in Hy.
  induction (rev l2) as [|z l' IH]; [destruct Hy|]. cbn [app] in H. inversion H as [|? ? H1 H2]; subst. destruct Hy as [-> | Hy]; auto. rewrite Forall_forall in H2. apply H2. apply in_or_app. right. cbn. auto.
Qed.
Lemma ofind_first {A} (f : A -> option bool) l : (forall x, In x l -> exists b, f x = Some b) ->
  match ofind f l with Some (Some x) => exists l1 l2, l = l1 ++ x :: l2 /\ f x = Some true /\ forall y, In y l1 -> f y = Some false | Some None => forall x, In x l -> f x = Some false | None => False end.
Proof.
  induction l as [|x l IH]; intros H; cbn [ofind]; [intros y []|]. destruct (H x (or_introl eq_refl)) as [[|] E]; rewrite E; [exists [], l; repeat split; auto; intros y []|].
  assert (H' : forall y, In y l -> exists b, f y = Some b) by (intros y Hy; apply H; right; auto). specialize (IH H'). destruct (ofind f l) as [[y|]|]; auto.
  - destruct IH as (l1 & l2 & -> & A1 & A2). exists (x :: l1), l2. split; auto. split; auto. intros z [<- | Hz]; auto.
  - intros y [<- | Hy]; auto.
Qed.
Lemma nanmax_spec l : l <> [] -> In (nanmax l) l /\ forall x, In x l -> (x <= nanmax l)%R.
Proof.
  destruct l as [|a l]; [congruence|]. intros _. unfold nanmax. cbn [hd].
  assert (G : forall l, (fold_right Rmax a l = a \/ In (fold_right Rmax a l) l) /\ forall x, In x l -> (x <= fold_right Rmax a l)%R).
  { clear l. induction l as [|b l [G1 G2]]; cbn [fold_right In]; [split; auto; intros x []|]. split.
    - destruct (Rle_lt_dec b (fold_right Rmax a l)) as [L|L]; [rewrite Rmax_right by lra; destruct G1; auto|rewrite Rmax_left by lra; auto].
    - intros x [<- | Hx]; [apply Rmax_l|]. apply Rle_trans with (2 := Rmax_r _ _). auto. }
  destruct (G (a :: l)) as [[E | Hi] G2]; split; auto. rewrite E. left; auto.
Qed.
Lemma sv_vals_in sv x : In x (sv_vals sv) <-> In (Some x) sv.
Proof.
  unfold sv_vals. rewrite in_flat_map. split.
  - intros ([y|] & H1 & H2); [|destruct H2]. destruct H2 as [-> | []]. auto.
  - intros H. exists (Some x). split; auto. left; auto.
Qed.

Section RankP4.
  Context {K : Type} {CR : CRing K}.
  Variables (X : tbt K) (r : nat) (sv : list (option R)).
  Hypothesis O : tb_ok X r.
  Hypothesis HR : sval sv r = None.
  Local Notation t := (ttree X).
  Local Notation mk := (nrs_mark X sv).
  Lemma upd_same {A} (d : A) k l : upd k (nth k l d) l = l.
  Proof.
    apply nth_ext' with (d := d); [apply upd_length|]. intros j Hj. rewrite upd_length in Hj. destruct (Nat.eq_dec j k) as [-> | NE]; [rewrite nth_upd_eq|rewrite nth_upd_neq]; auto.
  Qed.
  Lemma ranks_at n : node t n -> nth (n - 1) (tb_ranks X) 0 = tb_rank X n.
  Proof. apply (ranks_nth X). Qed.
  Let g (n : nat) (old : bool) (ch : list bool) : bool :=
    if is_leaf t n then old else if n =? r then old else old || (forallb (fun b => b) ch && (nth (n - 1) (tb_ranks X) 0 =? prodn (map (fun k => nth (k - 1) (tb_ranks X) 0) (children t n)))).
  Lemma mark_eq : length mk = nbn t /\ forall n, node t n ->
    nth (n - 1) mk false = g n (if is_leaf t n then isnan (sval sv n) else n =? r) (map (fun c => nth (c - 1) mk false) (children t n)).
  Proof.
    pose proof (proj1 (proj1 O)) as T. set (s0 := map (fun n => if is_leaf t n then isnan (sv_at sv n) else n =? root t) (nodes t)).
    assert (L0 : length s0 = nbn t) by (unfold s0; rewrite map_length; apply (nodes_len X)).
    pose proof (bottom_up_fix t r T false g s0 L0) as B. cbv zeta in B.
    assert (E : fold_left (fun s n => upd (n - 1) (g n (nth (n - 1) s false) (map (fun c => nth (c - 1) s false) (children t n))) s) (bottom_up t) s0 = mk).
    { rewrite (hsvd_bottom_up t r T), fold_left_app. cbn [fold_left]. unfold g at 1. rewrite Nat.eqb_refl. replace (if is_leaf t r then _ else _) with (nth (r - 1) (fold_left (fun s n => upd (n - 1) (g n (nth (n - 1) s false) (map (fun c => nth (c - 1) s false) (children t n))) s) (hsvd_nodes t) s0) false) by (destruct (is_leaf t r); auto).
      rewrite upd_same. unfold nrs_mark. fold s0. fold (hsvd_nodes t).
      assert (G : forall l s, (forall n, In n l -> n <> r) -> fold_left (fun s n => upd (n - 1) (g n (nth (n - 1) s false) (map (fun c => nth (c - 1) s false) (children t n))) s) l s =
        fold_left (fun c n => if forallb (fun k => nth (k - 1) c false) (children t n) && (nth (n - 1) (tb_ranks X) 0 =? prodn (map (fun k => nth (k - 1) (tb_ranks X) 0) (children t n))) then upd (n - 1) true c else c) (filter (fun n => negb (is_leaf t n)) l) s).
      { induction l as [|n l IH]; intros s Hn; auto. cbn [fold_left filter]. rewrite IH by (intros m Hm; apply Hn; right; auto). unfold g. destruct (is_leaf t n); cbn [negb].
        - rewrite upd_same. auto.
        - cbn [fold_left]. f_equal. rewrite (proj2 (Nat.eqb_neq n r)) by (apply Hn; left; auto).
          assert (F : forallb (fun b => b) (map (fun c => nth (c - 1) s false) (children t n)) = forallb (fun k => nth (k - 1) s false) (children t n)) by (induction (children t n) as [|c l' IH']; cbn; [auto|rewrite IH'; auto]).
          rewrite F. destruct (_ && _); [rewrite orb_true_r; auto|]. rewrite orb_false_r. apply upd_same. }
      apply G. intros n Hn. apply (in_hsvd_nodes t r T) in Hn. apply Hn. }
    rewrite E in B. destruct B as [B1 B2]. split; auto. intros n Hn. rewrite (B2 n Hn). f_equal. unfold s0. unfold node in Hn.
    rewrite (map_nth_in _ _ _ 0) by (rewrite (nodes_len X); lia). rewrite (nodes_nth X) by lia. replace (S (n - 1)) with n by lia. rewrite (root_eq t r T). auto.
  Qed.
  Lemma mark_stuck n : node t n -> (nth (n - 1) mk false = true <-> stuck X r sv n).
  Proof.
    pose proof (proj1 (proj1 O)) as T. destruct mark_eq as [ML ME]. revert n. apply (tree_up_ind t r T). intros n Hn IH. rewrite (ME n Hn). unfold g.
    destruct (Nat.eq_dec n r) as [-> | NE].
    - split; [intros; constructor|]. intros _. rewrite HR, Nat.eqb_refl. cbn [isnan]. destruct (is_leaf t r); auto.
    - rewrite (proj2 (Nat.eqb_neq n r) NE). destruct (is_leaf t n) eqn:Hl.
      + split.
        * intros H. apply stuck_leaf; auto. destruct (sval sv n); [discriminate|auto].
        * intros H. inversion H; subst; try congruence. replace (sval sv n) with (@None R) by auto. auto.
      + cbn [orb]. rewrite andb_true_iff, Nat.eqb_eq, forallb_forall.
        assert (EP : prodn (map (fun k => nth (k - 1) (tb_ranks X) 0) (children t n)) = prodn (map (tb_rank X) (children t n))).
        { f_equal. apply map_ext_in. intros c Hc. apply (proj1 (in_children t n c Hn)) in Hc. apply ranks_at. apply Hc. }
        rewrite EP, ranks_at by auto. split.
        * intros [H1 H2]. apply stuck_node; auto. intros c Hc. apply (IH c Hc). apply H1. apply in_map_iff. exists c. split; auto. apply in_children; auto.
        * intros H. inversion H; subst; try congruence. split; auto. intros b Hb. apply in_map_iff in Hb. destruct Hb as (c & <- & Hc). apply (proj1 (in_children t n c Hn)) in Hc. apply (IH c Hc). auto.
  Qed.
  (** the second loop marks no new node *)
  Lemma mark2_same m : nrs_mark2 X m = m.
  Proof.
    unfold nrs_mark2. set (f := fun (c : list bool) (n : nat) => _).
    assert (G : forall l, (forall n, In n l -> nth (n - 1) m false = true) -> fold_left f l m = m).
    { induction l as [|n l IH]; intros H; auto. cbn [fold_left]. replace (f m n) with m; [apply IH; intros; apply H; right; auto|].
      unfold f. destruct (_ && _); auto. rewrite <- (H n (or_introl eq_refl)). symmetry. apply upd_same. }
    apply G. intros n Hn. apply filter_In in Hn. apply Hn.
  Qed.
End RankP4.
