(** Matrices inserted between the nodes of a tree-based tensor and their parents. *)
From Coq Require Import List Arith Lia Bool Reals Lra Permutation.
From Verif.Base Require Import ListAux CRing Index RealAux.
From Verif.Model Require Import Sorting Numpy FullTensor Diagonal Canonical DimensionTree TreeBased Truncator HSVD HsvdTree.
From Verif.Spec Require Import TensorSpec TreeSpec TreeTensorSpec TruncatorSpec.
From Verif.Proofs Require Import NumpyP FullTensorP FullTensorP4 DimTreeP TreeTensorP TreeTensorP2 TreeTensorP3 TreeTensorP4 TreeTensorP12 TreeTensorP13 TreeTensorP14 TreeTensorP15 TreeTensorP29 PolyP5 SpectralP LapackP EckartP HsvdP2 HsvdP7 HsvdP9 HsvdTreeP1 HsvdTreeP2.
Import ListNotations.
Local Open Scope R_scope.

(** same shapes *)
Section SameShape.
  Variables (X Y : tbt R) (r : nat).
  Hypothesis O : tb_ok X r.
  Hypothesis HT : ttree Y = ttree X.
  Hypothesis HL : length (cores Y) = length (cores X).
  Hypothesis HS : forall m, node (ttree X) m -> shape (core Y m) = shape (core X m).
  Lemma ss_active m : node (ttree X) m -> active Y m = active X m.
  Proof. intros Hm. apply active_shape_eq. auto. Qed.
  Lemma ss_heads m : node (ttree X) m -> heads Y m = heads X m.
  Proof. intros Hm. unfold heads. rewrite HT, HS by auto. auto. Qed.
  Lemma ss_exts m : node (ttree X) m -> exts Y m = exts X m.
  Proof. intros Hm. unfold exts. rewrite HT, HS by auto. auto. Qed.
  Lemma ss_ok : tb_ok Y r.
  Proof.
    destruct O as (V & L & A & H). pose proof (proj1 V) as T. assert (Hr : node (ttree X) r) by apply T. split; [rewrite HT; auto|]. split; [rewrite HT; congruence|]. split; [rewrite ss_active; auto|].
    rewrite HT. intros n Hn. destruct (H n Hn) as (H1 & H2 & H3). split; [intros Hl; rewrite ss_active; auto|]. split.
    - intros Ha. rewrite ss_active in Ha by auto. unfold ndim. rewrite HS, ss_exts by auto. apply H2. auto.
    - intros c He Ha. assert (Hc : node (ttree X) c) by apply He. rewrite ss_active in Ha by auto. rewrite !HS by auto. auto.
  Qed.
  Lemma ss_size m : node (ttree X) m -> tb_size Y m = tb_size X m.
  Proof.
    pose proof (proj1 (proj1 O)) as T. intros Hm. unfold tb_size. rewrite ss_active, HS, HT by auto. destruct (active X m) eqn:Ha; auto.
    destruct (Nat.eq_dec m r) as [->|NE]; [rewrite (ok_root X r O) in Ha; discriminate|]. rewrite HS; auto. apply (parent_is_edge (ttree X) r T m Hm NE).
  Qed.
  Lemma ss_csize m : node (ttree X) m -> csize Y m = csize X m.
  Proof. intros Hm. unfold csize. rewrite ss_active, HS, ss_size by auto. auto. Qed.
  Lemma ss_shape : tb_shape Y = tb_shape X.
  Proof. unfold tb_shape. rewrite HT. apply map_ext_in. intros m Hm. apply ss_size. apply (leaf_node (ttree X) r (proj1 O)). apply inb_spec. auto. Qed.
End SameShape.

Definition insc (A : nd R) (Q : nat -> nat -> R) : nd R :=
  ND (shape A) (fun is => rsum (last (shape A) 0%nat) (fun l => get A (removelast is ++ [l]) * Q l (last is 0%nat))).
Lemma insc_get A Q ks k : get (insc A Q) (ks ++ [k]) = rsum (last (shape A) 0%nat) (fun l => get A (ks ++ [l]) * Q l k).
Proof. unfold insc. cbn [get]. rewrite removelast_last, last_last. auto. Qed.
Definition insm (M : nat -> option (nat -> nat -> R)) (Y : tbt R) : tbt R :=
  TB (ttree Y) (map (fun n => match M n with None => core Y n | Some Q => insc (core Y n) Q end) (nodes (ttree Y))).
Section Ins.
  Variables (X : tbt R) (r : nat).
  Hypothesis O : tb_ok X r.
  Local Notation t := (ttree X).
  Let V : dim_tree t r := proj1 O.
  Let T : rooted_tree t r := proj1 V.
  Lemma insm_core M n : node t n -> core (insm M X) n = match M n with None => core X n | Some Q => insc (core X n) Q end.
  Proof.
    intros Hn. unfold core, nthc, insm. cbn [cores]. assert (Hn' := Hn). unfold node in Hn'. unfold nodes. rewrite map_nth_in with (da := 0%nat) by (rewrite seq_length; lia).
    rewrite seq_nth by lia. replace (1 + (n - 1))%nat with n by lia. auto.
  Qed.
  Lemma insm_tree M : ttree (insm M X) = t.
  Proof. auto. Qed.
  Lemma insm_len M : length (cores (insm M X)) = length (cores X).
  Proof. unfold insm. cbn [cores]. unfold nodes. rewrite map_length, seq_length. symmetry. apply (ok_cores_length X r O). Qed.
  Lemma insm_shape M n : node t n -> shape (core (insm M X) n) = shape (core X n).
  Proof. intros Hn. rewrite insm_core by auto. destruct (M n); auto. Qed.
  Lemma insm_ok M : tb_ok (insm M X) r.
  Proof. apply (ss_ok X); auto; [apply insm_len|apply insm_shape]. Qed.
  Lemma insm_none : insm (fun _ => None) X = X.
  Proof. unfold insm. change (fun n : nat => core X n) with (core X). rewrite <- (TreeTensorP15.cores_map X r O). destruct X; auto. Qed.
  Lemma insm_ext M M' : (forall n, node t n -> M n = M' n) -> insm M X = insm M' X.
  Proof. intros H. unfold insm. f_equal. apply map_ext_in. intros n Hn. rewrite H; auto. apply in_nodes. auto. Qed.
  Lemma insm_tval_below M M' n is e : node t n -> (forall m, node t m -> below t n m -> M m = M' m) -> tval (insm M X) n is e = tval (insm M' X) n is e.
  Proof.
    intros Hn H. apply (tval_same_below (insm M' X) (insm M X) r n); auto. intros m Hm Hb. rewrite !insm_core by auto. rewrite H by auto. auto.
  Qed.
  (** the value of a node with a matrix *)
  Lemma insm_tval M M' Q n is k : node t n -> n <> r -> active X n = true -> M n = Some Q -> M' n = None -> (forall m, node t m -> below t n m -> m <> n -> M m = M' m) ->
    tval (insm M X) n is [k] = rsum (csize X n) (fun l => tval (insm M' X) n is [l] * Q l k).
  Proof.
    intros Hn NE Ha HM HM' HB. assert (Ec : csize X n = last (shape (core X n)) 0%nat) by (unfold csize; rewrite Ha; auto).
    assert (A1 : active (insm M X) n = true) by (rewrite (active_shape_eq (insm M X) X n n); auto; apply insm_shape; auto).
    assert (A2 : active (insm M' X) n = true) by (rewrite (active_shape_eq (insm M' X) X n n); auto; apply insm_shape; auto).
    destruct (is_leaf t n) eqn:Hl.
    - rewrite (tval_leaf (insm M X) r V n) by auto. cbn [ttree insm]. rewrite insm_core, HM by auto. change (?i :: [k]) with ([i] ++ [k]). rewrite insc_get, Ec. apply rsum_ext_R. intros l _.
      rewrite (tval_leaf (insm M' X) r V n) by auto. rewrite insm_core, HM' by auto. reflexivity.
    - rewrite (tval_internal (insm M X) r V n) by auto. rewrite (ss_heads X) by (auto; apply insm_shape).
      transitivity (bsum (heads X n) (fun ks => rsum (csize X n) (fun l => (get (core X n) (ks ++ [l]) * lprod (combine (children t n) ks) (fun p => tval (insm M' X) (fst p) is [snd p])) * Q l k))).
      + apply bsum_ext_R. intros ks _. cbn [ttree insm]. rewrite insm_core, HM by auto. rewrite insc_get, <- Ec.
        rewrite (lprod_ext _ (fun p => tval (insm M X) (fst p) is [snd p]) (fun p => tval (insm M' X) (fst p) is [snd p])).
        * rcbn. rewrite <- rsum_scal_r_R. apply rsum_ext_R. intros l _. ring.
        * intros [c y] Hc. apply in_combine_l in Hc. apply in_children in Hc; auto. cbn [fst snd]. apply insm_tval_below; [apply Hc|].
          intros m Hm Hb. apply HB; auto; [apply below_step; right; exists c; auto|]. intros ->. destruct Hb as [d Hd]. pose proof (level_below t r T c n d (proj1 (proj2 Hc)) Hd). pose proof (level_edge t r T n c Hc). lia.
      + rewrite bsum_rsum_exchange_R. apply rsum_ext_R. intros l _. rewrite bsum_scal_r_R. f_equal. rewrite (tval_internal (insm M' X) r V n) by auto. rewrite (ss_heads X (insm M' X)) by (auto; apply insm_shape).
        apply bsum_ext_R. intros ks _. cbn [ttree insm]. rewrite insm_core, HM' by auto. auto.
  Qed.
End Ins.

(** the pointwise inequality *)
Lemma proj_ineq N k q w w' : orthonormal N k q ->
  let B v c := dotp N (fun i => q i c) v in
  rsum N (fun i => (w i - rsum k (fun c => q i c * B w' c)) * (w i - rsum k (fun c => q i c * B w' c))) <=
  (dotp N w w - rsum k (fun c => B w c * B w c)) + rsum N (fun i => (w i - w' i) * (w i - w' i)).
Proof.
  intros HO B. rewrite (comb_dist N k q w (B w') HO). pose proof (bessel N k q (fun i => w i - w' i) HO) as HB.
  assert (E : rsum k (fun c => dotp N (fun i => q i c) (fun i => w i - w' i) * dotp N (fun i => q i c) (fun i => w i - w' i)) =
     rsum k (fun c => B w c * B w c) - 2 * rsum k (fun c => B w' c * B w c) + rsum k (fun c => B w' c * B w' c)).
  { assert (L : forall c, dotp N (fun i => q i c) (fun i => w i - w' i) = B w c - B w' c).
    { intros c. unfold B, dotp. rewrite <- rsum_minus_R. apply rsum_ext_R. intros. ring. }
    rewrite <- rsum_scal_l_R, <- rsum_minus_R, <- rsum_plus_R. apply rsum_ext_R. intros c _. rewrite L. ring. }
  rewrite E in HB. unfold dotp in HB at 1. fold (B w) in *. change (fun c => B w' c * dotp N (fun i => q i c) w) with (fun c => B w' c * B w c). lra.
Qed.

Section Err.
  Variables (X : tbt R) (r : nat).
  Hypothesis O : tb_ok X r.
  Hypothesis H2 : (2 <= tb_order X)%nat.
  Hypothesis HO : forall n, node (ttree X) n -> active X n = true -> n <> r -> orth_cols (core X n).
  Local Notation t := (ttree X).
  Let V : dim_tree t r := proj1 O.
  Let T : rooted_tree t r := proj1 V.
  (** squared distance of the values at the root *)
  Definition tdist (f g : list nat -> list nat -> R) : R := bsum (exts X r) (fun e => bsum (tb_shape X) (fun is => (f is e - g is e) * (f is e - g is e))).
  Lemma iso_n n (a : nat -> list nat -> R) : node t n -> n <> r -> (forall k, loc (co X n) (a k)) ->
    bsum (tb_shape X) (fun is => rsum (csize X n) (fun k => tval X n is [k] * a k is) * rsum (csize X n) (fun k => tval X n is [k] * a k is)) = nu X n (fun is => rsum (csize X n) (fun k => a k is * a k is)).
  Proof.
    intros Hn NE La. rewrite (shape_sz X).
    pose proof (iso (sz X) (tb_order X) (dims t n) (NoDup_dims' X r O n Hn) (dims_N X r O n Hn) [csize X n] (fun i is => tval X n is i)) as E.
    specialize (E (fun i => loc_tval X r O n i Hn)).
    assert (TO : forall k l, valid [csize X n] k -> valid [csize X n] l -> part (sz X) (dims t n) (fun is => tval X n is k * tval X n is l) (repeat 0%nat (tb_order X)) = if list_eqb k l then 1 else 0).
    { intros i j Hi Hj. inversion Hi as [|i0 ? i' ? Hi1 Hi2]; subst. inversion Hi2; subst. inversion Hj as [|j0 ? j' ? Hj1 Hj2]; subst. inversion Hj2; subst.
      change (repeat 0%nat (tb_order X)) with (zN X). rewrite (node_orth X r O H2 HO) by auto. cbn [list_eqb]. rewrite andb_true_r. auto. }
    specialize (E TO (fun i => a (nth 0 i 0%nat)) (fun i => a (nth 0 i 0%nat)) (fun i => La _) (fun i => La _)). cbn [bsum nth] in E. exact E.
  Qed.
  Lemma sum_fact n W is e : node t n -> active X n = true -> n <> r -> fact X r n W -> valid (exts X r) e -> tval X r is e = rsum (csize X n) (fun k => tval X n is [k] * W [k] is e).
  Proof.
    intros Hn Ha NE (_ & HW) He. rewrite (HW X); auto.
    - rewrite (exts_n X r O n Hn Ha NE). reflexivity.
    - split; auto.
  Qed.
  Lemma norm_tr n W : node t n -> active X n = true -> n <> r -> fact X r n W ->
    tdist (tval X r) (fun _ _ => 0) = rsum (csize X n) (fun k => gm X r n W [k] [k]).
  Proof.
    intros Hn Ha NE HW. unfold tdist, gm. rewrite <- bsum_rsum_exchange_R. apply bsum_ext_R. intros e He.
    rewrite (bsum_ext_R _ _ (fun is => rsum (csize X n) (fun k => tval X n is [k] * W [k] is e) * rsum (csize X n) (fun k => tval X n is [k] * W [k] is e))).
    - rewrite (iso_n n (fun k is => W [k] is e)); auto; [|intros k; apply HW]. unfold nu. rewrite part_rsum. auto.
    - intros is _. rewrite <- (sum_fact n W is e) by auto. ring.
  Qed.
  Definition qf (U : nat -> nat -> R) (kk l k : nat) : R := rsum kk (fun c => U l c * U k c).
  (** one more insertion *)
  Lemma err_step n W (M : nat -> option (nat -> nat -> R)) U kk : node t n -> active X n = true -> n <> r -> fact X r n W ->
    orthonormal (csize X n) kk U -> (forall m, node t m -> below t n m -> M m = None) ->
    let M' m := if (m =? n)%nat then Some (qf U kk) else M m in
    tdist (tval X r) (tval (insm M' X) r) <=
      (rsum (csize X n) (fun k => gm X r n W [k] [k]) - rsum kk (fun c => rsum (csize X n) (fun i => rsum (csize X n) (fun j => U i c * U j c * gm X r n W [i] [j])))) +
      tdist (tval X r) (tval (insm M X) r).
  Proof.
    intros Hn Ha NE HW HU HM M'. set (Y := insm M X). set (Y' := insm M' X). set (K := csize X n).
    assert (OY : tb_ok Y r) by (apply insm_ok; auto). assert (TY : ttree Y = t) by auto.
    assert (SY : forall m, node t m -> shape (core Y m) = shape (core X m)) by (intros; apply insm_shape; auto).
    assert (HWY : exists W', fact Y r n W').
    { clear - OY H2 Hn Ha TY SY O. assert (AY : active Y n = true) by (rewrite (ss_active X Y); auto). rewrite <- TY in Hn. clear SY Ha. revert n Hn AY. 
      assert (TT : rooted_tree (ttree Y) r) by apply OY.
      apply (tree_down_ind (ttree Y) r TT (fun n => active Y n = true -> exists W', fact Y r n W')).
      - intros _. eexists. apply fact_root.
      - intros p c IH He Hc. destruct IH as (W & HW); [apply (ok_internal Y r OY); [apply He|apply (int_of_edge Y r OY p c He)]|].
        destruct (children_split Y p c He) as (cs1 & cs2 & Hch & _). exists (wstep Y p c cs1 cs2 W). apply (fact_step Y r OY); auto. }
    destruct HWY as (W' & HW').
    assert (EX : exts Y r = exts X r) by (apply (ss_exts X Y); auto; apply T).
    assert (CY : csize Y n = K) by (apply (ss_csize X Y r O); auto).
    assert (EN : exts Y n = [K]) by (rewrite <- CY; apply (exts_n Y r OY); auto; rewrite (ss_active X Y); auto).
    assert (VY : forall is k, tval Y n is [k] = tval X n is [k]).
    { intros is k. apply (tval_same_below X Y r n V TY Hn). intros m Hm Hb. unfold Y. rewrite insm_core by auto. rewrite HM; auto. }
    assert (VY' : forall is k, tval Y' n is [k] = rsum K (fun l => tval X n is [l] * qf U kk l k)).
    { intros is k. unfold Y'. rewrite (insm_tval X r O M' M (qf U kk) n is k Hn NE Ha).
      - apply rsum_ext_R. intros l _. change (tval (insm M X) n is [l]) with (tval Y n is [l]). rewrite VY. auto.
      - unfold M'. rewrite Nat.eqb_refl. auto.
      - apply HM; auto. apply below_refl.
      - intros m Hm Hb Hne. unfold M'. destruct (Nat.eqb_spec m n); [contradiction|auto]. }
    assert (OFF : off Y r n Y').
    { split; [apply insm_ok; auto|]. split; auto. split.
      - intros m Hm. unfold Y', Y. rewrite !insm_shape; auto.
      - intros m Hm Hb. unfold Y', Y. rewrite !insm_core by auto. unfold M'. destruct (Nat.eqb_spec m n) as [->|]; auto. exfalso. apply Hb. apply below_refl. }
    destruct HW' as (WL' & WV'). assert (Cco : co Y n = co X n) by reflexivity.
    assert (EY : forall is e, valid (exts X r) e -> tval Y r is e = rsum K (fun k => tval X n is [k] * W' [k] is e)).
    { intros is e He. rewrite (WV' Y); [|split; auto|rewrite EX; auto]. rewrite EN. cbn [bsum]. apply rsum_ext_R. intros k _. rewrite VY. auto. }
    assert (EY' : forall is e, valid (exts X r) e -> tval Y' r is e = rsum K (fun l => tval X n is [l] * rsum kk (fun c => U l c * dotp K (fun i => U i c) (fun i => W' [i] is e)))).
    { intros is e He. rewrite (WV' Y' OFF); [|rewrite EX; auto]. rewrite EN. cbn [bsum]. unfold dotp.
      transitivity (rsum K (fun k => rsum K (fun l => tval X n is [l] * (qf U kk l k * W' [k] is e)))).
      - apply rsum_ext_R. intros k _. rewrite VY', <- rsum_scal_r_R. apply rsum_ext_R. intros l _. ring.
      - rewrite LinAlg.rsum_swap_R. apply rsum_ext_R. intros l _. rewrite rsum_scal_l_R. f_equal. unfold qf.
        transitivity (rsum K (fun k => rsum kk (fun c => U l c * (U k c * W' [k] is e)))).
        + apply rsum_ext_R. intros k _. rewrite <- rsum_scal_r_R. apply rsum_ext_R. intros c _. ring.
        + rewrite LinAlg.rsum_swap_R. apply rsum_ext_R. intros c _. rewrite <- rsum_scal_l_R. auto. }
    assert (WL : forall k e, loc (co X n) (fun is => W [k] is e)) by (intros; apply HW).
    assert (WLY : forall k e, loc (co X n) (fun is => W' [k] is e)) by (intros; apply WL').
    (* the three terms *)
    assert (E1 : tdist (tval X r) (tval Y' r) = bsum (exts X r) (fun e => nu X n (fun is => rsum K (fun l =>
       (W [l] is e - rsum kk (fun c => U l c * dotp K (fun i => U i c) (fun i => W' [i] is e))) * (W [l] is e - rsum kk (fun c => U l c * dotp K (fun i => U i c) (fun i => W' [i] is e))))))).
    { unfold tdist. apply bsum_ext_R. intros e He. rewrite <- (iso_n n (fun l is => W [l] is e - rsum kk (fun c => U l c * dotp K (fun i => U i c) (fun i => W' [i] is e)))); auto.
      - apply bsum_ext_R. intros is _. rewrite EY' by auto. rewrite (sum_fact n W is e Hn Ha NE HW He). fold K. rewrite <- rsum_minus_R.
        rewrite (rsum_ext_R K _ (fun k => tval X n is [k] * (W [k] is e - rsum kk (fun c => U k c * dotp K (fun i => U i c) (fun i => W' [i] is e))))) by (intros; ring). auto.
      - intros l is is' HA. f_equal; [apply (WL l e is is' HA)|]. apply rsum_ext_R. intros c _. f_equal. unfold dotp. apply rsum_ext_R. intros i _. f_equal. apply (WLY i e is is' HA). }
    assert (E2 : tdist (tval X r) (tval Y r) = bsum (exts X r) (fun e => nu X n (fun is => rsum K (fun l => (W [l] is e - W' [l] is e) * (W [l] is e - W' [l] is e))))).
    { unfold tdist. apply bsum_ext_R. intros e He. unfold K. rewrite <- (iso_n n (fun l is => W [l] is e - W' [l] is e)); auto.
      - apply bsum_ext_R. intros is _. rewrite EY by auto. rewrite (sum_fact n W is e Hn Ha NE HW He). fold K. rewrite <- rsum_minus_R.
        rewrite (rsum_ext_R K _ (fun k => tval X n is [k] * (W [k] is e - W' [k] is e))) by (intros; ring). auto.
      - intros l is is' HA. f_equal; [apply (WL l e is is' HA)|apply (WLY l e is is' HA)]. }
    assert (E3 : rsum K (fun k => gm X r n W [k] [k]) - rsum kk (fun c => rsum K (fun i => rsum K (fun j => U i c * U j c * gm X r n W [i] [j]))) =
       bsum (exts X r) (fun e => nu X n (fun is => dotp K (fun i => W [i] is e) (fun i => W [i] is e) -
          rsum kk (fun c => dotp K (fun i => U i c) (fun i => W [i] is e) * dotp K (fun i => U i c) (fun i => W [i] is e))))).
    { assert (S1 : rsum K (fun k => gm X r n W [k] [k]) = bsum (exts X r) (fun e => nu X n (fun is => dotp K (fun i => W [i] is e) (fun i => W [i] is e)))).
      { unfold gm. rewrite <- bsum_rsum_exchange_R. apply bsum_ext_R. intros e _. unfold nu, dotp. rewrite part_rsum. auto. }
      assert (S3 : rsum kk (fun c => rsum K (fun i => rsum K (fun j => U i c * U j c * gm X r n W [i] [j]))) =
        bsum (exts X r) (fun e => nu X n (fun is => rsum kk (fun c => dotp K (fun i => U i c) (fun i => W [i] is e) * dotp K (fun i => U i c) (fun i => W [i] is e))))).
      { transitivity (rsum kk (fun c => bsum (exts X r) (fun e => nu X n (fun is => dotp K (fun i => U i c) (fun i => W [i] is e) * dotp K (fun i => U i c) (fun i => W [i] is e))))).
        - apply rsum_ext_R. intros c _.
          transitivity (rsum K (fun i => bsum (exts X r) (fun e => rsum K (fun j => U i c * U j c * nu X n (fun is => W [i] is e * W [j] is e))))).
          + apply rsum_ext_R. intros i _. rewrite bsum_rsum_exchange_R. apply rsum_ext_R. intros j _. unfold gm. rewrite bsum_scal_l_R. auto.
          + rewrite <- bsum_rsum_exchange_R. apply bsum_ext_R. intros e _. unfold nu.
            rewrite (part_ext (sz X) _ (tb_order X) _ (fun is => rsum K (fun i => rsum K (fun j => (U i c * U j c) * (W [i] is e * W [j] is e))))).
            * rewrite part_rsum. apply rsum_ext_R. intros i _. rewrite part_rsum. apply rsum_ext_R. intros j _. rewrite part_scal. auto.
            * intros is _. unfold dotp. rewrite <- rsum_scal_r_R. apply rsum_ext_R. intros i _. rewrite <- rsum_scal_l_R. apply rsum_ext_R. intros j _. ring.
            * apply repeat_length.
        - rewrite <- bsum_rsum_exchange_R. apply bsum_ext_R. intros e _. unfold nu. rewrite part_rsum. auto. }
      rewrite S1, S3. unfold Rminus. replace (- bsum (exts X r) (fun e => nu X n (fun is => rsum kk (fun c => dotp K (fun i => U i c) (fun i => W [i] is e) * dotp K (fun i => U i c) (fun i => W [i] is e)))))
        with ((-1) * bsum (exts X r) (fun e => nu X n (fun is => rsum kk (fun c => dotp K (fun i => U i c) (fun i => W [i] is e) * dotp K (fun i => U i c) (fun i => W [i] is e))))) by ring.
      rewrite <- bsum_scal_l_R. rewrite <- bsum_plus_R. apply bsum_ext_R. intros e _. unfold nu. rewrite <- part_scal, <- part_plus.
      apply (part_ext (sz X) _ (tb_order X)); [|apply repeat_length]. intros is _. ring. }
    fold K. rewrite E1, E2, E3. rewrite <- bsum_plus_R. apply bsum_le. intros e _. unfold nu. rewrite <- part_plus. apply (part_le (sz X) _ (tb_order X)); [|apply repeat_length].
    intros is _. apply (proj_ineq K kk U (fun i => W [i] is e) (fun i => W' [i] is e) HU).
  Qed.
End Err.
