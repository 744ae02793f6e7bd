(** parameter_gradient_eval_diag with matrices: the statements. *)
From Coq Require Import List Arith Lia Bool Sorted Ring Permutation.
From Verif.Base Require Import ListAux CRing Index.
From Verif.Model Require Import Utils Numpy FullTensor DimensionTree TreeBased TreeEval HsvdTree TreeGrad.
From Verif.Spec Require Import TensorSpec TreeSpec TreeTensorSpec GradSpec.
From Verif.Proofs Require Import NumpyP FullTensorP FunctionsP DimTreeP DimTreeP2 TreeTensorP TreeTensorP2 TreeTensorP3 TreeTensorP17 TreeTensorP18 TreeTensorP19 TreeGradP1 TreeGradP4 TreeGradP5 TreeGradP6 TreeGradP7 TreeGradP8 TreeGradP9.
Import ListNotations.

Lemma fsel_ext g g' cs ks : (forall c, g c = g' c) -> fsel g cs ks = fsel g' cs ks.
Proof. intros H. unfold fsel. f_equal. apply filter_ext. intros [c k]. apply H. Qed.

Section Final.
  Context {R : Type} {CR : CRing R}.
  Add Ring Rrtg13 : rth.
  Local Open Scope cr_scope.
  Variables (X : tbt R) (r q a : nat).
  Hypothesis O : tb_ok X r.
  Hypothesis Hq : (0 < q)%nat.
  Local Notation t := (ttree X).
  Local Notation D := (tb_order X).
  Local Notation own := (own_dims X a).
  Hypothesis Hlr : is_leaf t r = false.
  Hypothesis Ha : node t a.
  Hypothesis Hac : active X a = true.
  Hypothesis Hsz : forall mu, (mu < D)%nat -> ~ In mu own -> nth mu (tb_shape X) 0%nat = q.
  Hypothesis Hsib : siblings_above t a.
  Variable Ms : list (nd R).
  Local Notation Mat := (fun d => nth d Ms (scalar r0)).
  Hypothesis HM : forall d, In d own -> shape (Mat d) = [q; nth d (tb_shape X) 0%nat].
  Local Notation cs := (children t a).
  Local Notation ia := (fun c => negb (active X c)).

  Lemma axes_true ks : length ks = length cs -> sel 0%nat ks (kid_axes X a true) = fsel (active X) cs ks.
  Proof. intros L. unfold kid_axes. rewrite (fsel_sel (fun c => Bool.eqb (active X c) true) cs ks L). apply fsel_ext. intros c. destruct (active X c); auto. Qed.
  Lemma axes_false ks : length ks = length cs -> sel 0%nat ks (kid_axes X a false) = fsel ia cs ks.
  Proof. intros L. unfold kid_axes. rewrite (fsel_sel (fun c => Bool.eqb (active X c) false) cs ks L). apply fsel_ext. intros c. destruct (active X c); auto. Qed.

  Definition outT (db : list (option (nd R))) : option (nd R) :=
    let act := act_of X cs in
    let inact := inact_of X cs in
    let* tmp := ofold (fun tmp c => ft_outer_eval_diag tmp (Mat (index_of c (d2i t))) [0%nat] [0%nat] false) inact (ones1 q) in
    match act, inact with
    | _ :: _, [] => diag_acc db act
    | _ :: _, _ :: _ => let* out := diag_acc db act in ft_outer_eval_diag out tmp [0%nat] [0%nat] false
    | [], _ :: _ => Some tmp
    | [], [] => None
    end.

  Lemma out_ok db : is_leaf t a = false -> (forall c, edge t a c -> active X c = true -> is_diag X q c (nth (c - 1) db None)) ->
    exists out, outT db = Some out /\ shape out = q :: map (csize X) (act_of X cs) ++ map (csize X) (inact_of X cs) /\
      forall i ks, (i < q)%nat -> valid (heads X a) ks -> get out (i :: fsel (active X) cs ks ++ fsel ia cs ks) =
        lprod (combine (act_of X cs) (fsel (active X) cs ks)) (fun p => tval X (fst p) (repeat i D) [snd p]) *
        lprod (combine (inact_of X cs) (fsel ia cs ks)) (fun p => get (Mat (index_of (fst p) (d2i t))) [i; snd p]).
  Proof.
    intros Hl Hdb. pose proof (proj1 O) as V.
    assert (Eed : forall c, In c cs -> edge t a c) by (intros c Hc; apply (kids_edge X); auto).
    assert (Hnil : act_of X cs = [] -> inact_of X cs = [] -> False).
    { intros E1 E2. apply (leaf_kids X r O a Ha Hl). destruct cs as [|c l] eqn:Ec; auto. exfalso. unfold act_of, inact_of in E1, E2. cbn [filter] in E1, E2. destruct (active X c); discriminate. }
    destruct (ofold_outer (fun c => Mat (index_of c (d2i t))) (csize X) q (inact_of X cs) (ones1 q) []) as (tmp & Et & St & Gt).
    { intros c Hc. assert (Hco : In c (own_leaves X a)) by (unfold own_leaves; rewrite Hl; auto). rewrite HM by (unfold own_dims; apply in_map_iff; exists c; auto).
      destruct (own_leaf X r a O Ha c Hco) as (Hlc & _). rewrite (tb_shape_leaf X c Hlc). apply filter_In in Hc. destruct Hc as [_ Hc]. apply negb_true_iff in Hc. unfold csize. rewrite Hc. auto. }
    { reflexivity. }
    cbn [app] in St. unfold outT. rewrite Et. cbn [bind].
    assert (Gt' : forall i ks, length ks = length cs -> get tmp (i :: fsel ia cs ks) = lprod (combine (inact_of X cs) (fsel ia cs ks)) (fun p => get (Mat (index_of (fst p) (d2i t))) [i; snd p])).
    { intros i ks Lk. pose proof (Gt i [] (fsel ia cs ks) eq_refl) as G. cbn [app] in G. rewrite G by (apply fsel_length; auto). change (get (ones1 q) [i]) with (r1 : R). ring. }
    assert (Hka : forall ks, valid (heads X a) ks -> length ks = length cs) by (intros ks Hv; rewrite (heads_internal X r O a Ha Hl) in Hv; rewrite (valid_length _ _ Hv), map_length; auto).
    destruct (act_of X cs) as [|c0 l0] eqn:EL.
    - destruct (inact_of X cs) as [|c1 l1] eqn:EM; [destruct (Hnil eq_refl eq_refl)|]. rewrite <- EM in *. exists tmp. split; auto. split; auto.
      intros i ks Hi Hv. assert (E0 : fsel (active X) cs ks = []).
      { apply length_zero_iff_nil. rewrite fsel_length by auto. fold (act_of X cs). rewrite EL. auto. }
      rewrite E0. cbn [app combine lprod]. rewrite Gt' by auto. ring.
    - rewrite <- EL in *. destruct (diag_acc_ok X r q O db (act_of X cs) a) as (A & EA & SA & GA).
      { intros c Hc. apply filter_In in Hc. destruct Hc as [Hc1 Hc2]. split; auto. }
      { rewrite EL. discriminate. }
      assert (GA' : forall i ks, (i < q)%nat -> valid (heads X a) ks -> get A (i :: fsel (active X) cs ks) = lprod (combine (act_of X cs) (fsel (active X) cs ks)) (fun p => tval X (fst p) (repeat i D) [snd p])).
      { intros i ks Hi Hv. apply GA; auto.
        - apply fsel_valid. rewrite <- (heads_internal X r O a Ha Hl). auto.
        - intros c mu Hc Hmu. apply filter_In in Hc. destruct Hc as [Hc _]. apply (in_dims t r V c mu (proj1 (proj2 (Eed c Hc)))) in Hmu. apply nth_rep. apply Hmu. }
      rewrite EA. cbn [bind]. destruct (inact_of X cs) as [|c1 l1] eqn:EM.
      + exists A. split; auto. cbn [map]. rewrite app_nil_r. split; auto. intros i ks Hi Hv. assert (E0 : fsel ia cs ks = []).
        { apply length_zero_iff_nil. rewrite fsel_length by auto. fold (inact_of X cs). rewrite EM. auto. }
        rewrite E0, app_nil_r. cbn [combine lprod]. rewrite GA' by auto. ring.
      + rewrite <- EM in *. destruct (outer_gen A tmp q _ _ SA St) as (C & EC & SC & GC). exists C. split; auto. split; auto.
        intros i ks Hi Hv. rewrite GC by (rewrite map_length; apply fsel_length; auto). rewrite GA', Gt' by auto. reflexivity.
  Qed.

  Hypothesis Hroot : a = r -> (exists c, edge t r c /\ active X c = true) \/ (forall mu, (mu < D)%nat -> nth mu (tb_shape X) 0%nat = q).

  Lemma heads_sel : is_leaf t a = false -> map (csize X) (act_of X cs) = sel 0%nat (heads X a) (kid_axes X a true) /\ map (csize X) (inact_of X cs) = sel 0%nat (heads X a) (kid_axes X a false).
  Proof.
    intros Hl. rewrite (heads_internal X r O a Ha Hl). rewrite axes_true, axes_false by (rewrite map_length; auto). rewrite !fsel_map. auto.
  Qed.

  (** internal node *)
  Lemma grad_internal : is_leaf t a = false -> a <> r ->
    exists G, tb_param_grad X a (Some Ms) = Some G /\
      shape G = q :: sel 0%nat (heads X a) (kid_axes X a true) ++ sel 0%nat (heads X a) (kid_axes X a false) ++ exts X a ++ exts X r /\
      forall Y i e, differs_at X Y r a -> (i < q)%nat -> valid (exts X r) e ->
        diag_with Y r a Mat i e = bsum (heads X a) (fun ks => bsum (exts X a) (fun k =>
          get G (i :: sel 0%nat ks (kid_axes X a true) ++ sel 0%nat ks (kid_axes X a false) ++ k ++ e) * get (core Y a) (ks ++ k))).
  Proof.
    intros Hl NE. pose proof (proj1 O) as V. pose proof (proj1 V) as T.
    destruct (grad_parts X r q a O Hq Ha Hac Hsz Hsib Hlr Hroot) as (db & da & A & E1 & E2 & E3 & E4 & E5 & E6). destruct (E5 NE) as (A' & EA' & SA & GA). inversion EA'; subst A'. clear EA'.
    destruct (out_ok db Hl E6) as (out & EO & SO & GO).
    unfold tb_param_grad. rewrite E1. cbn [bind]. rewrite E2. cbn [bind]. rewrite E3. cbn [bind]. rewrite E4. rewrite Hl.
    unfold outT in EO. cbv zeta in EO. cbv zeta. rewrite EO. cbn [bind]. rewrite (root_eq t r T). rewrite (proj2 (Nat.eqb_neq a r) NE).
    assert (Ex : exts X a = [csize X a]) by (destruct (rt_has_parent t r T a Ha NE) as (p & Hp); apply (child_exts X r O p a Hp Hac)).
    destruct (outer_gen out A q _ _ SO SA) as (G & EG & SG & GG). exists G. split; auto. destruct (heads_sel Hl) as [Hh1 Hh2]. rewrite <- Hh1, <- Hh2, Ex. split; [rewrite SG, <- app_assoc; auto|].
    intros Y i e HY Hi He. unfold diag_with. rewrite (y_own X r a Ha Y HY). rewrite (y_own_sizes X r a O Ha Hac Y HY). rewrite (y_order X r a Y HY).
    rewrite (bsum_ext (map (tb_size X) (own_leaves X a)) _ (fun js => rsum (csize X a) (fun k => get A (i :: k :: e) * (lprod (combine own js) (fun p => get (Mat (fst p)) [i; snd p]) * tval Y a (put own js (repeat i D)) [k])))).
    2:{ intros js Hjs. rewrite (GA Y i (put own js (repeat i D)) e (y_below X r a Y HY) Hi).
        - rewrite <- rsum_scal_l. apply rsum_ext. intros k Hk. ring.
        - intros mu Hmu Hnd. rewrite put_nth_out; [apply nth_rep; auto|]. intros K. apply Hnd. apply (own_dims_below X r a O Ha mu K).
        - auto. }
    rewrite bsum_rsum_exchange.
    rewrite (rsum_ext (csize X a) _ (fun k => bsum (heads X a) (fun ks => get G (i :: sel 0%nat ks (kid_axes X a true) ++ sel 0%nat ks (kid_axes X a false) ++ [k] ++ e) * get (core Y a) (ks ++ [k])))).
    2:{ intros k Hk. rewrite bsum_scal_l. rewrite (val_mat X r q a O Hq Ha Ms Y HY Hl i [k] Hi). rewrite <- bsum_scal_l. apply bsum_ext. intros ks Hks.
        assert (Lk : length ks = length cs) by (rewrite (heads_internal X r O a Ha Hl) in Hks; rewrite (valid_length _ _ Hks), map_length; auto).
        rewrite axes_true, axes_false by auto. rewrite app_assoc.
        rewrite GG; [rewrite GO by auto; cbn [app]; ring| |].
        - rewrite !app_length, !map_length, !fsel_length by auto. auto.
        - cbn [app length]. rewrite (valid_length _ _ He). auto. }
    rewrite <- bsum_rsum_exchange. reflexivity.
  Qed.

  (** the root *)
  Lemma grad_root : a = r ->
    exists G, tb_param_grad X a (Some Ms) = Some G /\
      shape G = q :: sel 0%nat (heads X a) (kid_axes X a true) ++ sel 0%nat (heads X a) (kid_axes X a false) /\
      forall Y i e, differs_at X Y r a -> (i < q)%nat -> valid (exts X r) e ->
        diag_with Y r a Mat i e = bsum (heads X a) (fun ks =>
          get G (i :: sel 0%nat ks (kid_axes X a true) ++ sel 0%nat ks (kid_axes X a false)) * get (core Y a) (ks ++ e)).
  Proof.
    intros Ear. assert (Hl : is_leaf t a = false) by (rewrite Ear; auto). pose proof (proj1 O) as V. pose proof (proj1 V) as T.
    destruct (grad_parts X r q a O Hq Ha Hac Hsz Hsib Hlr Hroot) as (db & da & A & E1 & E2 & E3 & E4 & E5 & E6).
    destruct (out_ok db Hl E6) as (out & EO & SO & GO).
    unfold tb_param_grad. rewrite E1. cbn [bind]. rewrite E2. cbn [bind]. rewrite E3. cbn [bind]. rewrite E4. rewrite Hl.
    unfold outT in EO. cbv zeta in EO. cbv zeta. rewrite EO. cbn [bind]. rewrite (root_eq t r T). rewrite (proj2 (Nat.eqb_eq a r) Ear).
    exists out. split; auto. destruct (heads_sel Hl) as [Hh1 Hh2]. rewrite <- Hh1, <- Hh2. split; auto.
    intros Y i e HY Hi He. unfold diag_with. rewrite (y_own X r a Ha Y HY). rewrite (y_own_sizes X r a O Ha Hac Y HY). rewrite (y_order X r a Y HY).
    replace (tval Y r) with (tval Y a) by (rewrite Ear; auto). rewrite (val_mat X r q a O Hq Ha Ms Y HY Hl i e Hi). apply bsum_ext. intros ks Hks.
    assert (Lk : length ks = length cs) by (rewrite (heads_internal X r O a Ha Hl) in Hks; rewrite (valid_length _ _ Hks), map_length; auto).
    rewrite axes_true, axes_false by auto. rewrite GO by auto. ring.
  Qed.

  (** a leaf *)
  Lemma grad_leaf : is_leaf t a = true ->
    exists G, tb_param_grad X a (Some Ms) = Some G /\
      shape G = q :: heads X a ++ exts X a ++ exts X r /\
      forall Y i e, differs_at X Y r a -> (i < q)%nat -> valid (exts X r) e ->
        diag_with Y r a Mat i e = bsum (heads X a) (fun ks => bsum (exts X a) (fun k => get G (i :: ks ++ k ++ e) * get (core Y a) (ks ++ k))).
  Proof.
    intros Hl. assert (NE : a <> r) by congruence. pose proof (proj1 O) as V. pose proof (proj1 V) as T.
    destruct (grad_parts X r q a O Hq Ha Hac Hsz Hsib Hlr Hroot) as (db & da & A & E1 & E2 & E3 & E4 & E5 & E6). destruct (E5 NE) as (A' & EA' & SA & GA). inversion EA'; subst A'. clear EA'.
    assert (El : own_leaves X a = [a]) by (unfold own_leaves; rewrite Hl; auto). assert (Eo : own = [index_of a (d2i t)]) by (unfold own_dims; rewrite El; auto).
    set (d := index_of a (d2i t)) in *.
    assert (SM : shape (Mat d) = [q; tb_size X a]) by (rewrite HM by (rewrite Eo; simpl; auto); unfold d; rewrite (tb_shape_leaf X a Hl); auto).
    assert (Hh : heads X a = [tb_size X a]) by (rewrite (heads_leaf X r O a Hl Hac); unfold tb_size; rewrite Hac; auto).
    assert (Ex : exts X a = [csize X a]) by (destruct (rt_has_parent t r T a Ha NE) as (p & Hp); apply (child_exts X r O p a Hp Hac)).
    unfold tb_param_grad. rewrite E1. cbn [bind]. rewrite E2. cbn [bind]. rewrite E3. cbn [bind]. rewrite E4. rewrite Hl. fold d.
    destruct (outer_gen (ones1 q) (Mat d) q [] [tb_size X a] eq_refl SM) as (U & EU & SU & GU). rewrite EU. cbn [bind]. rewrite (root_eq t r T). rewrite (proj2 (Nat.eqb_neq a r) NE).
    destruct (outer_gen U A q _ _ SU SA) as (G & EG & SG & GG). exists G. split; auto. rewrite Hh, Ex. split; [rewrite SG; auto|].
    intros Y i e HY Hi He. unfold diag_with. rewrite (y_own X r a Ha Y HY). rewrite (y_own_sizes X r a O Ha Hac Y HY). rewrite (y_order X r a Y HY). rewrite El. cbn [map].
    cbn [bsum]. apply rsum_ext. intros j Hj. rewrite Eo. cbn [combine lprod fst snd].
    rewrite (GA Y i (put [d] [j] (repeat i D)) e (y_below X r a Y HY) Hi).
    - rewrite <- rsum_scal_l. apply rsum_ext. intros k Hk. rewrite (tval_leaf Y r) by (try (exact (proj1 (proj1 HY))); rewrite ?(proj1 (proj2 HY)); auto; rewrite (y_active X r a Y HY a Ha); auto).
      rewrite (proj1 (proj2 HY)). fold d.
      assert (Ej : nth d (put [d] [j] (repeat i D)) 0%nat = j).
      { apply (put_nth_in [d] [j] (repeat i D) 0); auto; [constructor; [intros []|constructor]|]. cbn [nth]. rewrite repeat_length. apply (own_D X r a O Ha). rewrite Eo. simpl. auto. }
      rewrite Ej. change (i :: [j] ++ [k] ++ e) with (i :: [j] ++ (k :: e)). rewrite GG; [|auto|cbn [length]; rewrite (valid_length _ _ He); auto].
      pose proof (GU i [] [j] eq_refl eq_refl) as G1. cbn [app] in G1. rewrite G1. change (get (ones1 q) [i]) with (r1 : R). cbn [app]. ring.
    - intros mu Hmu Hnd. rewrite put_nth_out; [apply nth_rep; auto|]. rewrite <- Eo. intros K. apply Hnd. apply (own_dims_below X r a O Ha mu K).
    - auto.
  Qed.
End Final.
