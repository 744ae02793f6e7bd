(** parameter_gradient_eval_diag without matrices, at an internal node. *)
From Coq Require Import List Arith Lia Bool Sorted Ring Permutation.
From Verif.Base Require Import ListAux CRing Index.
From Verif.Model Require Import Utils Numpy FullTensor DimensionTree TreeBased TreeEval HsvdTree TreeGrad.
From Verif.Spec Require Import TensorSpec TreeSpec TreeTensorSpec GradSpec.
From Verif.Proofs Require Import NumpyP FullTensorP FunctionsP DimTreeP DimTreeP2 TreeTensorP TreeTensorP2 TreeTensorP3 EinsumP EinsumP2 TreeTensorP17 TreeTensorP18 TreeTensorP19 TreeGradP1 TreeGradP4 TreeGradP5 TreeGradP6 TreeGradP7 TreeGradP8 TreeGradP9 TreeGradP10.
Import ListNotations.

Section All.
  Context {R : Type} {CR : CRing R}.
  Add Ring Rrtg14 : rth.
  Local Open Scope cr_scope.
  Lemma outer_all (A B : nd R) : exists C, ft_outer_eval_diag A B [] [] true = Some C /\ shape C = shape A ++ shape B /\
    forall a b, length a = ndim A -> length b = ndim B -> get C (a ++ b) = get A a * get B b.
  Proof.
    unfold ft_outer_eval_diag, ft_tensordot_eval_diag. cbn [app forallb andb negb length Nat.eqb bind fst snd].
    rewrite <- seq_app. assert (En : nubn (seq 0 (ndim A + ndim B)) = seq 0 (ndim A + ndim B)).
    { rewrite <- (map_id (seq 0 _)) at 1. rewrite (nubn_fix (fun x => x)) by auto. apply filter_true. intros x _. apply Nat.eqb_refl. }
    rewrite En. rewrite (filter_true (fun i => negb (inb i [])) (seq 0 (ndim A + ndim B))) by auto.
    unfold np_einsum. rewrite <- seq_app, En. rewrite !seq_length, !Nat.eqb_refl. cbn [andb].
    assert (SA : map (lab_size A B (seq 0 (ndim A)) (seq (ndim A) (ndim B))) (seq 0 (ndim A)) = shape A).
    { transitivity (map (fun j => nth j (shape A) 0%nat) (seq 0 (length (shape A)))); [|apply map_seq_nth]. apply map_ext_in. intros x Hx. unfold lab_size. rewrite (proj2 (inb_spec x (seq 0 (ndim A))) Hx). apply in_seq in Hx. unfold ndim in *. rewrite index_of_seq by lia. f_equal. lia. }
    assert (SB : map (lab_size A B (seq 0 (ndim A)) (seq (ndim A) (ndim B))) (seq (ndim A) (ndim B)) = shape B).
    { apply nth_ext' with (d := 0%nat); [rewrite map_length, seq_length; auto|]. rewrite map_length, seq_length. intros x Hx. rewrite map_nth_in with (da := 0%nat) by (rewrite seq_length; auto). rewrite seq_nth by auto. unfold lab_size.
      rewrite (proj2 (inb_false _ _)) by (rewrite in_seq; lia). rewrite index_of_seq by lia. f_equal. lia. }
    rewrite (proj2 (nodupb_spec _)) by apply seq_NoDup. rewrite (proj2 (forallb_forall _ _)) by (intros x Hx; apply inb_spec; auto).
    rewrite SA, SB, !list_eqb_refl'. cbn [andb]. eexists. split; [reflexivity|]. cbn [shape get]. split.
    { rewrite seq_app, map_app, SA. cbn [Nat.add]. rewrite SB. auto. }
    intros a b La Lb. rewrite (filter_none (fun x => negb (inb x (seq 0 (ndim A + ndim B)))) (seq 0 (ndim A + ndim B))) by (intros x Hx; apply negb_false_iff, inb_spec; auto).
    cbn [map bsum]. f_equal; f_equal.
    - transitivity (map (fun j => nth j a 0%nat) (seq 0 (length a))); [|apply map_seq_nth]. rewrite La. apply map_ext_in. intros x Hx. apply in_seq in Hx. rewrite (proj2 (inb_spec x _)) by (apply in_seq; lia). rewrite index_of_seq by lia. rewrite app_nth1 by lia. f_equal. lia.
    - apply nth_ext' with (d := 0%nat); [rewrite map_length, seq_length; auto|]. rewrite map_length, seq_length. intros x Hx. rewrite map_nth_in with (da := 0%nat) by (rewrite seq_length; auto). rewrite seq_nth by auto.
      rewrite (proj2 (inb_spec _ _)) by (apply in_seq; lia). rewrite index_of_seq by lia. rewrite app_nth2 by lia. f_equal. lia.
  Qed.

  Lemma ofold_eye (h : nat -> nat) : forall L (acc : nd R),
    exists T, ofold (fun tmp c => ft_outer_eval_diag tmp (np_eye (h c)) [] [] true) L acc = Some T /\ shape T = shape acc ++ dup (map h L) /\
      forall x js ks, length x = ndim acc -> length js = length L -> length ks = length L -> get T (x ++ interleave js ks) = get acc x * (if list_eqb ks js then r1 else r0).
  Proof.
    induction L as [|c L IH]; intros acc.
    - exists acc. split; auto. cbn [map dup flat_map]. rewrite app_nil_r. split; auto. intros x js ks Lx Lj Lk. destruct js, ks; try discriminate. cbn [interleave combine flat_map list_eqb]. rewrite app_nil_r. ring.
    - cbn [ofold]. destruct (outer_all acc (np_eye (h c))) as (C & EC & SC & GC). rewrite EC. destruct (IH C) as (T & ET & ST & GT). exists T. split; auto. split.
      { rewrite ST, SC. cbn [np_eye shape map dup flat_map]. rewrite <- app_assoc. auto. }
      intros x js ks Lx Lj Lk. destruct js as [|j js]; [discriminate|]. destruct ks as [|k ks]; [discriminate|]. cbn [length] in Lj, Lk. unfold interleave. cbn [combine flat_map fst snd].
      rewrite app_assoc. fold (interleave js ks). rewrite GT; [|unfold ndim in *; rewrite SC, !app_length; cbn [np_eye shape length]; lia|lia|lia].
      rewrite GC by (auto; reflexivity). cbn [np_eye get nth list_eqb]. rewrite (Nat.eqb_sym j k). destruct (k =? j)%nat; cbn [andb]; [|ring]. destruct (list_eqb ks js); ring.
  Qed.
End All.

Section FinalN.
  Context {R : Type} {CR : CRing R}.
  Add Ring Rrtg15 : rth.
  Local Open Scope cr_scope.
  Variables (X : tbt R) (r q a : nat).
  Hypothesis O : tb_ok X r.
  Hypothesis Hq : (0 < q)%nat.
  Local Notation t := (ttree X).
  Local Notation D := (tb_order X).
  Local Notation own := (own_dims X a).
  Hypothesis Hlr : is_leaf t r = false.
  Hypothesis Ha : node t a.
  Hypothesis Hl : is_leaf t a = false.
  Hypothesis Hsz : forall mu, (mu < D)%nat -> ~ In mu own -> nth mu (tb_shape X) 0%nat = q.
  Hypothesis Hsib : siblings_above t a.
  Local Notation cs := (children t a).
  Local Notation ia := (fun c => negb (active X c)).
  Let Hac : active X a = true := ok_internal X r O a Ha Hl.

  Definition outN (db : list (option (nd R))) : option (nd R) :=
    let act := act_of X cs in
    let inact := inact_of X cs in
    let* tmp := ofold (fun tmp c => ft_outer_eval_diag tmp (np_eye (nth (chpos t c) (shape (core X a)) 0%nat)) [] [] true) inact (ones1 q) in
    match act, inact with
    | _ :: _, [] => diag_acc db act
    | _ :: _, _ :: _ => let* out := diag_acc db act in ft_outer_eval_diag out tmp [0%nat] [0%nat] false
    | [], _ :: _ => Some tmp
    | [], [] => None
    end.

  Lemma il_len (x y : list nat) : length x = length y -> length (interleave x y) = (2 * length x)%nat.
  Proof. revert y. induction x as [|i x IH]; intros [|j y] L; cbn [length] in *; try lia; [reflexivity|]. unfold interleave in *. cbn [combine flat_map app length]. rewrite IH by lia. lia. Qed.
  Lemma dup_len (x : list nat) : length (dup x) = (2 * length x)%nat.
  Proof. induction x as [|i x IH]; auto. unfold dup in *. cbn [flat_map app length]. rewrite IH. lia. Qed.

  Lemma outN_ok db : (forall c, edge t a c -> active X c = true -> is_diag X q c (nth (c - 1) db None)) ->
    exists out, outN db = Some out /\ shape out = q :: map (csize X) (act_of X cs) ++ dup (map (csize X) (inact_of X cs)) /\
      forall i ks js, (i < q)%nat -> valid (heads X a) ks -> length js = length own -> get out (i :: fsel (active X) cs ks ++ interleave js (fsel ia cs ks)) =
        lprod (combine (act_of X cs) (fsel (active X) cs ks)) (fun p => tval X (fst p) (repeat i D) [snd p]) * (if list_eqb (fsel ia cs ks) js then r1 else r0).
  Proof.
    intros Hdb. pose proof (proj1 O) as V.
    assert (Eed : forall c, In c cs -> edge t a c) by (intros c Hc; apply (kids_edge X); auto).
    assert (Lo : length own = length (inact_of X cs)) by (unfold own_dims, own_leaves; rewrite Hl, map_length; auto). rewrite Lo.
    assert (Hnil : act_of X cs = [] -> inact_of X cs = [] -> False).
    { intros E1 E2. apply (leaf_kids X r O a Ha Hl). destruct cs as [|c l] eqn:Ec; auto. exfalso. unfold act_of, inact_of in E1, E2. cbn [filter] in E1, E2. destruct (active X c); discriminate. }
    destruct (ofold_eye (fun c => nth (chpos t c) (shape (core X a)) 0%nat) (inact_of X cs) (ones1 q)) as (tmp & Et & St & Gt).
    assert (Ez : map (fun c => nth (chpos t c) (shape (core X a)) 0%nat) (inact_of X cs) = map (csize X) (inact_of X cs)).
    { apply map_ext_in. intros c Hc. apply filter_In in Hc. destruct Hc as [Hc _]. rewrite <- (csize_nth X r O a c (Eed c Hc)). f_equal. apply (child_index X r O a c (Eed c Hc)). }
    rewrite Ez in St. cbn [ones1 shape app] in St. unfold outN. rewrite Et. cbn [bind].
    assert (Gt' : forall i ks js, length ks = length cs -> length js = length (inact_of X cs) -> get tmp (i :: interleave js (fsel ia cs ks)) = if list_eqb (fsel ia cs ks) js then r1 else r0).
    { intros i ks js Lk Lj. pose proof (Gt [i] js (fsel ia cs ks) eq_refl Lj) as G. cbn [app] in G. rewrite G by (apply fsel_length; auto). change (get (ones1 q) [i]) with (r1 : R). ring. }
    assert (Hka : forall ks, valid (heads X a) ks -> length ks = length cs) by (intros ks Hv; rewrite (heads_internal X r O a Ha Hl) in Hv; rewrite (valid_length _ _ Hv), map_length; auto).
    destruct (act_of X cs) as [|c0 l0] eqn:EL.
    - destruct (inact_of X cs) as [|c1 l1] eqn:EM; [destruct (Hnil eq_refl eq_refl)|]. rewrite <- EM in *. exists tmp. split; auto. split; auto.
      intros i ks js Hi Hv Lj. assert (E0 : fsel (active X) cs ks = []).
      { apply length_zero_iff_nil. rewrite fsel_length by auto. fold (act_of X cs). rewrite EL. auto. }
      rewrite E0. cbn [app combine lprod]. rewrite Gt' by auto. ring.
    - rewrite <- EL in *. destruct (diag_acc_ok X r q O db (act_of X cs) a) as (A & EA & SA & GA).
      { intros c Hc. apply filter_In in Hc. destruct Hc as [Hc1 Hc2]. split; auto. }
      { rewrite EL. discriminate. }
      assert (GA' : forall i ks, (i < q)%nat -> valid (heads X a) ks -> get A (i :: fsel (active X) cs ks) = lprod (combine (act_of X cs) (fsel (active X) cs ks)) (fun p => tval X (fst p) (repeat i D) [snd p])).
      { intros i ks Hi Hv. apply GA; auto.
        - apply fsel_valid. rewrite <- (heads_internal X r O a Ha Hl). auto.
        - intros c mu Hc Hmu. apply filter_In in Hc. destruct Hc as [Hc _]. apply (in_dims t r V c mu (proj1 (proj2 (Eed c Hc)))) in Hmu. apply nth_rep. apply Hmu. }
      rewrite EA. cbn [bind]. destruct (inact_of X cs) as [|c1 l1] eqn:EM.
      + exists A. split; auto. cbn [map dup flat_map]. rewrite app_nil_r. split; auto. intros i ks js Hi Hv Lj. assert (E0 : fsel ia cs ks = []).
        { apply length_zero_iff_nil. rewrite fsel_length by auto. fold (inact_of X cs). rewrite EM. auto. }
        destruct js; [|discriminate Lj]. rewrite E0. cbn [interleave combine flat_map list_eqb]. rewrite app_nil_r. rewrite GA' by auto. ring.
      + rewrite <- EM in *. destruct (outer_gen A tmp q _ _ SA St) as (C & EC & SC & GC). exists C. split; auto. split; auto.
        intros i ks js Hi Hv Lj. assert (Lf : length (fsel ia cs ks) = length (inact_of X cs)) by (apply fsel_length; auto).
        rewrite GC; [|rewrite map_length; apply fsel_length; auto|rewrite il_len, dup_len, map_length by lia; lia]. rewrite GA', Gt' by auto. reflexivity.
  Qed.

  Hypothesis Hroot : a = r -> (exists c, edge t r c /\ active X c = true) \/ (forall mu, (mu < D)%nat -> nth mu (tb_shape X) 0%nat = q).

  Lemma gradN_internal : a <> r ->
    exists G, tb_param_grad X a None = Some G /\
      shape G = q :: sel 0%nat (heads X a) (kid_axes X a true) ++ dup (sel 0%nat (heads X a) (kid_axes X a false)) ++ exts X a ++ exts X r /\
      forall Y i js e, differs_at X Y r a -> (i < q)%nat -> length js = length own -> valid (exts X r) e ->
        tval Y r (put own js (repeat i D)) e = bsum (heads X a) (fun ks => bsum (exts X a) (fun k =>
          get G (i :: sel 0%nat ks (kid_axes X a true) ++ interleave js (sel 0%nat ks (kid_axes X a false)) ++ k ++ e) * get (core Y a) (ks ++ k))).
  Proof.
    intros NE. pose proof (proj1 O) as V. pose proof (proj1 V) as T.
    destruct (grad_parts X r q a O Hq Ha Hac Hsz Hsib Hlr Hroot) as (db & da & A & E1 & E2 & E3 & E4 & E5 & E6). destruct (E5 NE) as (A' & EA' & SA & GA). inversion EA'; subst A'. clear EA'.
    destruct (outN_ok db E6) as (out & EO & SO & GO).
    unfold tb_param_grad. rewrite E1. cbn [bind]. rewrite E2. cbn [bind]. rewrite E3. cbn [bind]. rewrite E4. rewrite Hl.
    unfold outN in EO. cbv zeta in EO. cbv zeta. rewrite EO. cbn [bind]. rewrite (root_eq t r T). rewrite (proj2 (Nat.eqb_neq a r) NE).
    assert (Ex : exts X a = [csize X a]) by (destruct (rt_has_parent t r T a Ha NE) as (p & Hp); apply (child_exts X r O p a Hp Hac)).
    destruct (outer_gen out A q _ _ SO SA) as (G & EG & SG & GG). exists G. split; auto. destruct (heads_sel X r a O Ha Hl) as [Hh1 Hh2]. rewrite <- Hh1, <- Hh2, Ex. split; [rewrite SG, <- app_assoc; auto|].
    intros Y i js e HY Hi Lj He.
    assert (Lo : length own = length (inact_of X cs)) by (unfold own_dims, own_leaves; rewrite Hl, map_length; auto).
    rewrite (GA Y i (put own js (repeat i D)) e (y_below X r a Y HY) Hi).
    - rewrite (rsum_ext (csize X a) _ (fun k => bsum (heads X a) (fun ks => get G (i :: sel 0%nat ks (kid_axes X a true) ++ interleave js (sel 0%nat ks (kid_axes X a false)) ++ [k] ++ e) * get (core Y a) (ks ++ [k])))).
      2:{ intros k Hk. rewrite (val_at X r q a O Hq Ha Y HY Hl i js [k] Hi Lj). rewrite <- bsum_scal_r. apply bsum_ext. intros ks Hks.
        assert (Lk : length ks = length cs) by (rewrite (heads_internal X r O a Ha Hl) in Hks; rewrite (valid_length _ _ Hks), map_length; auto).
        assert (Lf : length (fsel ia cs ks) = length (inact_of X cs)) by (apply fsel_length; auto).
        rewrite axes_true, axes_false by auto. rewrite app_assoc.
        rewrite GG; [rewrite GO by auto; cbn [app]; ring| |].
        - rewrite !app_length, map_length, fsel_length by auto. rewrite il_len, dup_len, map_length by lia. unfold act_of. lia.
        - cbn [app length]. rewrite (valid_length _ _ He). auto. }
      rewrite <- bsum_rsum_exchange. reflexivity.
    - intros mu Hmu Hnd. rewrite put_nth_out; [apply nth_rep; auto|]. intros K. apply Hnd. apply (own_dims_below X r a O Ha mu K).
    - auto.
  Qed.

  Lemma gradN_root : a = r ->
    exists G, tb_param_grad X a None = Some G /\
      shape G = q :: sel 0%nat (heads X a) (kid_axes X a true) ++ dup (sel 0%nat (heads X a) (kid_axes X a false)) /\
      forall Y i js e, differs_at X Y r a -> (i < q)%nat -> length js = length own -> valid (exts X r) e ->
        tval Y r (put own js (repeat i D)) e = bsum (heads X a) (fun ks =>
          get G (i :: sel 0%nat ks (kid_axes X a true) ++ interleave js (sel 0%nat ks (kid_axes X a false))) * get (core Y a) (ks ++ e)).
  Proof.
    intros Ear. pose proof (proj1 O) as V. pose proof (proj1 V) as T.
    destruct (grad_parts X r q a O Hq Ha Hac Hsz Hsib Hlr Hroot) as (db & da & A & E1 & E2 & E3 & E4 & E5 & E6).
    destruct (outN_ok db E6) as (out & EO & SO & GO).
    unfold tb_param_grad. rewrite E1. cbn [bind]. rewrite E2. cbn [bind]. rewrite E3. cbn [bind]. rewrite E4. rewrite Hl.
    unfold outN in EO. cbv zeta in EO. cbv zeta. rewrite EO. cbn [bind]. rewrite (root_eq t r T). rewrite (proj2 (Nat.eqb_eq a r) Ear).
    exists out. split; auto. destruct (heads_sel X r a O Ha Hl) as [Hh1 Hh2]. rewrite <- Hh1, <- Hh2. split; auto.
    intros Y i js e HY Hi Lj He.
    replace (tval Y r) with (tval Y a) by (rewrite Ear; auto). rewrite (val_at X r q a O Hq Ha Y HY Hl i js e Hi Lj). apply bsum_ext. intros ks Hks.
    assert (Lk : length ks = length cs) by (rewrite (heads_internal X r O a Ha Hl) in Hks; rewrite (valid_length _ _ Hks), map_length; auto).
    rewrite axes_true, axes_false by auto. rewrite GO by auto. ring.
  Qed.
End FinalN.

Section RootPublic.
  Context {R : Type} {CR : CRing R}.
  Local Open Scope cr_scope.
  Lemma no_siblings_root (X : tbt R) r : tb_ok X r -> siblings_above (ttree X) r.
  Proof.
    intros O p c He [k Hk]. exfalso. pose proof (proj1 (proj1 O)) as T. inversion Hk as [|p' c' k' Hp He' ]; subst; [apply (rt_no_edge _ _ T p He)|apply (rt_no_edge _ _ T p' He')].
  Qed.
  Lemma root_public (X : tbt R) r q Ms : tb_ok X r -> (0 < q)%nat -> is_leaf (ttree X) r = false ->
  (exists c, edge (ttree X) r c /\ active X c = true) \/ (forall mu, (mu < tb_order X)%nat -> nth mu (tb_shape X) 0%nat = q) ->
  (forall mu, (mu < tb_order X)%nat -> ~ In mu (own_dims X r) -> nth mu (tb_shape X) 0%nat = q) ->
  (forall d, In d (own_dims X r) -> shape (nth d Ms (scalar r0)) = [q; nth d (tb_shape X) 0%nat]) ->
  exists G, tb_param_grad X r (Some Ms) = Some G /\
    shape G = q :: sel 0%nat (heads X r) (kid_axes X r true) ++ sel 0%nat (heads X r) (kid_axes X r false) /\
    forall Y i e, differs_at X Y r r -> (i < q)%nat -> valid (exts X r) e ->
      diag_with Y r r (fun d => nth d Ms (scalar r0)) i e = bsum (heads X r) (fun ks =>
        get G (i :: sel 0%nat ks (kid_axes X r true) ++ sel 0%nat ks (kid_axes X r false)) * get (core Y r) (ks ++ e)).
  Proof.
    intros O Hq Hlr Hrt Hsz HM.
    exact (grad_root X r q r O Hq Hlr (rt_root _ _ (proj1 (proj1 O))) (proj1 (proj2 (proj2 O))) Hsz (no_siblings_root X r O) Ms HM (fun _ => Hrt) eq_refl).
  Qed.
  Lemma rootN_public (X : tbt R) r q : tb_ok X r -> (0 < q)%nat -> is_leaf (ttree X) r = false ->
  (exists c, edge (ttree X) r c /\ active X c = true) \/ (forall mu, (mu < tb_order X)%nat -> nth mu (tb_shape X) 0%nat = q) ->
  (forall mu, (mu < tb_order X)%nat -> ~ In mu (own_dims X r) -> nth mu (tb_shape X) 0%nat = q) ->
  exists G, tb_param_grad X r None = Some G /\
    shape G = q :: sel 0%nat (heads X r) (kid_axes X r true) ++ dup (sel 0%nat (heads X r) (kid_axes X r false)) /\
    forall Y i js e, differs_at X Y r r -> (i < q)%nat -> length js = length (own_dims X r) -> valid (exts X r) e ->
      tval Y r (put (own_dims X r) js (repeat i (tb_order X))) e = bsum (heads X r) (fun ks =>
        get G (i :: sel 0%nat ks (kid_axes X r true) ++ interleave js (sel 0%nat ks (kid_axes X r false))) * get (core Y r) (ks ++ e)).
  Proof.
    intros O Hq Hlr Hrt Hsz.
    exact (gradN_root X r q r O Hq Hlr (rt_root _ _ (proj1 (proj1 O))) Hlr Hsz (no_siblings_root X r O) (fun _ => Hrt) eq_refl).
  Qed.
End RootPublic.

(** every child has a sibling: decision *)
Definition sibb (t : dtree) : bool :=
  forallb (fun p => forallb (fun c => negb (adj t p c) || existsb (fun c' => adj t p c' && negb (c' =? c)) (nodes t)) (nodes t)) (nodes t).
Lemma sibb_ok t : sibb t = true -> forall p c, edge t p c -> exists c', edge t p c' /\ c' <> c.
Proof.
  intros H p c (Hp & Hc & He). unfold sibb in H. rewrite forallb_forall in H. specialize (H p (proj2 (in_nodes t p) Hp)). rewrite forallb_forall in H. specialize (H c (proj2 (in_nodes t c) Hc)).
  rewrite He in H. cbn [negb orb] in H. apply existsb_exists in H. destruct H as (c' & Hc' & H). apply andb_prop in H. destruct H as [H1 H2]. apply negb_true_iff, Nat.eqb_neq in H2.
  exists c'. split; auto. split; auto. split; auto. apply in_nodes. auto.
Qed.
(** a tree in which node 2 is the only child of the root: 1 -> 2 -> 3, 4 *)
Definition chain_tree : dtree := DT 4 [3; 4] (fun p c => ((p =? 1) && (c =? 2)) || ((p =? 2) && ((c =? 3) || (c =? 4)))).
Lemma chain_edge p c : edge chain_tree p c <-> (p = 1 /\ c = 2) \/ (p = 2 /\ (c = 3 \/ c = 4)).
Proof.
  unfold edge, node, chain_tree. cbn [nbn adj]. rewrite orb_true_iff, !andb_true_iff, orb_true_iff, !Nat.eqb_eq. lia.
Qed.
Lemma chain_V : dim_tree chain_tree 1.
Proof.
  assert (E : forall p c, (p = 1 /\ c = 2) \/ (p = 2 /\ (c = 3 \/ c = 4)) -> edge chain_tree p c) by (intros p c; apply chain_edge).
  assert (D2 : depth chain_tree 1 2 1) by (apply (depth_child chain_tree 1 1 2 0); [apply depth_root|apply E; lia]).
  split; [split; [|split; [|split]]|split].
  - cbv. lia.
  - intros p H. apply chain_edge in H. lia.
  - intros c Hc NE. assert (c = 2 \/ c = 3 \/ c = 4) as [->|K] by (cbv in Hc; lia).
    + exists 1. split; [apply E; lia|]. intros p H. apply chain_edge in H. lia.
    + exists 2. split; [apply E; lia|]. intros p H. apply chain_edge in H. lia.
  - intros c Hc. assert (c = 1 \/ c = 2 \/ c = 3 \/ c = 4) as [->|[->|K]] by (cbv in Hc; lia).
    + exists 0. apply depth_root.
    + exists 1. auto.
    + exists 2. apply (depth_child chain_tree 1 2 c 1); auto.
  - repeat constructor; simpl; lia.
  - intros n. cbn [d2i chain_tree In]. split.
    + intros H. split; [cbv; lia|]. intros c K. apply chain_edge in K. lia.
    + intros [H K]. assert (n = 1 \/ n = 2 \/ n = 3 \/ n = 4) as [->|[->|H']] by (cbv in H; lia); [|  |lia].
      * exfalso. apply (K 2). apply E. lia.
      * exfalso. apply (K 3). apply E. lia.
Qed.
