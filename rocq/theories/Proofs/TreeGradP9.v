(** parameter_gradient_eval_diag with matrices: the value. *)
From Coq Require Import List Arith Lia Bool Sorted Ring Permutation.
From Verif.Base Require Import ListAux CRing Index.
From Verif.Model Require Import Utils Numpy FullTensor DimensionTree TreeBased TreeEval HsvdTree TreeGrad.
From Verif.Spec Require Import TensorSpec TreeSpec TreeTensorSpec GradSpec.
From Verif.Proofs Require Import NumpyP FullTensorP FunctionsP DimTreeP DimTreeP2 TreeTensorP TreeTensorP2 TreeTensorP3 TreeTensorP17 TreeTensorP18 TreeTensorP19 TreeGradP1 TreeGradP4 TreeGradP5 TreeGradP6 TreeGradP7 TreeGradP8.
Import ListNotations.

Section Outs.
  Context {R : Type} {CR : CRing R}.
  Add Ring Rrtg11 : rth.
  Local Open Scope cr_scope.
  Lemma ofold_outer (F : nat -> nd R) (h : nat -> nat) q : forall L acc s, (forall c, In c L -> shape (F c) = [q; h c]) -> shape acc = q :: s ->
    exists T, ofold (fun tmp c => ft_outer_eval_diag tmp (F c) [0%nat] [0%nat] false) L acc = Some T /\ shape T = q :: s ++ map h L /\
      forall i x ks, length x = length s -> length ks = length L -> get T (i :: x ++ ks) = get acc (i :: x) * lprod (combine L ks) (fun p => get (F (fst p)) [i; snd p]).
  Proof.
    induction L as [|c L IH]; intros acc s HF Hs.
    - exists acc. split; auto. cbn [map]. rewrite app_nil_r. split; auto. intros i x ks Lx Lk. destruct ks; [|discriminate Lk]. cbn [combine lprod]. rewrite app_nil_r. ring.
    - cbn [ofold]. destruct (outer_gen acc (F c) q s [h c] Hs) as (C & EC & SC & GC); [apply HF; simpl; auto|]. rewrite EC.
      destruct (IH C (s ++ [h c])) as (T & ET & ST & GT); [intros c' Hc'; apply HF; simpl; auto|auto|]. exists T. split; auto. split; [rewrite ST, <- app_assoc; auto|].
      intros i x ks Lx Lk. destruct ks as [|k ks]; [discriminate Lk|]. cbn [length] in Lk. cbn [combine lprod fst snd].
      replace (x ++ k :: ks) with ((x ++ [k]) ++ ks) by (rewrite <- app_assoc; auto). rewrite GT by (rewrite ?app_length; cbn [length]; lia).
      pose proof (GC i x [k] Lx eq_refl) as G. rewrite G. ring.
  Qed.
  Lemma lprod_combine_map (f : nat -> nat) (u : nat -> nat -> R) : forall L js,
    lprod (combine (map f L) js) (fun p => u (fst p) (snd p)) = lprod (combine L js) (fun p => u (f (fst p)) (snd p)).
  Proof. induction L as [|c L IH]; intros [|j js]; auto. cbn [map combine lprod fst snd]. rewrite IH. auto. Qed.
  Lemma list_eqb_refl' l : list_eqb l l = true.
  Proof. apply list_eqb_spec. auto. Qed.
End Outs.

Section Value.
  Context {R : Type} {CR : CRing R}.
  Add Ring Rrtg12 : rth.
  Local Open Scope cr_scope.
  Variables (X : tbt R) (r q a : nat).
  Hypothesis O : tb_ok X r.
  Hypothesis Hq : (0 < q)%nat.
  Local Notation t := (ttree X).
  Local Notation D := (tb_order X).
  Local Notation own := (own_dims X a).
  Hypothesis Ha : node t a.
  Hypothesis Hac : active X a = true.
  Variable Ms : list (nd R).
  Local Notation Mat := (fun d => nth d Ms (scalar r0)).
  Hypothesis HM : forall d, In d own -> shape (Mat d) = [q; nth d (tb_shape X) 0%nat].

  Lemma own_D d : In d own -> (d < D)%nat.
  Proof.
    intros Hd. unfold own_dims in Hd. apply in_map_iff in Hd. destruct Hd as (c & <- & Hc). destruct (own_leaf X r a O Ha c Hc) as (Hl & _). apply index_of_nth. apply inb_spec. exact Hl.
  Qed.
  Lemma own_NoDup : NoDup own.
  Proof.
    unfold own_dims. apply pos_inj.
    - unfold own_leaves. destruct (is_leaf t a); [constructor; [intros []|constructor]|]. apply NoDup_filter, NoDup_children.
    - intros c Hc. destruct (own_leaf X r a O Ha c Hc) as (Hl & _). apply inb_spec. exact Hl.
  Qed.
  Lemma own_dims_below d : In d own -> In d (dims t a).
  Proof.
    intros Hd. unfold own_dims in Hd. apply in_map_iff in Hd. destruct Hd as (c & <- & Hc). destruct (own_leaf X r a O Ha c Hc) as (Hl & Hn & Hc').
    assert (K : In (index_of c (d2i t)) (dims t c)) by (rewrite (dims_leaf t r (proj1 O) c Hl); simpl; auto).
    destruct Hc' as [->|[He _]]; auto. apply (in_dims_child X r O a c); auto. apply (p_internal X r O a c He).
  Qed.

  Section WithY.
    Variable Y : tbt R.
    Hypothesis HY : differs_at X Y r a.
    Let OY : tb_ok Y r := proj1 HY.
    Let ET : ttree Y = t := proj1 (proj2 HY).
    Lemma y_active n : node t n -> active Y n = active X n.
    Proof.
      intros Hn. assert (HY' := HY); destruct HY' as (_ & _ & HS & HC). unfold active, activec, ft_storage, np_size. change (nthc (cores Y) n) with (core Y n). change (nthc (cores X) n) with (core X n).
      destruct (Nat.eq_dec n a) as [->|NE]; [rewrite HS; auto|rewrite HC; auto].
    Qed.
    Lemma y_below : differs_below X Y r a.
    Proof. assert (HY' := HY); destruct HY' as (H1 & H2 & _ & H3). split; auto. split; auto. intros m Hm Hb. apply H3; auto. intros ->. apply Hb. apply below_refl. Qed.
    Lemma y_own_leaves : own_leaves Y a = own_leaves X a.
    Proof.
      unfold own_leaves. rewrite ET. destruct (is_leaf t a); auto. apply filter_ext_in. intros c Hc. rewrite y_active; auto. apply (kids_edge X a c Ha) in Hc. apply Hc.
    Qed.
    Lemma y_own : own_dims Y a = own.
    Proof. unfold own_dims. rewrite y_own_leaves, ET. auto. Qed.
    Lemma y_csize c : edge t a c -> csize Y c = csize X c.
    Proof. intros He. rewrite <- (csize_nth X r O a c He). rewrite <- (csize_nth Y r OY a c) by (rewrite ET; auto). rewrite ET. assert (HY' := HY); destruct HY' as (_ & _ & HS & _). rewrite HS. auto. Qed.
    Lemma y_size c : In c (own_leaves X a) -> tb_size Y c = tb_size X c.
    Proof.
      intros Hc. destruct (own_leaf X r a O Ha c Hc) as (Hl & Hn & [->|[He Hci]]).
      - unfold tb_size. rewrite y_active by auto. rewrite Hac. assert (HY' := HY); destruct HY' as (_ & _ & HS & _). rewrite HS. auto.
      - pose proof (y_csize c He) as K. unfold csize in K. rewrite y_active in K by auto. rewrite Hci in K. auto.
    Qed.
    Lemma y_own_sizes : map (fun d => nth d (tb_shape Y) 0%nat) own = map (tb_size X) (own_leaves X a).
    Proof.
      unfold own_dims. rewrite map_map. apply map_ext_in. intros c Hc. rewrite <- (y_size c Hc). destruct (own_leaf X r a O Ha c Hc) as (Hl & _).
      rewrite <- (tb_shape_leaf Y c) by (rewrite ET; auto). rewrite ET. auto.
    Qed.
    Lemma y_order : tb_order Y = D.
    Proof. unfold tb_order. rewrite ET. auto. Qed.
    Lemma y_child c is e : edge t a c -> tval Y c is e = tval X c is e.
    Proof.
      intros He. apply (tval_same_below X Y r c (proj1 O) ET); [apply He|]. intros m Hm Hb. assert (HY' := HY); destruct HY' as (_ & _ & _ & HC). apply HC; auto. intros ->. apply (edge_not_below X r q O Hq a c He Hb).
    Qed.

    Hypothesis Hl : is_leaf t a = false.
    Local Notation cs := (children t a).
    Local Notation ia := (fun c => negb (active X c)).
    (** the value of node a at an index that is diagonal outside the own dimensions *)
    Lemma val_at i js e : (i < q)%nat -> length js = length own ->
      tval Y a (put own js (repeat i D)) e = bsum (heads X a) (fun ks => get (core Y a) (ks ++ e) *
        (lprod (combine (act_of X cs) (fsel (active X) cs ks)) (fun p => tval X (fst p) (repeat i D) [snd p]) * (if list_eqb (fsel ia cs ks) js then r1 else r0))).
    Proof.
      intros Hi Lj. pose proof (proj1 O) as V. pose proof (proj1 V) as T. set (is := put own js (repeat i D)).
      assert (Eed : forall c, In c cs -> edge t a c) by (intros c Hc; apply (kids_edge X); auto).
      rewrite (node_kval Y r OY a is e) by (rewrite ET; auto). rewrite ET. unfold kval. rewrite (heads_internal X r O a Ha Hl).
      rewrite (map_ext_in (csize Y) (csize X)) by (intros c Hc; apply y_csize; auto). apply bsum_ext. intros ks Hks.
      assert (Lk : length ks = length cs) by (rewrite (valid_length _ _ Hks), map_length; auto). f_equal.
      rewrite (lprod_fsel (active X) cs ks _ Lk). f_equal.
      - apply lprod_ext. intros [c k] Hp. apply in_combine_l in Hp. apply filter_In in Hp. destruct Hp as [Hc Hca]. cbn [fst snd]. rewrite y_child by auto.
        apply (tval_local X r V c); [apply (Eed c Hc)|]. intros mu Hmu. unfold is. apply put_nth_out.
        assert (Hcn : node t c) by apply (Eed c Hc). apply (own_off X r a O Ha c mu Hcn Hca); auto. apply (edge_not_below X r q O Hq a c (Eed c Hc)).
      - assert (Eown : own = map (fun c => index_of c (d2i t)) (filter ia cs)) by (unfold own_dims, own_leaves; rewrite Hl; auto).
        assert (Lo : length (filter ia cs) = length own) by (rewrite Eown, map_length; auto).
        rewrite (lprod_ext _ _ (fun p => if (snd p =? nth (index_of (fst p) (d2i t)) is 0%nat)%nat then r1 else r0)).
        + apply (lprod_delta (filter ia cs) (fsel ia cs ks) js (fun c _ => nth (index_of c (d2i t)) is 0%nat)); [apply fsel_length; auto|lia|].
          intros m Hm. unfold is. assert (Em : index_of (nth m (filter ia cs) 0%nat) (d2i t) = nth m own 0%nat) by (rewrite Eown, map_nth_in with (da := 0%nat) by auto; auto). rewrite Em.
          apply put_nth_in; [apply own_NoDup|lia|auto|]. rewrite repeat_length. apply own_D. apply nth_In. lia.
        + intros [c k] Hp. apply in_combine_l in Hp. apply filter_In in Hp. destruct Hp as [Hc Hca]. apply negb_true_iff in Hca. cbn [fst snd]. rewrite y_child by auto.
          apply (inactive_val X r O c is); auto; [apply (child_inactive X r O a c (Eed c Hc) Hca)|]. intros mu Hmu. rewrite (dims_leaf t r V c (child_inactive X r O a c (Eed c Hc) Hca)) in Hmu. destruct Hmu as [<-|[]]. auto.
    Qed.
    (** summed against the matrices *)
    Lemma val_mat i e : (i < q)%nat ->
      bsum (map (tb_size X) (own_leaves X a)) (fun js => lprod (combine own js) (fun p => get (Mat (fst p)) [i; snd p]) * tval Y a (put own js (repeat i D)) e) =
      bsum (heads X a) (fun ks => get (core Y a) (ks ++ e) *
        (lprod (combine (act_of X cs) (fsel (active X) cs ks)) (fun p => tval X (fst p) (repeat i D) [snd p]) *
         lprod (combine (inact_of X cs) (fsel ia cs ks)) (fun p => get (Mat (index_of (fst p) (d2i t))) [i; snd p]))).
    Proof.
      intros Hi. assert (Eo : own_leaves X a = filter ia cs) by (unfold own_leaves; rewrite Hl; auto). rewrite Eo.
      assert (Lo : length own = length (filter ia cs)) by (unfold own_dims; rewrite Eo, map_length; auto).
      assert (Ecz : forall c, In c (filter ia cs) -> tb_size X c = csize X c) by (intros c Hc; apply filter_In in Hc; destruct Hc as [_ Hc]; apply negb_true_iff in Hc; unfold csize; rewrite Hc; auto).
      rewrite (map_ext_in (tb_size X) (csize X)) by auto.
      rewrite (bsum_ext (map (csize X) (filter ia cs)) _ (fun js => bsum (heads X a) (fun ks => lprod (combine own js) (fun p => get (Mat (fst p)) [i; snd p]) * (get (core Y a) (ks ++ e) *
        (lprod (combine (act_of X cs) (fsel (active X) cs ks)) (fun p => tval X (fst p) (repeat i D) [snd p]) * (if list_eqb (fsel ia cs ks) js then r1 else r0)))))).
      2:{ intros js Hjs. rewrite (val_at i js e Hi) by (rewrite (valid_length _ _ Hjs), map_length; lia). symmetry. apply bsum_scal_l. }
      rewrite bsum_exchange. apply bsum_ext. intros ks Hks. rewrite (heads_internal X r O a Ha Hl) in Hks.
      assert (Lk : length ks = length cs) by (rewrite (valid_length _ _ Hks), map_length; auto).
      rewrite (bsum_single (map (csize X) (filter ia cs)) (fsel ia cs ks)).
      - rewrite list_eqb_refl'. unfold own_dims. rewrite Eo.
        rewrite (lprod_combine_map (fun c => index_of c (d2i t)) (fun d j => get (nth d Ms (scalar r0)) [i; j])). unfold inact_of. ring.
      - apply fsel_valid. auto.
      - intros js Hjs NE. destruct (list_eqb (fsel ia cs ks) js) eqn:E; [apply list_eqb_spec in E; congruence|]. ring.
    Qed.
  End WithY.
End Value.
