(** The Gramians of an orthonormal tree-based tensor: factorisation of the tensor at a node. *)
From Coq Require Import List Arith Lia Bool Reals Lra Permutation.
From Verif.Base Require Import ListAux CRing Index RealAux.
From Verif.Model Require Import Sorting Numpy FullTensor Diagonal Canonical DimensionTree TreeBased Truncator HSVD HsvdTree.
From Verif.Spec Require Import TensorSpec TreeSpec TreeTensorSpec TruncatorSpec.
From Verif.Proofs Require Import NumpyP FullTensorP FullTensorP4 DimTreeP TreeTensorP TreeTensorP2 TreeTensorP3 TreeTensorP4 TreeTensorP12 TreeTensorP13 TreeTensorP14 TreeTensorP29 PolyP5 HsvdP2 HsvdP7 HsvdP9 HsvdTreeP1.
Import ListNotations.
Local Open Scope R_scope.

Definition del (a b : list nat) : R := if list_eqb a b then 1 else 0.
Lemma del_eq a : del a a = 1.
Proof. unfold del. rewrite (proj2 (list_eqb_spec a a)); auto. Qed.
Lemma del_ne a b : a <> b -> del a b = 0.
Proof. intros H. unfold del. destruct (list_eqb a b) eqn:E; auto. apply list_eqb_spec in E. contradiction. Qed.
Lemma bsum_del_l s k (f : list nat -> R) : valid s k -> bsum s (fun l => del k l * f l) = f k.
Proof. intros Hv. rewrite (bsum_single s k); auto; [rewrite del_eq; rcbn; ring|]. intros l _ NE. rewrite del_ne by auto. rcbn. ring. Qed.
Lemma bsum_del_r s k (f : list nat -> R) : valid s k -> bsum s (fun l => del l k * f l) = f k.
Proof. intros Hv. rewrite (bsum_single s k); auto; [rewrite del_eq; rcbn; ring|]. intros l _ NE. rewrite del_ne by auto. rcbn. ring. Qed.
Lemma del_mid a b a' b' : length a = length a' -> del (a ++ 0%nat :: b) (a' ++ 0%nat :: b') = del (a ++ b) (a' ++ b').
Proof.
  intros L. unfold del. destruct (list_eqb (a ++ b) (a' ++ b')) eqn:E.
  - apply list_eqb_spec in E. apply TreeTensorP29.app_inj_len in E; auto. destruct E as [-> ->]. rewrite (proj2 (list_eqb_spec _ _)); auto.
  - destruct (list_eqb (a ++ 0%nat :: b) (a' ++ 0%nat :: b')) eqn:E'; auto. apply list_eqb_spec in E'. apply TreeTensorP29.app_inj_len in E'; auto. destruct E' as [-> Q]. inversion Q. subst.
    rewrite (proj2 (list_eqb_spec _ _)) in E by auto. discriminate.
Qed.

Section GramMath.
  Variables (X : tbt R) (r : nat).
  Hypothesis O : tb_ok X r.
  Hypothesis H2 : (2 <= tb_order X)%nat.
  Hypothesis HO : forall n, node (ttree X) n -> active X n = true -> n <> r -> orth_cols (core X n).
  Local Notation t := (ttree X).
  Let V : dim_tree t r := proj1 O.
  Let T : rooted_tree t r := proj1 V.
  Definition NN := tb_order X.
  Definition sz (d : nat) := nth d (tb_shape X) 0%nat.
  Definition zN := repeat 0%nat (tb_order X).
  Lemma shape_sz : tb_shape X = map sz (seq 0 (tb_order X)).
  Proof. unfold sz. symmetry. assert (L : length (tb_shape X) = tb_order X) by (apply tb_shape_length). rewrite <- L. apply (sel_seq 0%nat). Qed.
  Let Ms := map (fun n => np_eye (R := R) n) (tb_shape X).
  Let LMs : length Ms = tb_order X.
  Proof. unfold Ms. rewrite map_length. apply tb_shape_length. Qed.
  Lemma Ms_delta d i j : (d < tb_order X)%nat -> get (nth d Ms (scalar r0)) [i; j] = if (i =? j)%nat then 1 else 0.
  Proof. intros Hd. unfold Ms. rewrite (eye_nth X d) by auto. reflexivity. Qed.
  Definition Tp (p : nat) (ks is : list nat) : R := lprod (combine (children t p) ks) (fun q => tval X (fst q) is [snd q]).
  Lemma tree_orth p ks ls : node t p -> is_leaf t p = false -> valid (heads X p) ks -> valid (heads X p) ls ->
    part sz (dims t p) (fun is => Tp p ks is * Tp p ls is) zN = del ks ls.
  Proof.
    intros Hp Hl Hk Hl'. pose proof (heads_internal X r O p Hp Hl) as Eh. rewrite Eh in Hk, Hl'.
    assert (HC : forall c, In c (children t p) -> edge t p c) by (intros c Hc; apply in_children; auto).
    assert (E := psum_children X X r Ms O eq_refl eq_refl H2 LMs (children t p) ks ls).
    specialize (E (fun c Hc => proj1 (proj2 (HC c Hc)))).
    specialize (E (eq_trans (valid_length _ _ Hk) (map_length _ _)) (eq_trans (valid_length _ _ Hl') (map_length _ _)) (children_disjoint X X r Ms O p Hp)).
    assert (E2 := lprod_eye X (children t p) ks ls Hk Hl').
    assert (E3 : lprod (combine (children t p) (combine ks ls)) (fun p0 => gram X X Ms (fst p0) [fst (snd p0)] [snd (snd p0)]) = del ks ls).
    { apply E2. intros c k l Hc Hk' Hl2. apply (gram_delta X r O H2 HO); auto; [apply (HC c Hc)|apply (edge_ne t r T p c (HC c Hc))]. }
    rewrite <- E3. rewrite <- (dims_internal t r V p Hp Hl) in E. etransitivity; [|exact E]. symmetry. apply (psum_delta sz (dims t p)).
    intros d i j Hd _ _. apply Ms_delta. apply (in_dims t r V p d Hp) in Hd. tauto.
  Qed.
  Lemma node_orth n k l : node t n -> n <> r -> (k < csize X n)%nat -> (l < csize X n)%nat ->
    part sz (dims t n) (fun is => tval X n is [k] * tval X n is [l]) zN = if (k =? l)%nat then 1 else 0.
  Proof.
    intros Hn NE Hk Hl. etransitivity; [|exact (gram_delta X r O H2 HO n Hn NE k l Hk Hl)]. unfold gram. symmetry. apply (psum_delta sz (dims t n)).
    intros d i j Hd _ _. apply Ms_delta. apply (in_dims t r V n d Hn) in Hd. tauto.
  Qed.
  Lemma NoDup_dims' n : node t n -> NoDup (dims t n).
  Proof. apply (NoDup_dims t r V). Qed.
  Lemma dims_N n : node t n -> Forall (fun d => (d < tb_order X)%nat) (dims t n).
  Proof. apply (dims_lt X r O). Qed.
  Lemma loc_tval n e : node t n -> loc (dims t n) (fun is => tval X n is e).
  Proof. intros Hn is is' H. apply (tval_local X r V n Hn). exact H. Qed.
  Lemma loc_Tp p ks : node t p -> is_leaf t p = false -> loc (dims t p) (Tp p ks).
  Proof.
    intros Hp Hl is is' H. unfold Tp. apply lprod_ext. intros [c k] Hc. apply in_combine_l in Hc. cbn [fst snd]. apply in_children in Hc; auto.
    apply (loc_tval c); [apply Hc|]. intros d Hd. apply H. rewrite (dims_internal t r V p Hp Hl). apply in_flat_map. exists c. split; auto. apply in_children; auto.
  Qed.
  Definition co (n : nat) := cpl (tb_order X) (dims t n).
  Lemma in_co n d : node t n -> In d (co n) <-> (d < tb_order X)%nat /\ ~ In d (dims t n).
  Proof. intros Hn. apply (in_cpl sz). Qed.
  (** tensors with the same cores outside the sub-tree of n *)
  Definition off (n : nat) (Y : tbt R) : Prop := tb_ok Y r /\ ttree Y = t /\ (forall m, node t m -> shape (core Y m) = shape (core X m)) /\
    (forall m, node t m -> ~ below t n m -> core Y m = core X m).
  Definition fact (n : nat) (W : list nat -> list nat -> list nat -> R) : Prop :=
    (forall e' e, loc (co n) (fun is => W e' is e)) /\
    forall Y, off n Y -> forall is e, valid (exts X r) e -> tval Y r is e = bsum (exts X n) (fun e' => tval Y n is e' * W e' is e).
  Lemma fact_root : fact r (fun e' _ e => del e' e).
  Proof.
    split; [intros e' e is is' _; auto|]. intros Y _ is e He. rewrite (bsum_ext_R _ _ (fun e' => del e' e * tval Y r is e')) by (intros; ring). symmetry. apply bsum_del_r. auto.
  Qed.
  Definition wstep (p n : nat) cs1 cs2 (W : list nat -> list nat -> list nat -> R) (e' is e : list nat) : R :=
    bsum (exts X p) (fun ep => W ep is e * ctx X p cs1 cs2 is ep (nth 0 e' 0%nat)).
  Lemma below_edge p n m : edge t p n -> below t n m -> below t p m.
  Proof. intros He H. apply below_step. right. exists n. auto. Qed.
  Lemma not_below_up p n : edge t p n -> ~ below t n p.
  Proof. intros He [d Hd]. pose proof (level_below t r T n p d (proj1 (proj2 He)) Hd). pose proof (level_edge t r T p n He). lia. Qed.
  Lemma off_up p n Y : edge t p n -> off n Y -> off p Y.
  Proof. intros He (A & B & C & D). split; auto. split; auto. split; auto. intros m Hm Hb. apply D; auto. intros Q. apply Hb. apply (below_edge p n m He Q). Qed.
  Lemma sib_ne p cs1 n cs2 x : edge t p n -> children t p = cs1 ++ n :: cs2 -> In x (cs1 ++ cs2) -> edge t p x /\ x <> n.
  Proof.
    intros He Hch Hx. split.
    - apply in_children; [apply He|]. rewrite Hch. apply in_app_iff in Hx. apply in_or_app. simpl. tauto.
    - pose proof (NoDup_children t p) as ND. rewrite Hch in ND. apply NoDup_remove_2 in ND. intros ->. contradiction.
  Qed.
  Lemma csize_shape Y m : tb_ok Y r -> ttree Y = t -> (forall m, node t m -> shape (core Y m) = shape (core X m)) -> node t m -> csize Y m = csize X m.
  Proof.
    intros OY HT HS Hm. unfold csize, tb_size. rewrite (active_shape_eq Y X m m) by auto. rewrite HS by auto. rewrite HT. destruct (active X m) eqn:Ha; auto.
    destruct (Nat.eq_dec m r) as [->|NE]; [rewrite (ok_root X r O) in Ha; discriminate|]. rewrite HS; auto. apply (parent_is_edge t r T m Hm NE).
  Qed.
  Lemma ctx_off p n cs1 cs2 Y is e k : edge t p n -> children t p = cs1 ++ n :: cs2 -> off n Y -> ctx Y p cs1 cs2 is e k = ctx X p cs1 cs2 is e k.
  Proof.
    intros He Hch (OY & HT & HS & HC).
    assert (Hm : forall cs, incl cs (cs1 ++ cs2) -> map (csize Y) cs = map (csize X) cs).
    { intros cs Hi. apply map_ext_in. intros x Hx. apply csize_shape; auto. apply (sib_ne p cs1 n cs2 x He Hch (Hi x Hx)). }
    assert (Hv : forall cs ks, incl cs (cs1 ++ cs2) -> lprod (combine cs ks) (fun q => tval Y (fst q) is [snd q]) = lprod (combine cs ks) (fun q => tval X (fst q) is [snd q])).
    { intros cs ks Hi. apply lprod_ext. intros [x y] Hx. apply in_combine_l in Hx. cbn [fst snd]. destruct (sib_ne p cs1 n cs2 x He Hch (Hi x Hx)) as [Hxe Hxn].
      apply (tval_same_below X Y r x V HT); [apply Hxe|]. intros m Hm' Hb. apply HC; auto. intros Q. apply Hxn. apply (siblings_disjoint t r T p x n m Hxe He Hb Q). }
    assert (I1 : incl cs1 (cs1 ++ cs2)) by (intros x Hx; apply in_or_app; auto). assert (I2 : incl cs2 (cs1 ++ cs2)) by (intros x Hx; apply in_or_app; auto).
    unfold ctx. rewrite !Hm by auto. apply bsum_ext_R. intros a _. apply bsum_ext_R. intros b _. rewrite !Hv by auto. rewrite HC; auto; [apply He|apply (not_below_up p n He)].
  Qed.
  Lemma int_of_edge p n : edge t p n -> is_leaf t p = false.
  Proof. intros He. destruct (is_leaf t p) eqn:E; auto. apply (leaf_iff t r V) in E. exfalso. apply (proj2 E n He). Qed.
  Lemma exts_n n : node t n -> active X n = true -> n <> r -> exts X n = [csize X n].
  Proof. intros Hn Ha NE. unfold csize. rewrite Ha. apply (ok_exts_rank X r O n Hn Ha NE). Qed.
  Lemma fact_step p n cs1 cs2 W : edge t p n -> active X n = true -> children t p = cs1 ++ n :: cs2 -> fact p W -> fact n (wstep p n cs1 cs2 W).
  Proof.
    intros He Ha Hch (WL & WV). assert (Hp : node t p) by apply He. assert (Hn : node t n) by apply He. pose proof (int_of_edge p n He) as Hl.
    assert (NE : n <> r) by (apply (edge_ne t r T p n He)). split.
    - intros e' e is is' HA. unfold wstep. apply bsum_ext_R. intros ep _. rewrite (WL ep e is is').
      2:{ intros d Hd. apply HA. apply (in_co p d Hp) in Hd. apply (in_co n d Hn). destruct Hd as [Q1 Q2]. split; auto. intros Q. apply Q2. apply (in_dims t r V n d Hn) in Q. apply (in_dims t r V p d Hp). destruct Q as [Q3 Q4]. split; auto. apply (below_edge p n _ He Q4). }
      f_equal. unfold ctx. apply bsum_ext_R. intros a _. apply bsum_ext_R. intros b _. f_equal.
      assert (Hv : forall cs ks, incl cs (cs1 ++ cs2) -> lprod (combine cs ks) (fun q => tval X (fst q) is [snd q]) = lprod (combine cs ks) (fun q => tval X (fst q) is' [snd q])).
      { intros cs ks Hi. apply lprod_ext. intros [x y] Hx. apply in_combine_l in Hx. cbn [fst snd]. destruct (sib_ne p cs1 n cs2 x He Hch (Hi x Hx)) as [Hxe Hxn].
        assert (Hxn' : node t x) by apply Hxe. apply (loc_tval x); auto. intros d Hd. apply HA. apply (in_co n d Hn). apply (in_dims t r V x d Hxn') in Hd. destruct Hd as [Q1 Q2]. split; auto.
        intros Q. apply (in_dims t r V n d Hn) in Q. apply Hxn. apply (siblings_disjoint t r T p x n _ Hxe He Q2 (proj2 Q)). }
      rewrite !Hv; auto; intros x Hx; apply in_or_app; auto.
    - intros Y HY is e Hv. pose proof (off_up p n Y He HY) as HYp. pose proof HY as (OY & HT & HS & HC). rewrite (WV Y HYp is e Hv). rewrite (exts_n n Hn Ha NE). cbn [bsum].
      transitivity (rsum (csize X n) (fun k => bsum (exts X p) (fun ep => tval Y n is [k] * (W ep is e * ctx X p cs1 cs2 is ep k)))).
      + rewrite <- bsum_rsum_exchange_R. apply bsum_ext_R. intros ep _. rewrite (tval_split Y r OY p n cs1 cs2) by (rewrite ?HT; auto).
        rewrite (csize_shape Y n OY HT HS Hn). rewrite <- rsum_scal_r_R. apply rsum_ext_R. intros k _. rewrite (ctx_off p n cs1 cs2 Y is ep k He Hch HY). rcbn. ring.
      + apply rsum_ext_R. intros k _. rewrite bsum_scal_l_R. unfold wstep. cbn [nth]. reflexivity.
  Qed.
  (** sums of products over the other components *)
  Definition nu (n : nat) (f : list nat -> R) : R := part sz (co n) f zN.
  Definition gm (n : nat) (W : list nat -> list nat -> list nat -> R) (a b : list nat) : R :=
    bsum (exts X r) (fun e => nu n (fun is => W a is e * W b is e)).
  Lemma gm_root a b : valid (exts X r) a -> valid (exts X r) b -> gm r (fun e' _ e => del e' e) a b = del a b.
  Proof.
    intros Ha Hb. unfold gm, nu. assert (Hr : node t r) by apply T.
    rewrite (bsum_ext_R _ _ (fun e => del a e * del b e)).
    - rewrite bsum_del_l by auto. unfold del. destruct (list_eqb a b) eqn:E, (list_eqb b a) eqn:E'; auto.
      + apply list_eqb_spec in E. subst. rewrite (proj2 (list_eqb_spec b b)) in E' by auto. discriminate.
      + apply list_eqb_spec in E'. subst. rewrite (proj2 (list_eqb_spec a a)) in E by auto. discriminate.
    - intros e _. assert (E : co r = []); [|rewrite E; auto]. unfold co, cpl. apply filter_none. intros d Hd. apply negb_false_iff, inb_spec. apply (in_dims t r V r d Hr). apply in_seq in Hd.
      assert (Hd' : (d < length (d2i t))%nat) by (unfold tb_order in Hd; lia). split; [exact Hd'|]. apply (rt_below t r T). apply (d2i_node t r V d). auto.
  Qed.
  Lemma gm_step p n cs1 cs2 W k l : edge t p n -> active X n = true -> children t p = cs1 ++ n :: cs2 -> fact p W ->
    (k < csize X n)%nat -> (l < csize X n)%nat ->
    gm n (wstep p n cs1 cs2 W) [k] [l] =
    bsum (map (csize X) cs1) (fun a => bsum (map (csize X) cs2) (fun b => bsum (exts X p) (fun e => bsum (exts X p) (fun e' =>
      get (core X p) (a ++ k :: b ++ e) * get (core X p) (a ++ l :: b ++ e') * gm p W e e')))).
  Proof.
    intros He Ha Hch (WL & WV) Hk Hl. assert (Hp : node t p) by apply He. assert (Hn : node t n) by apply He. pose proof (int_of_edge p n He) as Hlp.
    assert (NE : n <> r) by (apply (edge_ne t r T p n He)).
    set (ns := map (csize X) cs1 ++ map (csize X) cs2). set (q := length cs1).
    set (T' := fun (ks is : list nat) => Tp p (firstn q ks ++ 0%nat :: skipn q ks) is).
    set (c := fun (m : nat) (e : list nat) (ks is : list nat) => bsum (exts X p) (fun ep => W ep is e * get (core X p) (firstn q ks ++ m :: skipn q ks ++ ep))).
    assert (Eh : heads X p = map (csize X) cs1 ++ csize X n :: map (csize X) cs2) by (rewrite (heads_internal X r O p Hp Hlp), Hch, map_app; auto).
    assert (Vn : forall ks, valid ns ks -> exists a b, ks = a ++ b /\ valid (map (csize X) cs1) a /\ valid (map (csize X) cs2) b /\ firstn q ks = a /\ skipn q ks = b).
    { intros ks Hv. apply valid_app_inv in Hv. destruct Hv as (a & b & -> & Va & Vb). exists a, b. pose proof (valid_length _ _ Va) as La. rewrite map_length in La. unfold q. rewrite <- La.
      rewrite firstn_app, firstn_all, Nat.sub_diag, skipn_app, skipn_all, Nat.sub_diag. cbn [firstn skipn app]. rewrite app_nil_r. auto. }
    assert (TO : forall ks ls, valid ns ks -> valid ns ls -> part sz (dims t p) (fun is => T' ks is * T' ls is) zN = del ks ls).
    { intros ks ls Vk Vl. destruct (Vn ks Vk) as (a & b & -> & Va & Vb & E1 & E2). destruct (Vn ls Vl) as (a' & b' & -> & Va' & Vb' & E1' & E2').
      unfold T'. rewrite E1, E2, E1', E2'. rewrite tree_orth; auto.
      - apply del_mid. rewrite (valid_length _ _ Va), (valid_length _ _ Va'). auto.
      - rewrite Eh. apply valid_app; auto. constructor; auto. lia.
      - rewrite Eh. apply valid_app; auto. constructor; auto. lia. }
    assert (Lc : forall m e ks, loc (co p) (c m e ks)).
    { intros m e ks is is' HA. unfold c. apply bsum_ext_R. intros ep _. rewrite (WL ep e is is' HA). auto. }
    (* one factor *)
    assert (F1 : forall m e is, tval X n is [0%nat] * wstep p n cs1 cs2 W [m] is e = bsum ns (fun ks => T' ks is * c m e ks is)).
    { intros m e is. unfold wstep. cbn [nth]. rewrite <- bsum_scal_l_R.
      transitivity (bsum (exts X p) (fun ep => bsum ns (fun ks => T' ks is * (W ep is e * get (core X p) (firstn q ks ++ m :: skipn q ks ++ ep))))).
      - apply bsum_ext_R. intros ep _. unfold ctx, ns. rewrite bsum_app, <- !bsum_scal_l_R. apply bsum_ext_R. intros a Va. rewrite <- !bsum_scal_l_R. apply bsum_ext_R. intros b Vb.
        pose proof (valid_length _ _ Va) as La. rewrite map_length in La.
        assert (E1 : firstn q (a ++ b) = a) by (unfold q; rewrite <- La, firstn_app, firstn_all, Nat.sub_diag; cbn [firstn]; apply app_nil_r).
        assert (E2 : skipn q (a ++ b) = b) by (unfold q; rewrite <- La, skipn_app, skipn_all, Nat.sub_diag; auto).
        unfold T', Tp. rewrite E1, E2, Hch. rewrite combine_app by auto. rewrite lprod_app. cbn [combine lprod fst snd]. rcbn. ring.
      - rewrite bsum_exchange. apply bsum_ext_R. intros ks _. unfold c. rewrite <- bsum_scal_l_R. auto. }
    (* nu n as a full sum *)
    pose proof (fact_step p n cs1 cs2 W He Ha Hch (conj WL WV)) as (WnL & _).
    assert (F2 : forall e, nu n (fun is => wstep p n cs1 cs2 W [k] is e * wstep p n cs1 cs2 W [l] is e) =
       nu p (fun is => bsum ns (fun ks => c k e ks is * c l e ks is))).
    { intros e. unfold nu, co. rewrite <- (iso sz (tb_order X) (dims t p) (NoDup_dims' p Hp) (dims_N p Hp) ns T'); auto; try (intros; apply Lc).
      2:{ intros ks. apply (loc_Tp p); auto. }
      rewrite <- (bsum_ext_R _ (fun is => bsum [csize X n] (fun i => tval X n is i * (del i [0%nat] * wstep p n cs1 cs2 W [k] is e)) * bsum [csize X n] (fun i => tval X n is i * (del i [0%nat] * wstep p n cs1 cs2 W [l] is e)))).
      - rewrite (iso sz (tb_order X) (dims t n) (NoDup_dims' n Hn) (dims_N n Hn) [csize X n] (fun i is => tval X n is i)).
        + apply (part_ext sz _ (tb_order X)); [|apply repeat_length]. intros is _.
          rewrite (bsum_ext_R _ _ (fun i => del i [0%nat] * (wstep p n cs1 cs2 W [k] is e * wstep p n cs1 cs2 W [l] is e))).
          * symmetry. apply bsum_del_r. constructor; [lia|constructor].
          * intros i _. unfold del. destruct (list_eqb i [0%nat]); ring.
        + intros i. apply (loc_tval n); auto.
        + intros i j Hi Hj. inversion Hi as [|i0 ? i' ? Hi1 Hi2]; subst. inversion Hi2; subst. inversion Hj as [|j0 ? j' ? Hj1 Hj2]; subst. inversion Hj2; subst.
          fold zN. rewrite node_orth by auto. cbn [list_eqb]. rewrite andb_true_r. auto.
        + intros i is is' HA. rewrite (WnL [k] e is is' HA). auto.
        + intros i is is' HA. rewrite (WnL [l] e is is' HA). auto.
      - intros is _. f_equal.
        + rewrite (bsum_ext_R _ _ (fun i => del i [0%nat] * (tval X n is i * wstep p n cs1 cs2 W [k] is e))) by (intros; ring). rewrite bsum_del_r by (constructor; [lia|constructor]). apply F1.
        + rewrite (bsum_ext_R _ _ (fun i => del i [0%nat] * (tval X n is i * wstep p n cs1 cs2 W [l] is e))) by (intros; ring). rewrite bsum_del_r by (constructor; [lia|constructor]). apply F1. }
    unfold gm. rewrite (bsum_ext_R _ _ _ (fun e _ => F2 e)).
    transitivity (bsum (exts X r) (fun e0 => bsum ns (fun ks => bsum (exts X p) (fun e => bsum (exts X p) (fun e' =>
        get (core X p) (firstn q ks ++ k :: skipn q ks ++ e) * get (core X p) (firstn q ks ++ l :: skipn q ks ++ e') * nu p (fun is => W e is e0 * W e' is e0)))))).
    { apply bsum_ext_R. intros e0 _. unfold nu at 1. rewrite part_bsum. apply bsum_ext_R. intros ks _.
      rewrite (part_ext sz _ (tb_order X) _ (fun is => bsum (exts X p) (fun e => bsum (exts X p) (fun e' => (get (core X p) (firstn q ks ++ k :: skipn q ks ++ e) * get (core X p) (firstn q ks ++ l :: skipn q ks ++ e')) * (W e is e0 * W e' is e0))))).
      - rewrite part_bsum. apply bsum_ext_R. intros e _. rewrite part_bsum. apply bsum_ext_R. intros e' _. rewrite part_scal. auto.
      - intros is _. unfold c. rewrite <- bsum_scal_r_R. apply bsum_ext_R. intros e _. rewrite <- bsum_scal_l_R. apply bsum_ext_R. intros e' _. ring.
      - apply repeat_length. }
    rewrite bsum_exchange. unfold ns. rewrite bsum_app. apply bsum_ext_R. intros a Va. apply bsum_ext_R. intros b Vb.
    pose proof (valid_length _ _ Va) as La. rewrite map_length in La.
    assert (E1 : firstn q (a ++ b) = a) by (unfold q; rewrite <- La, firstn_app, firstn_all, Nat.sub_diag; cbn [firstn]; apply app_nil_r).
    assert (E2 : skipn q (a ++ b) = b) by (unfold q; rewrite <- La, skipn_app, skipn_all, Nat.sub_diag; auto).
    rewrite E1, E2. rewrite bsum_exchange. apply bsum_ext_R. intros e _. rewrite bsum_exchange. apply bsum_ext_R. intros e' _. rewrite bsum_scal_l_R. auto.
  Qed.
End GramMath.
