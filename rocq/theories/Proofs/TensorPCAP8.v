(** if the spaces of all the nodes contain the fibres, the tensor that tree_based_approximation returns is the array itself. *)
From Coq Require Import List Arith Lia Bool Reals Permutation Lra.
From Verif.Base Require Import ListAux CRing Index RealAux LinAlg.
From Verif.Model Require Import Sorting Numpy FullTensor Diagonal Canonical DimensionTree TreeBased Truncator HSVD Functions Measures Learning DensityL2 MagicIndices AltMin TensorPCA.
From Verif.Spec Require Import TensorSpec TreeSpec TreeTensorSpec TruncatorSpec LearningSpec FunctionSpec MagicSpec PCASpec.
From Verif.Proofs Require AltMinP4.
From Verif.Proofs Require Import LearningP2 NumpyP FullTensorP FunctionsP3 DimTreeP TreeTensorP HsvdP2 HsvdTreeP4 MagicP OrthNodeP4 TensorPCAP1 TensorPCAP2 TensorPCAP3 TensorPCAP4 TensorPCAP5 TensorPCAP6 TensorPCAP7.
From Verif.Model Require Import Learning.
Import ListNotations.
Local Open Scope R_scope.

Lemma bsum_rsum_exchange' ns m (g : nat -> list nat -> R) : rsum m (fun a => bsum ns (g a)) = bsum ns (fun ks => rsum m (fun a => g a ks)).
Proof. symmetry. apply (bsum_rsum_exchange ns m (fun ks a => g a ks)). Qed.

Lemma valid_one m p : valid [m] p -> exists i, p = [i] /\ (i < m)%nat.
Proof. intros H. inversion H as [|i ? p' ? H1 H2]; subst. inversion H2; subst. eauto. Qed.

Section Exact.
  Variable L : lapack.
  Hypothesis HL : lapack_ok L.
  Variables (factor : nat) (adaptive : bool) (f : list nat -> R) (shp : list nat).
  Variables (t : dtree) (r : nat).
  Hypothesis T : dim_tree t r.
  Hypothesis HD : length shp = length (d2i t).
  Variables (act : list bool) (tol mr : list (option R)) (rnd : nat -> sampler).
  Variable st : pca_state.
  Let X := TB t (ps_cores st).
  Hypothesis G : forall n, node t n -> n <> r -> good shp t act st n.
  Notation q n := (mcols (nthb st n)).
  Notation gr n a := (nth a (nthg st n) []).
  Hypothesis EX : forall n, node t n -> n <> r -> ex factor adaptive f shp t act tol mr rnd st n.
  Hypothesis EA : forall n, node t n -> n <> r -> active X n = true -> exact_at factor adaptive f shp t tol mr rnd n (if is_leaf t n then msize shp t n else prodn (colsof (cbases t st n))).
  Hypothesis ACT : forall n, node t n -> is_leaf t n = false -> active X n = true.
  Let V : rooted_tree t r := proj1 T.

  (** the rows of the inverse of the matrix of node n *)
  Definition pinvW (n k a : nat) : R :=
    match l_solve L (MX (q n) (q n) (fun i j => ment (nthb st n) j i)) (fun i => if (i =? k)%nat then 1 else 0) with Some x => x a | None => 0 end.
  Lemma pinvW_ok n k k' : node t n -> n <> r -> (k < q n)%nat -> (k' < q n)%nat -> rsum (q n) (fun a => pinvW n k a * ment (nthb st n) a k') = if (k' =? k)%nat then 1 else 0.
  Proof.
    intros Hn Hr Hk Hk'. destruct (EX n Hn Hr) as [[SQ IN] _]. unfold square in SQ. unfold pinvW.
    assert (NS : nonsingular (MX (q n) (q n) (fun i j => ment (nthb st n) j i))).
    { split; [reflexivity|]. cbn [mrows mcols ment]. apply (inj_tr (q n) (ment (nthb st n))). rewrite SQ in IN. exact IN. }
    destruct (solve_ns L HL _ (fun i => if (i =? k)%nat then 1 else 0) NS) as [x Hx]. rewrite Hx. destruct (solve_some L HL _ _ _ Hx) as [_ H]. cbn [mrows mcols ment] in H.
    rewrite <- (H k' Hk'). unfold mv. apply rsum_ext_R'. intros. ring.
  Qed.

  (** the fibres are combinations of the values of the sub-tree *)
  Definition spanned (n : nat) : Prop := forall is, valid shp is -> exists b : nat -> R, forall p, valid (sel 0%nat shp (dims t n)) p ->
    f (TensorSpec.put (dims t n) p is) = rsum (q n) (fun k => tval X n (TensorSpec.put (dims t n) p is) [k] * b k).
  Definition expands (n : nat) : Prop := forall is, valid shp is ->
    f is = rsum (q n) (fun k => tval X n is [k] * rsum (q n) (fun a => pinvW n k a * f (TensorSpec.put (dims t n) (gr n a) is))).
  Lemma dimsb n : node t n -> NoDup (dims t n) /\ Forall (fun k => (k < length shp)%nat) (dims t n).
  Proof. apply (dims_bound shp t r T HD). Qed.
  Lemma grid_valid n a : node t n -> n <> r -> (a < q n)%nat -> valid (sel 0%nat shp (dims t n)) (gr n a).
  Proof. intros Hn Hr Ha. destruct (G n Hn Hr) as (G1 & G2 & G3 & _). rewrite Forall_forall in G3. apply G3, nth_In. lia. Qed.
  Lemma put_valid' n p is : node t n -> valid shp is -> valid (sel 0%nat shp (dims t n)) p -> valid shp (TensorSpec.put (dims t n) p is).
  Proof. intros Hn HV Hp. destruct (dimsb n Hn). apply sel_put_valid; auto. Qed.
  Lemma valid_sel' n is : node t n -> valid shp is -> valid (sel 0%nat shp (dims t n)) (sel 0%nat is (dims t n)).
  Proof. intros Hn HV. destruct (dimsb n Hn). apply sel_valid; auto. Qed.

  Lemma expands_of n : node t n -> n <> r -> spanned n -> expands n.
  Proof.
    intros Hn Hr HS is HV. destruct (HS is HV) as [b Hb]. destruct (dimsb n Hn) as [DN DB]. assert (Lis := valid_length _ _ HV).
    assert (E0 := Hb _ (valid_sel' n is Hn HV)). rewrite put_sel in E0 by (auto; rewrite Lis; auto). rewrite E0. apply rsum_ext_R'. intros k Hk. f_equal.
    rewrite (rsum_ext_R' _ _ (fun a => rsum (q n) (fun k' => b k' * (pinvW n k a * ment (nthb st n) a k')))).
    - rewrite rsum_swap_R. rewrite (rsum_ext_R' _ _ (fun k' => if (k' =? k)%nat then b k' else 0)).
      + rewrite PolyP5.rsum_pick. apply Nat.ltb_lt in Hk. rewrite Hk. reflexivity.
      + intros k' Hk'. rewrite rsum_scal_l_R, pinvW_ok by auto. destruct (k' =? k)%nat; ring.
    - intros a Ha. assert (GV := grid_valid n a Hn Hr Ha). rewrite (Hb _ GV). rewrite <- rsum_scal_l_R. apply rsum_ext_R'. intros k' Hk'.
      destruct (G n Hn Hr) as (G1 & G2 & _). assert (EV := node_value shp t r T HD act st G n Hn Hr (TensorSpec.put (dims t n) (gr n a) is) a).
      assert (Ha' : (a < mrows (nthb st n))%nat) by lia. specialize (EV Ha').
      fold X in EV. rewrite EV; auto; [ring|]. assert (LG := valid_length _ _ GV). unfold sel in LG at 1. rewrite map_length in LG. apply sel_put_in; auto. rewrite Lis; auto.
  Qed.

  (** the coefficients of the array with respect to the products of the bases of a list of nodes *)
  Fixpoint coefs (ch : list nat) (is : list nat) (ks : list nat) : R :=
    match ch, ks with
    | c :: ch, k :: ks => rsum (q c) (fun a => pinvW c k a * coefs ch (TensorSpec.put (dims t c) (gr c a) is) ks)
    | _, _ => f is
    end.
  Lemma coefs_expand : forall ch, (forall c, In c ch -> node t c /\ c <> r /\ expands c) -> NoDup (flat_map (dims t) ch) -> forall is, valid shp is ->
    f is = bsum (map (fun c => q c) ch) (fun ks => lprod (combine ch ks) (fun p => tval X (fst p) is [snd p]) * coefs ch is ks).
  Proof.
    induction ch as [|c ch IH]; intros HC ND is HV; cbn [map flat_map] in *.
    - cbn. ring.
    - destruct (HC c (or_introl eq_refl)) as (Hn & Hr & HE). cbn [bsum]. rewrite (HE is HV) at 1. apply rsum_ext_R'. intros k Hk.
      cbn [coefs combine lprod fst snd]. rewrite <- rsum_scal_l_R.
      transitivity (rsum (q c) (fun a => bsum (map (fun c => q c) ch) (fun ks => tval X c is [k] * (lprod (combine ch ks) (fun p => tval X (fst p) is [snd p]) * (pinvW c k a * coefs ch (TensorSpec.put (dims t c) (gr c a) is) ks))))).
      + apply rsum_ext_R'. intros a Ha. assert (GV := grid_valid c a Hn Hr Ha). rewrite (IH (fun x Hx => HC x (or_intror Hx)) (proj1 (proj2 (NoDup_app_inv _ _ ND))) _ (put_valid' c _ is Hn HV GV)).
        rewrite <- bsum_scal_l_R, <- bsum_scal_l_R. apply bsum_ext. intros ks Vk.
        assert (EP : lprod (combine ch ks) (fun p => tval X (fst p) (TensorSpec.put (dims t c) (gr c a) is) [snd p]) = lprod (combine ch ks) (fun p => tval X (fst p) is [snd p])).
        { apply lprod_ext. intros [c' k'] Hp. cbn [fst snd]. apply in_combine_l in Hp. apply (tval_local X r T); [apply HC; right; auto|]. intros mu Hmu. apply put_nth_out.
          intros Hm2. apply (proj2 (proj2 (NoDup_app_inv _ _ ND)) mu Hm2). apply in_flat_map. exists c'. auto. }
        rewrite EP. ring.
      + rewrite (bsum_rsum_exchange' (map (fun c0 : nat => q c0) ch)). apply bsum_ext. intros ks Vk.
        rewrite (rsum_ext_R' _ _ (fun a => (tval X c is [k] * lprod (combine ch ks) (fun p => tval X (fst p) is [snd p])) * (pinvW c k a * coefs ch (TensorSpec.put (dims t c) (gr c a) is) ks))) by (intros; ring).
        rewrite rsum_scal_l_R. reflexivity.
  Qed.
  Lemma coefs_local : forall ch ks is is', (forall c, In c ch -> node t c /\ c <> r) -> valid (map (fun c => q c) ch) ks -> length is = length shp -> length is' = length shp ->
    (forall i, (i < length shp)%nat -> ~ In i (flat_map (dims t) ch) -> nth i is 0%nat = nth i is' 0%nat) -> coefs ch is ks = coefs ch is' ks.
  Proof.
    induction ch as [|c ch IH]; intros ks is is' HC Vk Li Li' HA; cbn [map flat_map] in *.
    - cbn [coefs]. f_equal. apply (nth_ext' 0%nat); [congruence|]. intros i Hi. apply HA; [lia|auto].
    - inversion Vk as [|k ? ks' ? Vk1 Vk2]; subst. cbn [coefs]. destruct (HC c (or_introl eq_refl)) as [Hn Hr]. destruct (dimsb c Hn) as [DN DB]. rewrite Forall_forall in DB.
      apply rsum_ext_R'. intros a Ha. f_equal. assert (LG := valid_length _ _ (grid_valid c a Hn Hr Ha)). unfold sel in LG at 1. rewrite map_length in LG.
      apply IH; auto; [intros c' Hc'; apply HC; right; auto|rewrite put_length; auto|rewrite put_length; auto|]. intros i Hi Hni.
      destruct (in_dec Nat.eq_dec i (dims t c)) as [Hic|Hic].
      + destruct (index_of_nth _ _ Hic) as [I1 I2]. rewrite <- I2. rewrite !put_nth_in by (auto; rewrite I2; lia). reflexivity.
      + rewrite !put_nth_out by auto. apply HA; auto. intros H. apply in_app_or in H. tauto.
  Qed.
  Lemma child_node n c : edge t n c -> node t c /\ c <> r.
  Proof. intros Hc. split; [apply Hc|]. intros ->. exact (rt_no_edge t r V _ Hc). Qed.
  (** the coefficients at the children of a node *)
  Lemma coefs_node n : node t n -> is_leaf t n = false -> (forall c, edge t n c -> expands c) -> forall is, valid shp is ->
    (forall p, valid (sel 0%nat shp (dims t n)) p -> f (TensorSpec.put (dims t n) p is) =
       bsum (colsof (cbases t st n)) (fun ks => lprod (combine (children t n) ks) (fun c => tval X (fst c) (TensorSpec.put (dims t n) p is) [snd c]) * coefs (children t n) is ks)) /\
    (forall js, valid (rowsof (cbases t st n)) js ->
       bsum (colsof (cbases t st n)) (fun ks => kval (cbases t st n) js ks * coefs (children t n) is ks) = f (TensorSpec.put (dims t n) (grid_point (cgrids t st n) js) is)).
  Proof.
    intros Hn Hl HE is HV. destruct (dimsb n Hn) as [DN DB]. assert (EC : colsof (cbases t st n) = map (fun c => q c) (children t n)) by (unfold colsof, cbases; rewrite map_map; reflexivity).
    assert (HCh : forall c, In c (children t n) -> node t c /\ c <> r) by (intros c Hc; apply (child_node n), in_children; auto).
    assert (Lis := valid_length _ _ HV). assert (EDn := dims_internal t r T n Hn Hl).
    assert (A : forall p, valid (sel 0%nat shp (dims t n)) p -> f (TensorSpec.put (dims t n) p is) =
       bsum (colsof (cbases t st n)) (fun ks => lprod (combine (children t n) ks) (fun c => tval X (fst c) (TensorSpec.put (dims t n) p is) [snd c]) * coefs (children t n) is ks)).
    { intros p Hp. assert (VP := put_valid' n p is Hn HV Hp). rewrite (coefs_expand (children t n)) with (is := TensorSpec.put (dims t n) p is); auto.
      - rewrite EC. apply bsum_ext. intros ks Vk. apply (f_equal (Rmult _)). apply coefs_local; auto; [rewrite put_length; auto|]. intros i Hi Hni. apply put_nth_out. rewrite EDn. auto.
      - intros c Hc. destruct (HCh c Hc). split; [auto|]. split; [auto|]. apply HE, in_children; auto.
      - rewrite <- EDn. auto. }
    split; [exact A|]. intros js Vj.
    assert (GV : valid (sel 0%nat shp (dims t n)) (grid_point (cgrids t st n) js)).
    { rewrite EDn. unfold cgrids, rowsof, cbases in *. rewrite map_map in Vj. clear A EC EDn HE. revert js Vj HCh. generalize (children t n) as ch. induction ch as [|c ch IH]; intros js Vj HCh; cbn [map flat_map grid_point] in *.
      - constructor.
      - inversion Vj as [|j ? js' ? Vj1 Vj2]; subst. destruct (HCh c (or_introl eq_refl)) as [H1 H2]. destruct (G c H1 H2) as (_ & G2 & _). unfold sel. rewrite map_app. apply valid_app; [apply grid_valid; auto; lia|]. apply IH; auto. intros c' Hc'. apply HCh. right; auto. }
    rewrite (A _ GV). apply bsum_ext. intros ks Vk. apply (f_equal (fun x => x * _)). symmetry. assert (LG := valid_length _ _ GV). unfold sel in LG at 1. rewrite map_length in LG.
    unfold cbases. apply (children_value shp t r HD act st G (tval X)); auto.
    - intros c Hc a Ha Es k Hk. destruct (HCh c Hc). apply (node_value shp t r T HD act st G); auto.
    - rewrite <- EDn. rewrite sel_put_in; auto. rewrite Lis. auto.
  Qed.

  Lemma spanned_all : forall n, node t n -> n <> r -> spanned n.
  Proof.
    apply (tree_up_ind t r V (fun n => n <> r -> spanned n)). intros n Hn IH Hr is HV. assert (Lis := valid_length _ _ HV). destruct (dimsb n Hn) as [DN DB].
    destruct (is_leaf t n) eqn:Hl.
    - assert (HA := act_leaf shp t r T HD act st G n Hl Hr). fold X in HA. assert (ED := dims_leaf t r T n Hl). destruct (leaf_index t n Hl) as [LI1 LI2]. remember (index_of n (d2i t)) as nu eqn:EN0.
      assert (EM : msize shp t n = nth nu shp 0%nat) by (rewrite <- LI2; apply (msize_leaf shp t r T); auto).
      assert (E := EX n Hn Hr). unfold ex in E. rewrite Hl in E. destruct E as [NS E].
      rewrite ED in DN, DB. rewrite ED. unfold sel. cbn [map]. destruct (nth (n - 1) act false) eqn:EAc.
      + assert (XA := EA n Hn Hr HA). rewrite Hl in XA. destruct (E eq_refl XA is HV) as [b Hb]. exists b. intros p Vp.
        destruct (valid_one _ _ Vp) as (i & -> & Vp1). rewrite ED in Hb. rewrite Hb by (rewrite EM; auto). apply rsum_ext_R'. intros k Hk.
        rewrite (tval_leaf X r T) by auto. cbn [ttree X]. rewrite <- EN0. assert (EN := put_nth_in [nu] [i] is 0 DN). cbn [nth] in EN. rewrite EN by (cbn; auto; rewrite Lis; rewrite Forall_forall in DB; apply DB; left; auto).
        unfold core, X. cbn [cores]. reflexivity.
      + destruct (G n Hn Hr) as (_ & _ & _ & G4). rewrite Hl in G4. unfold leafdata in G4. rewrite EAc in G4. destruct G4 as (_ & E1 & _). rewrite E1. cbn [eye_mx mcols].
        exists (fun k => f (TensorSpec.put [nu] [k] is)). intros p Vp. destruct (valid_one _ _ Vp) as (i & -> & Vp1).
        rewrite (rsum_ext_R' _ _ (fun k => if (k =? i)%nat then f (TensorSpec.put [nu] [k] is) else 0)).
        * rewrite PolyP5.rsum_pick. rewrite EM. apply Nat.ltb_lt in Vp1. rewrite Vp1. reflexivity.
        * intros k Hk. rewrite (tval_inactive X r T) by auto. cbn [ttree X]. rewrite <- EN0. assert (EN := put_nth_in [nu] [i] is 0 DN). cbn [nth] in EN. rewrite EN by (cbn; auto; rewrite Lis; rewrite Forall_forall in DB; apply DB; left; auto).
          cbn [list_eqb]. rewrite andb_true_r. destruct (k =? i)%nat; cbn; ring.
    - assert (HE : forall c, edge t n c -> expands c) by (intros c Hc; destruct (child_node n c Hc); apply expands_of; auto).
      destruct (coefs_node n Hn Hl HE is HV) as [A B]. assert (E := EX n Hn Hr). unfold ex in E. rewrite Hl in E. destruct E as [NS E].
      destruct (G n Hn Hr) as (_ & _ & _ & G4). rewrite Hl in G4. destruct G4 as (G5 & G6 & _).
      assert (XA : exact_at factor adaptive f shp t tol mr rnd n (prodn (colsof (cbases t st n)))) by (assert (XA := EA n Hn Hr (ACT n Hn Hl)); rewrite Hl in XA; exact XA).
      destruct (E XA is (coefs (children t n) is) HV B) as [b Hb]. exists b. intros p Vp. rewrite (A p Vp). destruct (heads_inner shp t r act st G n Hn Hl Hr) as [HH _]. fold X in HH.
      rewrite (rsum_ext_R' _ _ (fun k => bsum (colsof (cbases t st n)) (fun ks => get (nthc (ps_cores st) n) (ks ++ [k]) * b k * lprod (combine (children t n) ks) (fun c => tval X (fst c) (TensorSpec.put (dims t n) p is) [snd c])))).
      + rewrite bsum_rsum_exchange'. apply bsum_ext. intros ks Vk. rewrite (Hb ks Vk). rewrite <- rsum_scal_l_R. apply rsum_ext_R'. intros k Hk. ring.
      + intros k Hk. rewrite (tval_internal X r T) by auto. rewrite HH. rewrite <- bsum_scal_r_R. apply bsum_ext. intros ks Vk. cbn [ttree X rmul CRing_R]. unfold core, X. cbn [cores]. ring.
  Qed.
  (** the whole array *)
  Hypothesis Hl : is_leaf t r = false.
  Hypothesis HH : heads X r = colsof (cbases t st r).
  Hypothesis RD : rootdata f shp t r st.
  Hypothesis RX : forall c c' : list nat -> R, (forall js, valid (rowsof (cbases t st r)) js -> bsum (colsof (cbases t st r)) (fun ks => kval (cbases t st r) js ks * c ks) = bsum (colsof (cbases t st r)) (fun ks => kval (cbases t st r) js ks * c' ks)) ->
      forall ks, valid (colsof (cbases t st r)) ks -> c ks = c' ks.
  Lemma exact_value is : valid shp is -> tval X r is [] = f is.
  Proof.
    intros HV. assert (Hn := rt_root t r V). destruct (dimsb r Hn) as [DN DB]. assert (Lis := valid_length _ _ HV).
    assert (HE : forall c, edge t r c -> expands c) by (intros c Hc; destruct (child_node r c Hc); apply expands_of; auto; apply spanned_all; auto).
    destruct (coefs_node r Hn Hl HE is HV) as [A B]. destruct RD as (R1 & R2 & R3).
    assert (EC : forall ks, valid (colsof (cbases t st r)) ks -> get (nthc (ps_cores st) r) ks = coefs (children t r) is ks).
    { apply RX. intros js Vj. rewrite (B js Vj). assert (GL : length (grid_point (cgrids t st r) js) = length (dims t r)).
      { rewrite (dims_internal t r T r Hn Hl). unfold cgrids, rowsof, cbases in *. rewrite map_map in Vj. assert (HCh : forall c, In c (children t r) -> node t c /\ c <> r) by (intros c Hc; apply (child_node r), in_children; auto).
        clear - Vj HCh G. revert js Vj HCh. generalize (children t r) as ch. induction ch as [|c ch IH]; intros js Vj HCh; cbn [map flat_map grid_point] in *; [reflexivity|].
        inversion Vj as [|j ? js' ? Vj1 Vj2]; subst. rewrite !app_length. destruct (HCh c (or_introl eq_refl)) as [H1 H2]. destruct (G c H1 H2) as (G1 & _).
        rewrite (grid_length shp t r act st G c j H1 H2) by lia. f_equal. apply IH; auto. intros c' Hc'. apply HCh; right; auto. }
      rewrite <- (R3 js (TensorSpec.put (dims t r) (grid_point (cgrids t st r) js) is) Vj).
      - apply bsum_ext. intros. ring.
      - rewrite put_length. auto.
      - apply sel_put_in; auto. rewrite Lis. auto. }
    assert (E0 := A _ (valid_sel' r is Hn HV)). rewrite put_sel in E0 by (auto; rewrite Lis; auto). rewrite E0, (tval_internal X r T) by auto. rewrite HH. apply bsum_ext. intros ks Vk.
    rewrite app_nil_r, <- (EC ks Vk). cbn [ttree X rmul CRing_R]. unfold core, X. cbn [cores]. ring.
  Qed.
End Exact.
