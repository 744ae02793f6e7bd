(** tree_based_approximation: the tensor interpolates the function on the final grid. *)
From Coq Require Import List Arith Lia Bool Reals Permutation Lra.
From Verif.Base Require Import ListAux CRing Index RealAux LinAlg.
From Verif.Model Require Import Sorting Numpy FullTensor Diagonal Canonical DimensionTree TreeBased Truncator HSVD Functions Measures Learning DensityL2 MagicIndices AltMin TensorPCA.
From Verif.Spec Require Import TensorSpec TreeSpec TreeTensorSpec TruncatorSpec LearningSpec FunctionSpec MagicSpec.
From Verif.Proofs Require Import NumpyP FullTensorP FullTensorP3 FunctionsP FunctionsP3 TensorizerP DimTreeP HsvdP2 TreeTensorP TreeTensorP2 TreeTensorP3 TreeTensorP4 TreeTensorP13 MagicP TensorPCAP1 TensorPCAP2 TensorPCAP3.
From Verif.Model Require Import Learning.
Import ListNotations.
Local Open Scope R_scope.

Lemma filter_flat_map {A B} (p : B -> bool) (h : A -> list B) l : filter p (flat_map h l) = flat_map (fun x => filter p (h x)) l.
Proof. induction l as [|a l IH]; cbn; auto. rewrite filter_app, IH. reflexivity. Qed.
Lemma filter_split' {A} (p : A -> bool) : forall H l1 n l2, filter p H = l1 ++ n :: l2 -> exists h1 h2, H = h1 ++ n :: h2 /\ filter p h1 = l1.
Proof.
  induction H as [|a H IH]; intros l1 n l2 E; cbn in E; [destruct l1; discriminate|].
  destruct (p a) eqn:Ep.
  - destruct l1 as [|b l1]; cbn in E; injection E as -> E.
    + exists [], H. auto.
    + destruct (IH _ _ _ E) as (h1 & h2 & -> & E2). exists (b :: h1), h2. cbn. rewrite Ep, E2. auto.
  - destruct (IH _ _ _ E) as (h1 & h2 & -> & E2). exists (a :: h1), h2. cbn. rewrite Ep. auto.
Qed.
Lemma inner_filter t : inner_nodes t = filter (fun n => negb (is_leaf t n)) (hsvd_nodes t).
Proof. unfold inner_nodes, hsvd_nodes. rewrite filter_flat_map. reflexivity. Qed.

Section Main.
  Variable svd : nd R -> nd R * list R * nd R.
  Hypothesis SV : svd_contract svd.
  Variable L : lapack.
  Hypothesis HL : lapack_ok L.
  Variables (factor : nat) (adaptive : bool) (f : list nat -> R) (shp : list nat).
  Variables (t : dtree) (r : nat).
  Hypothesis T : dim_tree t r.
  Hypothesis HD : length shp = length (d2i t).
  Variables (act : list bool) (tol mr : list (option R)) (sub : subsampling) (rnd : nat -> sampler) (choice : nat -> nat -> nat -> list nat).
  Hypothesis RN : forall n na N, length (rnd n na N) = N.
  Hypothesis CH : forall n m k, (k <= m)%nat -> length (choice n m k) = k /\ forall i, In i (choice n m k) -> (i < m)%nat.
  Notation good := (good shp t act).
  Notation lstep := (leaf_step svd L factor adaptive f shp t act tol mr sub rnd choice).
  Notation istep := (inner_step svd L factor adaptive f shp t tol mr rnd).
  Let V : rooted_tree t r := proj1 T.

  Lemma leaf_noedge n c : is_leaf t n = true -> ~ edge t n c.
  Proof. intros H. apply (leaf_iff t r T n). auto. Qed.
  Lemma good_leaf st st' n : is_leaf t n = true -> sameat st st' n -> good st n -> good st' n.
  Proof.
    intros Hl S0 G. apply (good_ext shp t act st); auto. apply (leaf_node t r T); auto. intros c Hc. exfalso. exact (leaf_noedge n c Hl Hc).
  Qed.
  Lemma d2i_inj i j : (i < length (d2i t))%nat -> (j < length (d2i t))%nat -> nth i (d2i t) 0%nat = nth j (d2i t) 0%nat -> i = j.
  Proof. intros Hi Hj. apply (proj1 (NoDup_nth (d2i t) 0%nat)); auto. exact (NoDup_d2i t r T). Qed.

  Lemma leaves_fold : forall l st st', NoDup l -> (forall nu, In nu l -> (nu < length (d2i t))%nat) -> lens t st ->
    (forall nu, In nu l -> nthc (ps_cores st) (nth nu (d2i t) 0%nat) = no_core) -> ofold lstep l st = Some st' ->
    lens t st' /\ (forall nu, In nu l -> good st' (nth nu (d2i t) 0%nat)) /\
    (forall m, node t m -> (forall nu, In nu l -> m <> nth nu (d2i t) 0%nat) -> sameat st st' m) /\ (ps_n st = length (ps_pts st) -> ps_n st' = length (ps_pts st')).
  Proof.
    induction l as [|nu l IH]; intros st st' ND HI HLn HN0 H; cbn in H.
    - injection H as <-. split; [auto|]. split; [intros ? []|]. split; [intros; apply sameat_refl|auto].
    - destruct (lstep st nu) as [s1|] eqn:E1; [|discriminate]. inversion ND as [|? ? Hnu ND']; subst.
      destruct (leaf_step_ok svd SV L HL factor adaptive f shp t r T HD act tol mr sub rnd choice RN CH st nu s1 HLn (HI nu (or_introl eq_refl)) (HN0 nu (or_introl eq_refl)) E1) as (A1 & A2 & A3 & A4).
      assert (NE : forall mu, In mu l -> nth mu (d2i t) 0%nat <> nth nu (d2i t) 0%nat).
      { intros mu Hmu E. apply Hnu. rewrite (d2i_inj nu mu); auto; apply HI; cbn; auto. }
      destruct (IH s1 st' ND') as (B1 & B2 & B3 & B4); auto.
      { intros mu Hmu. apply HI. right; auto. }
      { intros mu Hmu. destruct (A3 (nth mu (d2i t) 0%nat)) as (_ & _ & E); [apply (d2i_node t r T), HI; right; auto|apply NE; auto|]. rewrite E. apply HN0. right; auto. }
      split; [auto|]. split; [|split; [|auto]].
      + intros mu [<-|Hmu]; [|auto]. apply (good_leaf s1); [apply (d2i_leaf t), HI; left; auto| |auto]. apply B3; [apply (d2i_node t r T), HI; left; auto|]. intros x Hx E. apply (NE x Hx). auto.
      + intros m Hm Hne. apply (sameat_trans st s1). * apply A3; auto. apply Hne. left; auto. * apply B3; auto. intros x Hx. apply Hne. right; auto.
  Qed.

  Lemma inner_fold : forall l done st st', (forall m, In m done -> node t m /\ good st m /\ forall c, edge t m c -> In c done) -> NoDup l ->
    (forall m, In m l -> ~ In m done /\ node t m /\ is_leaf t m = false) -> (forall l1 n l2 c, l = l1 ++ n :: l2 -> edge t n c -> In c (done ++ l1)) ->
    lens t st -> ofold istep l st = Some st' ->
    lens t st' /\ (forall m, In m (done ++ l) -> good st' m) /\ (ps_n st = length (ps_pts st) -> ps_n st' = length (ps_pts st')).
  Proof.
    induction l as [|n l IH]; intros done st st' HDn ND HI HT HLn H; cbn in H.
    - injection H as <-. split; [auto|]. split; [|auto]. intros m Hm. rewrite app_nil_r in Hm. apply HDn; auto.
    - destruct (istep st n) as [s1|] eqn:E1; [|discriminate]. inversion ND as [|? ? Hnl ND']; subst. destruct (HI n (or_introl eq_refl)) as (N1 & N2 & N3).
      assert (HC : forall c, edge t n c -> In c done) by (intros c Hc; specialize (HT [] n l c eq_refl Hc); rewrite app_nil_r in HT; auto).
      assert (Hnn : ~ edge t n n) by (intros Hc; apply N1, HC; auto).
      destruct (inner_step_ok svd SV L HL factor adaptive f shp t r T HD act tol mr rnd RN st n s1 HLn N2 N3 (fun c Hc => proj1 (proj2 (HDn c (HC c Hc)))) Hnn E1) as (A1 & A2 & A3 & A4).
      destruct (IH (done ++ [n]) s1 st') as (B1 & B2 & B3); auto.
      { intros m Hm. apply in_app_or in Hm. destruct Hm as [Hm|[<-|[]]].
        - destruct (HDn m Hm) as (D1 & D2 & D3). split; [auto|]. split; [|intros c Hc; apply in_or_app; left; auto].
          apply (good_ext shp t act st); auto. + apply A3; auto. intros ->. auto. + intros c Hc. apply A3; [apply Hc|]. intros ->. apply N1. eapply D3; eauto.
        - split; [auto|]. split; [auto|]. intros c Hc. apply in_or_app. left; auto. }
      { intros m Hm. destruct (HI m (or_intror Hm)) as (M1 & M2 & M3). split; [|auto]. intros Hx. apply in_app_or in Hx. destruct Hx as [Hx|[<-|[]]]; auto. }
      { intros l1 n' l2 c E Hc. rewrite <- app_assoc. cbn [app]. apply (HT (n :: l1) n' l2); auto. rewrite E. auto. }
      split; [auto|]. split; [|auto]. intros m Hm. apply B2. rewrite <- app_assoc. auto.
  Qed.

  Lemma sel_app_inj is (D1 D2 p1 p2 : list nat) : sel 0%nat is (D1 ++ D2) = p1 ++ p2 -> length p1 = length D1 -> sel 0%nat is D1 = p1 /\ sel 0%nat is D2 = p2.
  Proof. unfold sel. rewrite map_app. intros E HLn.
    assert (E1 : firstn (length D1) (map (fun k => nth k is 0%nat) D1 ++ map (fun k => nth k is 0%nat) D2) = firstn (length D1) (p1 ++ p2)) by (rewrite E; auto).
    assert (E2 : skipn (length D1) (map (fun k => nth k is 0%nat) D1 ++ map (fun k => nth k is 0%nat) D2) = skipn (length D1) (p1 ++ p2)) by (rewrite E; auto).
    rewrite firstn_app, map_length, Nat.sub_diag, firstn_all2, app_nil_r in E1 by (rewrite map_length; auto). rewrite <- HLn, firstn_app, Nat.sub_diag, firstn_all, app_nil_r in E1.
    rewrite skipn_app, map_length, Nat.sub_diag, skipn_all2 in E2 by (rewrite map_length; auto). rewrite <- HLn, skipn_app, Nat.sub_diag, skipn_all in E2. auto. Qed.

  (** the value of the sub-tree of a node on its grid *)
  Section Value.
    Variable st : pca_state.
    Let X := TB t (ps_cores st).
    Hypothesis G : forall n, node t n -> n <> r -> good st n.
    Lemma act_leaf n : is_leaf t n = true -> n <> r -> active X n = nth (n - 1) act false.
    Proof.
      intros Hl Hr. assert (Hn := leaf_node t r T n Hl). destruct (G n Hn Hr) as (_ & _ & _ & G4). rewrite Hl in G4. unfold leafdata in G4.
      unfold active, activec, X. cbn [cores]. unfold ft_storage, np_size. destruct (nth (n - 1) act false).
      - destruct G4 as (E & E1 & E2 & _). rewrite E. cbn [prodn fold_right]. apply negb_true_iff. apply Nat.eqb_neq. nia.
      - destruct G4 as (E & _). rewrite E. reflexivity.
    Qed.
    Lemma heads_inner n : node t n -> is_leaf t n = false -> n <> r -> heads X n = colsof (cbases t st n) /\ exts X n = [mcols (nthb st n)].
    Proof.
      intros Hn Hl Hr. destruct (G n Hn Hr) as (_ & _ & _ & G4). rewrite Hl in G4. destruct G4 as (E & _). unfold heads, exts, arity_at. cbn [ttree X]. rewrite Hl.
      unfold core, X. cbn [cores]. rewrite E. assert (HE : length (children t n) = length (colsof (cbases t st n))) by (unfold colsof, cbases; rewrite !map_length; auto).
      rewrite HE, firstn_app, skipn_app, firstn_all, skipn_all, Nat.sub_diag. cbn [firstn skipn app]. rewrite app_nil_r. auto.
    Qed.
    Lemma grid_length n a : node t n -> n <> r -> (a < length (nthg st n))%nat -> length (nth a (nthg st n) []) = length (dims t n).
    Proof.
      intros Hn Hr Ha. destruct (G n Hn Hr) as (_ & _ & G3 & _). rewrite Forall_forall in G3. specialize (G3 _ (nth_In _ [] Ha)). apply valid_length in G3. rewrite G3. unfold sel. apply map_length.
    Qed.
    (** the product of the values at the children of a node *)
    Lemma children_value (tv : nat -> list nat -> list nat -> R) is : forall ch js ks,
      (forall c, In c ch -> node t c /\ c <> r) ->
      (forall c, In c ch -> forall a, (a < mrows (nthb st c))%nat -> sel 0%nat is (dims t c) = nth a (nthg st c) [] -> forall k, (k < mcols (nthb st c))%nat -> tv c is [k] = ment (nthb st c) a k) ->
      valid (map mrows (map (nthb st) ch)) js -> valid (map mcols (map (nthb st) ch)) ks -> sel 0%nat is (flat_map (dims t) ch) = grid_point (map (nthg st) ch) js ->
      lprod (combine ch ks) (fun p => tv (fst p) is [snd p]) = kval (map (nthb st) ch) js ks.
    Proof.
      induction ch as [|c ch IH]; intros js ks HN HV Vj Vk ES; cbn [map] in *.
      - reflexivity.
      - inversion Vj as [|? ? j js' Vj1 Vj2]; subst. inversion Vk as [|? ? k ks' Vk1 Vk2]; subst. cbn [flat_map grid_point] in ES.
        destruct (HN c (or_introl eq_refl)) as [Hc Hcr]. destruct (G c Hc Hcr) as (G1 & _).
        apply sel_app_inj in ES; [|apply grid_length; auto; lia]. destruct ES as [E1 E2]. unfold kval. cbn [combine lprod fst snd].
        rewrite (HV c (or_introl eq_refl) _ Vj1 E1 _ Vk1). f_equal. apply IH; auto.
        + intros c' Hc'. apply HN. right; auto.
        + intros c' Hc'. apply HV. right; auto.
    Qed.
    Lemma child_ne_root n c : edge t n c -> node t c /\ c <> r.
    Proof. intros Hc. split; [apply Hc|]. intros ->. exact (rt_no_edge t r V _ Hc). Qed.

    Lemma node_value : forall n, node t n -> n <> r -> forall is a, (a < mrows (nthb st n))%nat -> sel 0%nat is (dims t n) = nth a (nthg st n) [] ->
      forall k, (k < mcols (nthb st n))%nat -> tval X n is [k] = ment (nthb st n) a k.
    Proof.
      apply (tree_up_ind t r V (fun n => n <> r -> forall is a, (a < mrows (nthb st n))%nat -> sel 0%nat is (dims t n) = nth a (nthg st n) [] ->
        forall k, (k < mcols (nthb st n))%nat -> tval X n is [k] = ment (nthb st n) a k)).
      intros n Hn IH Hr is a Ha ES k Hk. destruct (G n Hn Hr) as (G1 & G2 & G3 & G4). destruct (is_leaf t n) eqn:Hl.
      - assert (HA := act_leaf n Hl Hr). rewrite (dims_leaf t r T n Hl) in ES. cbn [sel map] in ES. unfold leafdata in G4. destruct (nth (n - 1) act false) eqn:EA.
        + rewrite (tval_leaf X r T) by auto. destruct G4 as (_ & _ & _ & E). rewrite E by auto. rewrite <- ES. reflexivity.
        + rewrite (tval_inactive X r T) by auto. destruct G4 as (_ & E1 & E2). rewrite E1 in *. rewrite E2 in ES. cbn [eye_mx mrows mcols ment] in *.
          rewrite (map_nth_in _ _ _ 0%nat) in ES by (rewrite seq_length; auto). rewrite seq_nth in ES by auto. cbn [Nat.add] in ES. unfold X at 1. cbn [ttree]. unfold sel in ES. cbn [map] in ES. injection ES as ->.
          cbn [list_eqb]. rewrite andb_true_r. rewrite (Nat.eqb_sym k a). destruct (a =? k)%nat; reflexivity.
      - destruct G4 as (_ & _ & E). destruct (E a Ha) as (js & Vj & E1 & E2). rewrite (E2 k Hk). rewrite (tval_internal X r T) by auto.
        destruct (heads_inner n Hn Hl Hr) as [HH _]. rewrite HH. apply bsum_ext. intros ks Vk. cbn [rmul]. apply (f_equal (Rmult _)).
        rewrite E1 in ES. rewrite (dims_internal t r T) in ES by auto. unfold cbases. apply (children_value (tval X)); auto.
        + intros c Hc. apply in_children in Hc; auto. apply (child_ne_root n); auto.
        + intros c Hc. apply in_children in Hc; auto. intros b Hb Eb j Hj. apply (IH c Hc); auto. apply (child_ne_root n); auto.
    Qed.
    Lemma root_value : is_leaf t r = false -> rootdata f shp t r st -> heads X r = colsof (cbases t st r) ->
      forall is, length is = length shp -> In (sel 0%nat is (dims t r)) (nthg st r) -> tval X r is [] = f is.
    Proof.
      intros Hl (R1 & R2 & R3) HH is LI HI. rewrite R2 in HI. apply in_map_iff in HI. destruct HI as (js & E & Hjs). apply in_boxF in Hjs. symmetry in E.
      rewrite <- (R3 js is Hjs LI E). assert (Hn := rt_root t r V). rewrite (tval_internal X r T) by auto. rewrite HH. apply bsum_ext. intros ks Vk. rewrite app_nil_r. cbn [rmul]. apply (f_equal (Rmult _)).
      rewrite (dims_internal t r T) in E by auto. unfold cbases. apply (children_value (tval X)); auto.
      + intros c Hc. apply in_children in Hc; auto. apply (child_ne_root r); auto.
      + intros c Hc. apply in_children in Hc; auto. destruct (child_ne_root r c Hc). apply node_value; auto.
    Qed.
  End Value.

  (** what tree_based_approximation returns *)
  Lemma run_state st0 s1 s2 st : st0 = PS (repeat no_core (nbn t)) (repeat (MX 0 0 (fun _ _ => 0)) (nbn t)) (repeat [] (nbn t)) 0 [] ->
    ofold lstep (seq 0 (length shp)) st0 = Some s1 -> ofold istep (inner_nodes t) s1 = Some s2 -> root_step L f shp t s2 = Some st ->
    is_leaf t r = false /\ lens t st /\ (forall n, node t n -> n <> r -> good st n) /\ rootdata f shp t r st /\ ps_n st = length (ps_pts st).
  Proof.
    intros E0 E1 E2 E3. assert (HLn : lens t st0) by (subst st0; unfold lens; cbn; rewrite !repeat_length; auto).
    destruct (leaves_fold (seq 0 (length shp)) st0 s1) as (A1 & A2 & A3 & A4); auto.
    { apply seq_NoDup. } { intros nu H. apply in_seq in H. lia. }
    { intros nu _. subst st0. unfold nthc. cbn [ps_cores]. apply nth_repeat. }
    assert (Hleaf : is_leaf t r = false).
    { destruct (is_leaf t r) eqn:Hl; auto. exfalso. unfold root_step in E3. rewrite (root_eq t r V) in E3. rewrite (proj1 (leaf_children t r T r (rt_root t r V)) Hl) in E3. cbn in E3. discriminate. }
    rewrite inner_filter in E2.
    assert (HNr : ~ In r (filter (fun n => negb (is_leaf t n)) (hsvd_nodes t))) by (intros H; apply filter_In in H; destruct H as [H _]; apply (in_hsvd_nodes t r V) in H; tauto).
    destruct (inner_fold (filter (fun n => negb (is_leaf t n)) (hsvd_nodes t)) (d2i t) s1 s2) as (B1 & B2 & B3); auto.
    { intros m Hm. assert (Hl : is_leaf t m = true) by (unfold is_leaf; apply NumpyP.inb_spec; auto). destruct (leaf_index t m Hl) as [H1 H2].
      split; [apply (leaf_node t r T); auto|]. split; [rewrite <- H2; apply A2; apply in_seq; rewrite HD; lia|]. intros c Hc. exfalso. exact (leaf_noedge m c Hl Hc). }
    { apply NoDup_filter, (NoDup_hsvd_nodes t r V). }
    { intros m Hm. apply filter_In in Hm. destruct Hm as [Hm Hl]. apply negb_true_iff in Hl. apply (in_hsvd_nodes t r V) in Hm. split; [|tauto].
      intros Hi. assert (is_leaf t m = true) by (unfold is_leaf; apply NumpyP.inb_spec; auto). congruence. }
    { intros l1 n l2 c E Hc. destruct (filter_split' _ _ _ _ _ E) as (h1 & h2 & E4 & E5). assert (Hin := hsvd_topo t r V h1 n h2 c E4 Hc). apply in_or_app.
      destruct (is_leaf t c) eqn:Hl; [left; unfold is_leaf in Hl; apply NumpyP.inb_spec in Hl; auto|right]. rewrite <- E5. apply filter_In. rewrite Hl. auto. }
    assert (G2 : forall n, node t n -> n <> r -> good s2 n).
    { intros n Hn Hr. apply B2. apply in_or_app. destruct (is_leaf t n) eqn:Hl; [left; unfold is_leaf in Hl; apply NumpyP.inb_spec in Hl; auto|right].
      apply filter_In. rewrite Hl. split; [|auto]. apply (in_hsvd_nodes t r V). auto. }
    destruct (root_step_ok L HL f shp t r T HD act s2 st B1 Hleaf) as (C1 & C2 & C3 & C4); auto.
    { intros c Hc. destruct (child_ne_root r c Hc). apply G2; auto. }
    split; [auto|]. split; [auto|]. split; [|split; [auto|]].
    - intros n Hn Hr. apply (good_ext shp t act s2); auto. intros c Hc. destruct (child_ne_root n c Hc). apply C3; auto.
    - apply C4, B3, A4. subst st0. reflexivity.
  Qed.
  Lemma state_tensor st : is_leaf t r = false -> lens t st -> (forall n, node t n -> n <> r -> good st n) -> rootdata f shp t r st ->
    (forall n, In n (internal_nodes t) -> activec (ps_cores st) n = true) ->
    let X := TB t (ps_cores st) in tb_ok X r /\ tb_shape X = shp /\ exts X r = [] /\ heads X r = colsof (cbases t st r).
  Proof.
    intros Hl HLn G RD HA X. assert (Hr := rt_root t r V). assert (HA' : forall n, node t n -> is_leaf t n = false -> active X n = true).
    { intros n Hn H. apply HA. unfold internal_nodes. apply filter_In. rewrite H. split; [apply in_nodes; auto|auto]. }
    assert (HRT : heads X r = colsof (cbases t st r) /\ exts X r = []).
    { destruct RD as (E & _). unfold heads, exts, arity_at. cbn [ttree X]. rewrite Hl. unfold core, X. cbn [cores]. rewrite E.
      assert (HE : length (children t r) = length (colsof (cbases t st r))) by (unfold colsof, cbases; rewrite !map_length; auto). rewrite HE, firstn_all, skipn_all. auto. }
    assert (HX : forall n, node t n -> n <> r -> active X n = true -> exts X n = [mcols (nthb st n)] /\ (arity_at t n <= ndim (core X n))%nat /\ last (shape (core X n)) 0%nat = mcols (nthb st n)).
    { intros n Hn Hne Ha. destruct (G n Hn Hne) as (_ & _ & _ & G4). unfold exts, arity_at, ndim, core, X in *. cbn [ttree cores] in *. destruct (is_leaf t n) eqn:El.
      - assert (EA := act_leaf st G n El Hne). unfold X in EA. rewrite Ha in EA. unfold leafdata in G4. rewrite <- EA in G4. destruct G4 as (E & _). rewrite E. cbn. auto.
      - destruct G4 as (E & _). rewrite E. assert (HE : length (children t n) = length (colsof (cbases t st n))) by (unfold colsof, cbases; rewrite !map_length; auto).
        rewrite HE, skipn_app, skipn_all, Nat.sub_diag, last_last, app_length. cbn [skipn app length]. split; [auto|]. split; [lia|auto]. }
    assert (HC : forall n c, edge t n c -> nth (index_of c (children t n)) (shape (core X n)) 0%nat = mcols (nthb st c)).
    { intros n c Hc. assert (Hn : node t n) by apply Hc. assert (Nl : is_leaf t n = false) by (destruct (is_leaf t n) eqn:El; auto; exfalso; exact (leaf_noedge n c El Hc)).
      assert (HS : exists e, shape (core X n) = colsof (cbases t st n) ++ e).
      { destruct (Nat.eq_dec n r) as [->|NE]. - destruct RD as (E & _). exists []. rewrite app_nil_r. exact E. - destruct (G n Hn NE) as (_ & _ & _ & G4). rewrite Nl in G4. destruct G4 as (E & _). eexists. exact E. }
      destruct HS as [e ->]. apply in_children in Hc; auto. destruct (index_of_nth _ _ Hc) as [I1 I2]. unfold colsof, cbases. rewrite map_map. rewrite app_nth1 by (rewrite map_length; auto).
      rewrite (map_nth_in _ _ _ 0%nat) by auto. rewrite I2. reflexivity. }
    assert (OX : tb_ok X r).
    { split; [exact T|]. split; [exact (proj1 HLn)|]. split; [apply HA'; auto|]. intros n Hn. cbn [ttree X] in Hn. split; [intros H; apply HA'; auto|]. split.
      - intros Ha. destruct (Nat.eqb_spec n r) as [->|NE].
        + destruct HRT as [E1 E2]. rewrite E2. split; [|split; auto]. destruct RD as (E & _). unfold arity_at, ndim, core, X. cbn [ttree cores]. rewrite Hl, E. unfold colsof, cbases. rewrite !map_length. auto.
        + destruct (HX n Hn NE Ha) as (E1 & E2 & E3). rewrite E1. auto.
      - intros c Hc Ha. cbn [ttree X] in Hc. rewrite HC by auto. destruct (child_ne_root n c Hc) as [c1 c2]. destruct (HX c c1 c2 Ha) as (_ & _ & E). auto. }
    split; [exact OX|]. split; [|split; apply HRT]. apply (nth_ext' 0%nat); [unfold tb_shape; rewrite map_length; auto|]. intros nu Hnu. unfold tb_shape in Hnu |- *. rewrite map_length in Hnu. cbn [X ttree] in *.
    rewrite (map_nth_in _ _ _ 0%nat) by auto. set (n := nth nu (d2i t) 0%nat). assert (El : is_leaf t n = true) by (apply d2i_leaf; auto). assert (Hn : node t n) by (apply (d2i_node t r T); auto).
    assert (NE : n <> r) by (intros E; rewrite E in El; congruence). rewrite <- (msize_leaf shp t r T nu Hnu). fold n. unfold tb_size. destruct (G n Hn NE) as (_ & _ & _ & G4). rewrite El in G4. unfold leafdata in G4.
    assert (EA := act_leaf st G n El NE). fold X in EA. rewrite EA. destruct (nth (n - 1) act false).
    - destruct G4 as (E & _). unfold core, X. cbn [cores]. rewrite E. reflexivity.
    - destruct G4 as (_ & E & _). assert (He : edge t (parent t n) n) by (apply (parent_is_edge t r V); auto). rewrite (child_index X r OX _ n He). cbn [ttree X]. rewrite HC by auto. rewrite E. reflexivity.
  Qed.

End Main.

(** the run of tree_based_approximation *)
Lemma tree_inv svd L factor adaptive f shp tol mr sub rnd choice t oact X st : tree_based_approximation svd L factor adaptive f shp tol mr sub rnd choice t oact = Some (X, st) ->
  exists act tol' mr' s1 s2, expand_param (nbn t) (local_tol act tol) = Some tol' /\ expand_param (nbn t) mr = Some mr' /\ act = match oact with None => repeat true (nbn t) | Some a => a end /\
    ofold (leaf_step svd L factor adaptive f shp t act tol' mr' sub rnd choice) (seq 0 (length shp))
      (PS (repeat no_core (nbn t)) (repeat (MX 0 0 (fun _ _ => 0)) (nbn t)) (repeat [] (nbn t)) 0 []) = Some s1 /\
    ofold (inner_step svd L factor adaptive f shp t tol' mr' rnd) (inner_nodes t) s1 = Some s2 /\ root_step L f shp t s2 = Some st /\
    X = TB t (ps_cores st) /\ (forall n, In n (internal_nodes t) -> activec (ps_cores st) n = true).
Proof.
  intros H. unfold tree_based_approximation in H. cbv zeta in H. set (act := match oact with None => _ | Some a => a end) in *. set (st0 := PS _ _ _ _ _) in *.
  destruct (expand_param (nbn t) (local_tol act tol)) as [tol'|] eqn:E1; [|discriminate]. cbn [bind] in H. destruct (expand_param (nbn t) mr) as [mr'|] eqn:E2; [|discriminate]. cbn [bind] in H.
  destruct (ofold (leaf_step _ _ _ _ _ _ _ _ _ _ _ _ _) _ st0) as [s1|] eqn:E3; [|discriminate]. cbn [bind] in H.
  destruct (ofold (inner_step _ _ _ _ _ _ _ _ _ _) _ s1) as [s2|] eqn:E4; [|discriminate]. cbn [bind] in H. destruct (root_step L f shp t s2) as [s3|] eqn:E5; [|discriminate]. cbn [bind] in H.
  destruct (tb_make (ps_cores s3) t) as [Y|] eqn:E6; [|discriminate]. cbn [bind] in H. injection H as -> ->.
  unfold tb_make in E6. destruct (forallb _ _) eqn:E7; [|discriminate]. injection E6 as <-. rewrite forallb_forall in E7.
  exists act, tol', mr', s1, s2. repeat (split; auto).
Qed.

(** the result *)
Theorem tree_interpolates svd L factor adaptive f shp tol mr sub rnd choice t r oact X st : svd_contract svd -> lapack_ok L -> dim_tree t r -> length shp = length (d2i t) ->
  (forall n na N, length (rnd n na N) = N) -> (forall n m k, (k <= m)%nat -> length (choice n m k) = k /\ forall i, In i (choice n m k) -> (i < m)%nat) ->
  tree_based_approximation svd L factor adaptive f shp tol mr sub rnd choice t oact = Some (X, st) ->
  ttree X = t /\ tb_ok X r /\ tb_shape X = shp /\ exts X r = [] /\ (forall is, length is = length shp -> In (sel 0%nat is (dims t r)) (nthg st r) -> tval X r is [] = f is) /\
  nthg st r = map (grid_point (map (nthg st) (children t r))) (boxF (shape (core X r))) /\
  (forall n, node t n -> n <> r -> Forall (valid (sel 0%nat shp (dims t n))) (nthg st n) /\ (active X n = true -> length (nthg st n) = tb_rank X n)) /\ ps_n st = length (ps_pts st).
Proof.
  intros SV HL T HD RN CH H. destruct (tree_inv _ _ _ _ _ _ _ _ _ _ _ _ _ _ _ H) as (act & tol' & mr' & s1 & s2 & E1 & E2 & EA & E3 & E4 & E5 & EX & HA).
  destruct (run_state svd SV L HL factor adaptive f shp t r T HD act tol' mr' sub rnd choice RN CH _ s1 s2 st eq_refl E3 E4 E5) as (Hl & HLn & G & RD & HN).
  destruct (state_tensor f shp t r T HD act st Hl HLn G RD HA) as (OX & HS & HE & HH). rewrite <- EX in OX, HS, HE, HH. assert (ET : ttree X = t) by (rewrite EX; auto).
  assert (Hr := rt_root t r (proj1 T)).
  assert (RS : rowsof (cbases t st r) = colsof (cbases t st r)).
  { unfold rowsof, colsof, cbases. rewrite !map_map. apply map_ext_in. intros c Hc. apply in_children in Hc; auto. destruct (child_ne_root t r T r c Hc) as [c1 c2]. destruct (G c c1 c2) as (_ & E & _). auto. }
  split; [auto|]. split; [auto|]. split; [auto|]. split; [auto|]. split.
  { rewrite EX in HH |- *. exact (root_value f shp t r T HD act st G Hl RD HH). }
  split.
  { destruct RD as (R1 & R2 & _). rewrite R2, RS. unfold core. rewrite EX. cbn [cores]. rewrite R1. reflexivity. }
  split; [|auto]. intros n Hn Hne. destruct (G n Hn Hne) as (G1 & G2 & G3 & G4). split; [auto|]. intros Ha. rewrite G1, G2.
  unfold tb_rank. rewrite ET. destruct (is_leaf t n) eqn:El.
  - rewrite Ha. unfold leafdata in G4. assert (EB := act_leaf shp t r T HD act st G n El Hne). rewrite <- EX, Ha in EB. rewrite <- EB in G4. destruct G4 as (E & _). unfold core. rewrite EX. cbn [cores]. rewrite E. reflexivity.
  - destruct G4 as (E & _). assert (HP : parent t n <> 0%nat). { assert (HQ := parent_is_edge t r (proj1 T) n Hn Hne). destruct HQ as (HQ & _). unfold node in HQ. lia. }
    apply Nat.eqb_neq in HP. rewrite HP. cbn [negb orb]. unfold core. rewrite EX. cbn [cores]. rewrite E, last_last. reflexivity.
Qed.
