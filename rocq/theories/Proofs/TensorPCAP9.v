(** exactness of the tensors of tree_based_approximation. *)
From Coq Require Import List Arith Lia Bool Reals Permutation Lra.
From Verif.Base Require Import ListAux CRing Index RealAux LinAlg.
From Verif.Model Require Import Sorting Numpy FullTensor Diagonal Canonical DimensionTree TreeBased Truncator HSVD HsvdTree Functions Measures Learning DensityL2 MagicIndices AltMin TensorPCA.
From Verif.Spec Require Import TensorSpec TreeSpec TreeTensorSpec TruncatorSpec LearningSpec FunctionSpec MagicSpec PCASpec.
From Verif.Proofs Require AltMinP4.
From Verif.Proofs Require Import LearningP2 NumpyP FullTensorP FunctionsP3 DimTreeP TreeTensorP HsvdP2 HsvdTreeP4 MagicP OrthNodeP4 TensorPCAP1 TensorPCAP2 TensorPCAP3 TensorPCAP4 TensorPCAP5 TensorPCAP6 TensorPCAP7 TensorPCAP8.
From Verif.Model Require Import Learning.
Import ListNotations.
Local Open Scope R_scope.

Lemma omin_least a b x : least_of a b x -> omin a b = Some x.
Proof.
  intros (H & HA & HB). destruct a as [u|], b as [v|]; cbn [omin]; destruct H as [H|H]; try discriminate; try exact H.
  - injection H as ->. specialize (HB v eq_refl). rewrite Rmin_left by lra. reflexivity.
  - injection H as ->. specialize (HA u eq_refl). rewrite Rmin_right by lra. reflexivity.
Qed.
Lemma ceil_spec y : 0 <= y -> INR (ceil_nat y) - 1 < y <= INR (ceil_nat y).
Proof.
  intros H. unfold ceil_nat. destruct (base_Int_part (- y)) as [B1 B2]. assert (Hz : (0 <= - Int_part (- y))%Z) by (apply le_IZR; rewrite opp_IZR; lra).
  rewrite INR_IZR_INZ, Z2Nat.id by auto. rewrite opp_IZR. lra.
Qed.
Lemma floor_spec x : 0 <= x -> INR (floor_nat x) <= x < INR (floor_nat x) + 1.
Proof.
  intros H. unfold floor_nat. destruct (base_Int_part x) as [B1 B2]. assert (Hz : (-1 < Int_part x)%Z) by (apply lt_IZR; cbn; lra).
  rewrite INR_IZR_INZ, Z2Nat.id by lia. lra.
Qed.
Lemma nsamp_draws factor x m : draws_count factor x m (nsamp factor x m).
Proof.
  unfold draws_count, nsamp. destruct (Rlt_dec x 1); [split; [auto|lra]|]. split; [intros; lra|]. intros H. apply ceil_spec. apply Rmult_le_pos; [apply pos_INR|lra].
Qed.
Lemma expand_nth n l l' k : expand_param n l = Some l' -> (1 <= k <= n)%nat -> nth (k - 1) l' None = node_param l k.
Proof.
  intros H Hk. unfold expand_param in H. destruct l as [|x [|y l]].
  - destruct (length (@nil (option R)) =? n)%nat eqn:E; [|discriminate]. injection H as <-. reflexivity.
  - injection H as <-. cbn [node_param]. rewrite (nth_indep _ None x) by (rewrite repeat_length; lia). apply nth_repeat.
  - destruct (_ =? n)%nat; [|discriminate]. injection H as <-. reflexivity.
Qed.
Lemma sqrt_inv_nonneg y : 0 <= / sqrt y.
Proof. destruct (Req_dec (sqrt y) 0) as [E|E]; [rewrite E, Rinv_0; lra|]. assert (H := sqrt_pos y). apply Rlt_le, Rinv_0_lt_compat. lra. Qed.

(** the tolerance of a node is positive or at least one when the prescribed one is *)
Lemma local_least act tol mr n x : least_of (node_param tol n) (node_param mr n) x -> x <= 0 \/ 1 <= x ->
  exists x', least_of (node_param (local_tol act tol) n) (node_param mr n) x' /\ (x <= 0 -> x' <= 0) /\ (1 <= x -> x' = x).
Proof.
  intros HL Hx. destruct tol as [|[u|] [|v tol]]; try (exists x; auto; fail). cbn [local_tol]. destruct (Rlt_dec u 1) as [Hu|Hu]; [|exists x; auto].
  set (w := u / sqrt _). cbn [node_param] in *. destruct HL as (H1 & H2 & H3). specialize (H2 u eq_refl). destruct Hx as [Hx|Hx]; [|lra].
  assert (HW : u <= 0 -> w <= 0) by (intros Hu0; unfold w, Rdiv; assert (HS := sqrt_inv_nonneg (INR (count_occ bool_dec act true - 1))); nra).
  destruct (node_param mr n) as [v|] eqn:EV.
  - exists (Rmin w v). split; [split; [unfold Rmin; destruct (Rle_dec w v); auto|split; intros y E; injection E as <-; [apply Rmin_l|apply Rmin_r]]|]. split; [|intros; lra]. intros _.
    destruct H1 as [E|E]; injection E as ->; [|assert (H := Rmin_r w x); lra]. assert (H := Rmin_l w v). specialize (HW Hx). lra.
  - exists w. split; [split; [auto|split; [intros y E; injection E as <-; lra|discriminate]]|]. split; [|intros; lra]. intros _. destruct H1 as [E|E]; [injection E as ->; auto|discriminate].
Qed.

Section Run.
  Variable svd : nd R -> nd R * list R * nd R.
  Hypothesis SV : svd_contract svd.
  Variable L : lapack.
  Hypothesis HL : lapack_ok L.
  Variables (factor : nat) (adaptive : bool) (f : list nat -> R) (shp : list nat).
  Variables (t : dtree) (r : nat).
  Hypothesis T : dim_tree t r.
  Hypothesis HD : length shp = length (d2i t).
  Variables (act : list bool) (tol mr : list (option R)) (rnd : nat -> sampler) (choice : nat -> nat -> nat -> list nat).
  Hypothesis RN : forall n na N, length (rnd n na N) = N.
  Hypothesis RV : forall n na N, Forall (fun k => (k < length shp)%nat) na -> Forall (valid (sel 0%nat shp na)) (rnd n na N).
  Hypothesis CH : forall n m k, (k <= m)%nat -> length (choice n m k) = k /\ forall i, In i (choice n m k) -> (i < m)%nat.
  Notation lstep := (leaf_step svd L factor adaptive f shp t act tol mr EIM rnd choice).
  Notation istep := (inner_step svd L factor adaptive f shp t tol mr rnd).
  Let V : rooted_tree t r := proj1 T.

  Lemma run_ex st0 s1 s2 st : st0 = PS (repeat no_core (nbn t)) (repeat (MX 0 0 (fun _ _ => 0)) (nbn t)) (repeat [] (nbn t)) 0 [] ->
    ofold lstep (seq 0 (length shp)) st0 = Some s1 -> ofold istep (inner_nodes t) s1 = Some s2 -> root_step L f shp t s2 = Some st ->
    (forall n, node t n -> n <> r -> ex factor adaptive f shp t act tol mr rnd st n) /\
    (forall c c' : list nat -> R, (forall js, valid (rowsof (cbases t st r)) js -> bsum (colsof (cbases t st r)) (fun ks => kval (cbases t st r) js ks * c ks) = bsum (colsof (cbases t st r)) (fun ks => kval (cbases t st r) js ks * c' ks)) ->
      forall ks, valid (colsof (cbases t st r)) ks -> c ks = c' ks).
  Proof.
    intros E0 E1 E2 E3. assert (HLn : lens t st0) by (subst st0; unfold lens; cbn; rewrite !repeat_length; auto).
    assert (NC : forall nu, In nu (seq 0 (length shp)) -> nthc (ps_cores st0) (nth nu (d2i t) 0%nat) = no_core) by (intros nu _; subst st0; unfold nthc; cbn [ps_cores]; apply nth_repeat).
    assert (NI : forall nu, In nu (seq 0 (length shp)) -> (nu < length (d2i t))%nat) by (intros nu H; apply in_seq in H; lia).
    destruct (leaves_fold svd SV L HL factor adaptive f shp t r T HD act tol mr EIM rnd choice RN CH (seq 0 (length shp)) st0 s1) as (A1 & A2 & A3 & A4); auto. { apply seq_NoDup. }
    assert (A5 := leaves_fold2 svd SV L HL factor adaptive f shp t r T HD act tol mr rnd choice RN RV CH (seq 0 (length shp)) st0 s1 (seq_NoDup _ _) NI HLn NC E1).
    assert (Hleaf : is_leaf t r = false).
    { destruct (is_leaf t r) eqn:Hl; auto. exfalso. unfold root_step in E3. rewrite (root_eq t r V) in E3. rewrite (proj1 (leaf_children t r T r (rt_root t r V)) Hl) in E3. cbn in E3. discriminate. }
    rewrite inner_filter in E2. set (inn := filter (fun n => negb (is_leaf t n)) (hsvd_nodes t)) in *.
    assert (HNr : ~ In r inn) by (intros H; apply filter_In in H; destruct H as [H _]; apply (in_hsvd_nodes t r V) in H; tauto).
    assert (D1 : forall m, In m (d2i t) -> node t m /\ good shp t act s1 m /\ ex factor adaptive f shp t act tol mr rnd s1 m /\ forall c, edge t m c -> In c (d2i t)).
    { intros m Hm. assert (Hl : is_leaf t m = true) by (unfold is_leaf; apply NumpyP.inb_spec; auto). destruct (leaf_index t m Hl) as [H1 H2].
      split; [apply (leaf_node t r T); auto|]. split; [rewrite <- H2; apply A2; apply in_seq; rewrite HD; lia|]. split; [rewrite <- H2; apply A5; apply in_seq; rewrite HD; lia|]. intros c Hc. exfalso. exact (leaf_noedge t r T m c Hl Hc). }
    assert (D2 : NoDup inn) by (apply NoDup_filter, (NoDup_hsvd_nodes t r V)).
    assert (D3 : forall m, In m inn -> ~ In m (d2i t) /\ node t m /\ is_leaf t m = false).
    { intros m Hm. apply filter_In in Hm. destruct Hm as [Hm Hl]. apply negb_true_iff in Hl. apply (in_hsvd_nodes t r V) in Hm. split; [|tauto].
      intros Hi. assert (is_leaf t m = true) by (unfold is_leaf; apply NumpyP.inb_spec; auto). congruence. }
    assert (D4 : forall l1 n l2 c, inn = l1 ++ n :: l2 -> edge t n c -> In c (d2i t ++ l1)).
    { intros l1 n l2 c E Hc. destruct (filter_split' _ _ _ _ _ E) as (h1 & h2 & E4 & E5). assert (Hin := hsvd_topo t r V h1 n h2 c E4 Hc). apply in_or_app.
      destruct (is_leaf t c) eqn:Hl; [left; unfold is_leaf in Hl; apply NumpyP.inb_spec in Hl; auto|right]. rewrite <- E5. apply filter_In. rewrite Hl. auto. }
    assert (Hall : forall n, node t n -> n <> r -> In n (d2i t ++ inn)).
    { intros n Hn Hr. apply in_or_app. destruct (is_leaf t n) eqn:Hl; [left; unfold is_leaf in Hl; apply NumpyP.inb_spec in Hl; auto|right]. apply filter_In. rewrite Hl. split; [|auto]. apply (in_hsvd_nodes t r V). auto. }
    destruct (inner_fold svd SV L HL factor adaptive f shp t r T HD act tol mr rnd RN inn (d2i t) s1 s2) as (B1 & B2 & B3); auto.
    { intros m Hm. destruct (D1 m Hm) as (H1 & H2 & _ & H4). auto. }
    assert (B4 := inner_fold2 svd SV L HL factor adaptive f shp t r T HD act tol mr rnd RN RV inn (d2i t) s1 s2 D1 D2 D3 D4 A1 E2).
    assert (CR : forall c, edge t r c -> good shp t act s2 c) by (intros c Hc; destruct (child_ne_root t r T r c Hc); apply B2, Hall; auto).
    destruct (root_step_ok L HL f shp t r T HD act s2 st B1 Hleaf) as (C1 & C2 & C3 & C4); auto.
    split.
    - intros n Hn Hr. apply (ex_ext factor adaptive f shp t act tol mr rnd s2); auto. intros c Hc. destruct (child_ne_root t r T n c Hc). apply C3; auto.
    - assert (EB : cbases t st r = cbases t s2 r) by (unfold cbases; apply map_ext_in; intros c Hc; apply in_children in Hc; [|exact (rt_root t r V)]; destruct (child_ne_root t r T r c Hc); apply C3; auto).
      rewrite EB. exact (root_step2 L HL f shp t r T HD act s2 st Hleaf CR E3).
  Qed.
End Run.

Theorem tree_exact svd L factor adaptive f shp tol mr rnd choice t r oact X st : svd_contract svd -> lapack_ok L -> dim_tree t r -> length shp = length (d2i t) ->
  (forall n na N, length (rnd n na N) = N) -> (forall n na N, Forall (fun k => (k < length shp)%nat) na -> Forall (valid (sel 0%nat shp na)) (rnd n na N)) ->
  (forall n m k, (k <= m)%nat -> length (choice n m k) = k /\ forall i, In i (choice n m k) -> (i < m)%nat) ->
  tree_based_approximation svd L factor adaptive f shp tol mr EIM rnd choice t oact = Some (X, st) ->
  (forall n, node t n -> n <> r -> active X n = true -> exact_node f shp factor adaptive tol mr (rnd n) n (dims t n) (prodn (heads X n))) ->
  forall is, valid shp is -> tval X r is [] = f is.
Proof.
  intros SV HL T HD RN RV CH H HX is HV. destruct (tree_inv _ _ _ _ _ _ _ _ _ _ _ _ _ _ _ H) as (act & tol' & mr' & s1 & s2 & E1 & E2 & EA & E3 & E4 & E5 & EX & HA).
  destruct (run_state svd SV L HL factor adaptive f shp t r T HD act tol' mr' EIM rnd choice RN CH _ s1 s2 st eq_refl E3 E4 E5) as (Hl & HLn & G & RD & HN).
  destruct (run_ex svd SV L HL factor adaptive f shp t r T HD act tol' mr' rnd choice RN RV CH _ s1 s2 st eq_refl E3 E4 E5) as (XX & RX).
  destruct (state_tensor f shp t r T HD act st Hl HLn G RD HA) as (OX & HS & HE & HH). subst X.
  assert (ACT : forall n, node t n -> is_leaf t n = false -> active (TB t (ps_cores st)) n = true).
  { intros n Hn H0. apply HA. unfold internal_nodes. apply filter_In. rewrite H0. split; [apply in_nodes; auto|auto]. }
  apply (exact_value L HL factor adaptive f shp t r T HD act tol' mr' rnd st G XX); auto. clear is HV.
  intros n Hn Hr Ha. assert (EM : prodn (heads (TB t (ps_cores st)) n) = if is_leaf t n then msize shp t n else prodn (colsof (cbases t st n))).
  { destruct (is_leaf t n) eqn:El.
    - rewrite (heads_leaf _ r OX n El Ha). destruct (G n Hn Hr) as (_ & _ & _ & G4). rewrite El in G4. unfold leafdata in G4.
      assert (EB := act_leaf shp t r T HD act st G n El Hr). rewrite Ha in EB. rewrite <- EB in G4. destruct G4 as (E & _). unfold core. cbn [cores]. rewrite E. cbn. lia.
    - destruct (heads_inner shp t r act st G n Hn El Hr) as [-> _]. reflexivity. }
  destruct (HX n Hn Hr Ha) as (x & X1 & X2 & X3). destruct (local_least act tol mr n x X1) as (x' & Y1 & Y2 & Y3); [tauto|].
  rewrite EM in X3. exists x'. unfold node in Hn. split; [|split].
  - rewrite (expand_nth _ _ _ n E1), (expand_nth _ _ _ n E2) by lia. apply omin_least; auto.
  - destruct X2 as [[X2 X2']|[X2 X2']]; [left; auto|right]. rewrite (Y3 X2). split; [auto|]. apply X2'. apply floor_spec. lra.
  - apply X3. destruct (Rle_dec x 0) as [HX0|HX0].
    + specialize (Y2 HX0). unfold draws_count, nsamp. destruct (Rlt_dec x' 1); [|lra]. split; [auto|lra].
    + rewrite Y3 by tauto. apply nsamp_draws.
Qed.
