(** hsvd of a tree-based tensor: the flag is_orth. *)
From Coq Require Import List Arith Lia Bool Reals Lra Permutation.
From Verif.Base Require Import ListAux CRing Index RealAux.
From Verif.Model Require Import Sorting Numpy FullTensor Diagonal Canonical DimensionTree TreeBased Truncator HSVD HsvdTree.
From Verif.Spec Require Import TensorSpec TreeSpec TreeTensorSpec TruncatorSpec.
From Verif.Proofs Require Import NumpyP FullTensorP FullTensorP3 FullTensorP4 DiagonalP DimTreeP DimTreeP2 TreeTensorP TreeTensorP2 TreeTensorP3 TreeTensorP4 TreeTensorP6 TreeTensorP7 TreeTensorP12 TreeTensorP13 TreeTensorP14 TreeTensorP15 TreeTensorP29 PolyP5 SpectralP LapackP EckartP FunctionalP4 MeasuresP TruncatorP TruncatorP2 TruncatorP3 TruncatorP4 TruncatorP5 HsvdP2 HsvdP3 HsvdP5 HsvdP7 HsvdP9 HsvdTreeP1 HsvdTreeP2 HsvdTreeP3 HsvdTreeP4 HsvdTreeP5 HsvdTreeP6 HsvdTreeP7 HsvdTreeP8 HsvdTreeP9 HsvdTreeP10 HsvdTreeP11.
Import ListNotations.
Local Open Scope R_scope.

Section Parts.
  Variable svd : nd R -> nd R * list R * nd R.
  Variable qr : nd R -> nd R * nd R.
  Hypothesis SVD : svd_contract svd.
  Hypothesis QR : qr_contract qr.
  Variables (X : tbt R) (r : nat) (t : truncator) (mr : list (option nat)) (A : nd R).
  Hypothesis O : tb_ok X r.
  Hypothesis H2 : (2 <= tb_order X)%nat.
  Hypothesis HA : tb_full X = Some A.
  Hypothesis Ht : thresholding_parameter t = None \/ thresholding_parameter t = Some 0.
  Local Notation tr := (ttree X).
  Hypothesis Emr : mr = match max_rank t with [m] => repeat m (nbn tr) | l => l end.
  Hypothesis Lmr : length mr = nbn tr.
  Hypothesis Hmr : Forall (fun m => m <> Some 0%nat) mr.
  Let V : dim_tree tr r := proj1 O.
  Let T : rooted_tree tr r := proj1 V.
  Lemma hsvd_tb2 : exists Z F kk l t', tb_orth qr X = Some Z /\ same_val X Z r /\ (forall n, node tr n -> active Z n = active X n) /\
    (forall n, node tr n -> active X n = true -> n <> r -> orth_cols (core Z n)) /\ (forall n, node tr n -> n <> r -> (csize Z n <= csize X n)%nat) /\
    (forall n, okn X r n -> shape (F n) = [csize Z n; kk n] /\ (0 < kk n)%nat /\ orthonormal (csize Z n) (kk n) (fun i c => get (F n) [i; c]) /\
       match nth (n - 1) mr None with Some m => (kk n <= m)%nat | None => True end) /\
    ofold (fun l n => hsvd_mult tr (F n) l n) (filter (active Z) (hsvd_nodes tr)) (cores Z) = Some l /\
    hsvd_tb svd qr 2 t X = Some (TB tr l, true, t').
  Proof.
    destruct (tb_orth_ranks qr X r QR O) as (Z & EZ & SV & AZ & CZ & DZ). pose proof (proj1 SV) as OZ. pose proof (proj1 (proj2 SV)) as TZ.
    assert (H2' : (2 <= tb_order Z)%nat) by (unfold tb_order; rewrite TZ; exact H2).
    assert (HO : forall n, node (ttree Z) n -> active Z n = true -> n <> r -> orth_cols (core Z n)) by (rewrite TZ; intros n Hn Ha NE; rewrite AZ in Ha by auto; auto).
    destruct (gramians_all qr Z r OZ H2' HO) as (g & Eg & Lg & G0 & G1' & G2'). rewrite TZ in Lg, G1', G2'.
    assert (G1 : forall m, node tr m -> m <> r -> active X m = true -> exists G, nth (m - 1) g None = Some G /\ good Z r m G) by (intros m Hm NE Ha; apply G1'; auto; rewrite AZ; auto).
    set (mrs := hsvd_max_rank t tr). set (ltol := hsvd_tol t (map (active X) (nodes tr))).
    set (F := Fn svd X t Z g). set (kk := kkn svd X t Z g).
    assert (FR : forall n t', okn X r n -> thresholding_parameter t' = None \/ thresholding_parameter t' = Some 0 -> hsvd_frame svd t' mrs ltol g n = Some (set_max_rank t' (nth (n - 1) mrs None), F n)).
    { intros n t' Hn Ht'. apply (frame_n svd X r t mr H2 Emr Lmr Z g G1 n t' Hn Ht'). }
    assert (HL : forall n, In n (filter (active Z) (hsvd_nodes tr)) <-> okn X r n).
    { intros n. rewrite filter_In, (in_hsvd_nodes tr r T). split; [intros ((K1 & K2) & K3)|intros (K1 & K2 & K3)]; rewrite AZ in * by auto; split; auto. }
    destruct (mult_any svd SVD X r t mr O H2 Ht Emr Lmr Hmr Z SV AZ CZ g G1 _ (NoDup_filter _ (NoDup_hsvd_nodes tr r T)) HL) as (l & E2 & OY & AY & SY & EY & CY & DY). fold F in E2.
    destruct (fold_pair (fun t n => hsvd_frame svd t mrs ltol g n) (fun U l n => hsvd_mult tr U l n) F (fun n => nth (n - 1) mrs None) (fun t => thresholding_parameter t = None \/ thresholding_parameter t = Some 0) (filter (active Z) (hsvd_nodes tr))) with (t := t) (c := cores Z) (l := l) as (t' & E3 & _ & E4); auto.
    { intros n t' Hn Ht'. apply FR; auto. apply HL. auto. }
    exists Z, F, kk, l, t'. split; auto. split; auto. split; auto. split; auto. split; auto. split.
    - intros n Hn. split; [apply (Fn_shape svd SVD X r t Z g G1 n Hn)|]. split; [apply (kkn_pos svd X r t mr O H2 Emr Lmr Hmr Z SV AZ g n Hn)|]. split; [apply (Fn_orth svd SVD X r t mr H2 Lmr Z g G1 n Hn)|].
      destruct Hn as (Hn & Ha & NE). destruct (nth (n - 1) mr None) as [m|] eqn:Em; auto. unfold kk, kkn, kn. rewrite (mrs_nth X r t mr O H2 Emr Lmr n Hn NE), Em. cbn [min_opt]. lia.
    - split; auto. unfold hsvd_tb. cbv zeta. rewrite EZ. cbn [bind]. rewrite Eg. cbn [bind fst]. fold mrs ltol. rewrite E3. cbn [bind fst snd]. rewrite (tb_make_ok l tr r OY). reflexivity.
  Qed.
End Parts.

(** the flag is_orth after hsvd: linear tree of order 3; A[i, j, 0] = diag(4, 3) *)
Definition flag_tree : dtree := dt_linear 3 [0; 1; 2]%nat.
Definition flag_X : tbt R := TB flag_tree
  [ND [1; 1]%nat (fun _ => 5);
   ND [2; 2; 1]%nat (fun is => if (nth 0 is 0 =? nth 1 is 0)%nat then if (nth 0 is 0 =? 0)%nat then 4 / 5 else 3 / 5 else 0);
   ND [1; 1]%nat (fun _ => 1);
   ND [2; 2]%nat (fun is => if (nth 0 is 0 =? nth 1 is 0)%nat then 1 else 0);
   ND [2; 2]%nat (fun is => if (nth 0 is 0 =? nth 1 is 0)%nat then 1 else 0)].
Definition flag_t : truncator := Trunc 0 [Some 1%nat] Hard None.
Lemma flag_V : dim_tree flag_tree 1.
Proof. apply dt_linear_ok; [lia|]. apply Permutation_refl. Qed.
Lemma flag_ok : tb_ok flag_X 1.
Proof. apply tb_okb_ok; [exact flag_V|]. vm_compute. reflexivity. Qed.
Lemma mult_root U l n l' : hsvd_mult flag_tree U l n = Some l' -> (2 <= n <= 5)%nat -> length l = 5%nat ->
  length l' = 5%nat /\
  ((n = 4 \/ n = 5)%nat -> nthc l' 1 = nthc l 1) /\
  ((n = 2 \/ n = 3)%nat -> exists Ut, np_transpose U [1%nat; 0%nat] = Some Ut /\ ft_tensor_matrix_product (nthc l 1) [Ut] (Some [(n - 2)%nat]) = Some (nthc l' 1)).
Proof.
  intros H Hn L. unfold hsvd_mult in H. destruct (np_transpose U [1%nat; 0%nat]) as [Ut|]; [|discriminate]. cbn [bind] in H.
  destruct (ft_tensor_matrix_product (nthc l n) [Ut] (Some [(ndim (nthc l n) - 1)%nat])) as [C|]; [|discriminate]. cbn [bind] in H. cbv zeta in H.
  set (p := parent flag_tree n) in *. destruct (ft_tensor_matrix_product (nthc (setc n C l) p) [Ut] (Some [(child_number flag_tree n - 1)%nat])) as [P|] eqn:E; [|discriminate]. cbn [bind] in H. inversion H; subst l'. clear H.
  split; [rewrite !setc_length; auto|]. split.
  - intros Hc. assert (Ep : p = 2%nat) by (destruct Hc as [-> | ->]; reflexivity). rewrite Ep. rewrite nthc_setc by (rewrite ?setc_length; lia). cbn [Nat.eqb]. rewrite nthc_setc by lia. destruct (Nat.eqb_spec 1 n); [lia|auto].
  - intros Hc. assert (Ep : p = 1%nat) by (destruct Hc as [-> | ->]; reflexivity). rewrite Ep in *. exists Ut. split; auto.
    rewrite nthc_setc in E by lia. destruct (Nat.eqb_spec 1 n); [lia|]. rewrite nthc_setc by (rewrite ?setc_length; lia). cbn [Nat.eqb]. rewrite <- E. f_equal. f_equal. f_equal. destruct Hc as [-> | ->]; reflexivity.
Qed.
Lemma tmp11 (A U Ut P : nd R) d : shape A = [1; 1]%nat -> shape U = [1; 1]%nat -> np_transpose U [1%nat; 0%nat] = Some Ut -> (d < 2)%nat -> ft_tensor_matrix_product A [Ut] (Some [d]) = Some P ->
  shape P = [1; 1]%nat /\ get P [0; 0]%nat = get U [0; 0]%nat * get A [0; 0]%nat.
Proof.
  intros SA SU EU Hd EP. assert (SUt : shape Ut = [1; 1]%nat /\ get Ut [0; 0]%nat = get U [0; 0]%nat).
  { unfold np_transpose in EU. unfold ndim in EU. rewrite SU in EU. cbn in EU. inversion EU; subst Ut. cbn. split; auto. }
  destruct SUt as [SUt VUt].
  destruct d as [|[|d]]; [| |lia].
  - destruct (tmp_single A Ut [] [1%nat] 1 1 SA SUt) as (Q & HQ & HsQ & HgQ). cbn [length] in HQ. rewrite EP in HQ. inversion HQ; subst Q. split; [exact HsQ|].
    pose proof (HgQ [] 0%nat [0%nat] (Forall2_nil _) Nat.lt_0_1 (Forall2_cons _ _ Nat.lt_0_1 (Forall2_nil _))) as E. cbn [app rsum] in E. rewrite E, VUt. rcbn. ring.
  - destruct (tmp_single A Ut [1%nat] [] 1 1 SA SUt) as (Q & HQ & HsQ & HgQ). cbn [length] in HQ. rewrite EP in HQ. inversion HQ; subst Q. split; [exact HsQ|].
    pose proof (HgQ [0%nat] 0%nat [] (Forall2_cons _ _ Nat.lt_0_1 (Forall2_nil _)) Nat.lt_0_1 (Forall2_nil _)) as E. cbn [app rsum] in E. rewrite E, VUt. rcbn. ring.
Qed.

(** the value of a tensor with this tree and ranks k4, k5 at the leaves 4, 5 and 1 at the other nodes *)
Lemma flag_tval (W : tbt R) k4 k5 i j : ttree W = flag_tree -> tb_ok W 1 -> (forall n, (1 <= n <= 5)%nat -> active W n = true) ->
  csize W 4 = k4 -> csize W 5 = k5 -> csize W 2 = 1%nat -> csize W 3 = 1%nat ->
  tval W 1 [i; j; 0%nat] [] = (get (core W 1) [0; 0]%nat * get (core W 3) [0; 0]%nat) *
    rsum k4 (fun a => rsum k5 (fun b => get (core W 2) [a; b; 0]%nat * (get (core W 4) [i; a] * get (core W 5) [j; b]))).
Proof.
  intros TW OW AW C4 C5 C2 C3. pose proof (proj1 OW) as V.
  rewrite (tval_internal W 1 V 1) by (rewrite TW; first [reflexivity|unfold node; cbn; lia]). rewrite (heads_internal W 1 OW 1) by (rewrite TW; first [reflexivity|unfold node; cbn; lia]).
  rewrite TW. change (children flag_tree 1) with [2; 3]%nat. cbn [map]. rewrite C2, C3. cbn [bsum rsum app combine]. rcbn. rewrite !Rplus_0_l. cbn [lprod fst snd].
  rewrite (tval_leaf W 1 V 3) by (rewrite ?TW; first [reflexivity|apply AW; lia]). rewrite TW. change (nth (index_of 3 (d2i flag_tree)) [i; j; 0%nat] 0%nat) with 0%nat.
  rewrite (tval_internal W 1 V 2) by (rewrite TW; first [reflexivity|unfold node; cbn; lia]). rewrite (heads_internal W 1 OW 2) by (rewrite TW; first [reflexivity|unfold node; cbn; lia]).
  rewrite TW. change (children flag_tree 2) with [4; 5]%nat. cbn [map]. rewrite C4, C5. cbn [bsum app combine lprod fst snd].
  rcbn. rewrite Rmult_1_r.
  rewrite (rsum_ext_R k4 (fun i0 => rsum k5 (fun i1 => get (core W 2) [i0; i1; 0%nat] * (tval W 4 [i; j; 0%nat] [i0] * (tval W 5 [i; j; 0%nat] [i1] * 1)))) (fun a => rsum k5 (fun b => get (core W 2) [a; b; 0]%nat * (get (core W 4) [i; a] * get (core W 5) [j; b])))).
  - ring.
  - intros a Ha. apply rsum_ext_R. intros b Hb. rewrite (tval_leaf W 1 V 4) by (rewrite ?TW; first [reflexivity|apply AW; lia]). rewrite (tval_leaf W 1 V 5) by (rewrite ?TW; first [reflexivity|apply AW; lia]).
    rewrite TW. change (nth (index_of 4 (d2i flag_tree)) [i; j; 0%nat] 0%nat) with i. change (nth (index_of 5 (d2i flag_tree)) [i; j; 0%nat] 0%nat) with j. ring.
Qed.
Lemma flag_A i j : (i < 2)%nat -> (j < 2)%nat -> tval flag_X 1 [i; j; 0%nat] [] = if (i =? j)%nat then if (i =? 0)%nat then 4 else 3 else 0.
Proof.
  intros Hi Hj. rewrite (flag_tval flag_X 2 2 i j); try reflexivity; [|exact flag_ok|intros n Hn; destruct n as [|[|[|[|[|[|n]]]]]]; try lia; reflexivity].
  destruct i as [|[|i]], j as [|[|j]]; try lia; cbn; field.
Qed.
Lemma flag_alg k4 k5 (q4 q5 c : nat -> nat -> R) (u4 u5 : nat -> R) m : orthonormal 2 k4 q4 -> orthonormal 2 k5 q5 ->
  rsum k4 (fun a => u4 a * u4 a) = 1 -> rsum k5 (fun a => u5 a * u5 a) = 1 ->
  (forall i j, (i < 2)%nat -> (j < 2)%nat -> m * rsum k4 (fun a => rsum k5 (fun b => c a b * (q4 i a * q5 j b))) = if (i =? j)%nat then if (i =? 0)%nat then 4 else 3 else 0) ->
  rsum 2 (fun i => rsum 2 (fun j => (m * rsum k4 (fun a => rsum k5 (fun b => c a b * (rsum k4 (fun l => q4 i l * u4 l) * u4 a * (rsum k5 (fun l => q5 j l * u5 l) * u5 b))))) * (m * rsum k4 (fun a => rsum k5 (fun b => c a b * (rsum k4 (fun l => q4 i l * u4 l) * u4 a * (rsum k5 (fun l => q5 j l * u5 l) * u5 b))))))) <= 16.
Proof.
  intros O4 O5 U4 U5 HA. set (y4 := fun i => rsum k4 (fun l => q4 i l * u4 l)). set (y5 := fun j => rsum k5 (fun l => q5 j l * u5 l)).
  assert (N4 : rsum 2 (fun i => y4 i * y4 i) = 1) by (unfold y4; rewrite (orth_comb 2 k4 q4 u4 O4); auto).
  assert (N5 : rsum 2 (fun i => y5 i * y5 i) = 1) by (unfold y5; rewrite (orth_comb 2 k5 q5 u5 O5); auto).
  assert (P4 : forall a, (a < k4)%nat -> rsum 2 (fun i => q4 i a * y4 i) = u4 a).
  { intros a Ha. unfold y4. rewrite (rsum_ext_R 2 _ (fun i => rsum k4 (fun l => u4 l * (q4 i a * q4 i l)))) by (intros i _; rewrite <- rsum_scal_l_R; apply rsum_ext_R; intros; ring).
    rewrite LinAlg.rsum_swap_R. rewrite (rsum_ext_R k4 _ (fun l => if (l =? a)%nat then u4 l else 0)); [apply LinAlg.rsum_delta_R; auto|]. intros l Hl. rewrite rsum_scal_l_R, (O4 a l Ha Hl). unfold LearningSpec.delta_ij. rewrite Nat.eqb_sym. destruct (l =? a)%nat; ring. }
  assert (P5 : forall a, (a < k5)%nat -> rsum 2 (fun i => q5 i a * y5 i) = u5 a).
  { intros a Ha. unfold y5. rewrite (rsum_ext_R 2 _ (fun i => rsum k5 (fun l => u5 l * (q5 i a * q5 i l)))) by (intros i _; rewrite <- rsum_scal_l_R; apply rsum_ext_R; intros; ring).
    rewrite LinAlg.rsum_swap_R. rewrite (rsum_ext_R k5 _ (fun l => if (l =? a)%nat then u5 l else 0)); [apply LinAlg.rsum_delta_R; auto|]. intros l Hl. rewrite rsum_scal_l_R, (O5 a l Ha Hl). unfold LearningSpec.delta_ij. rewrite Nat.eqb_sym. destruct (l =? a)%nat; ring. }
  set (s := m * rsum k4 (fun a => rsum k5 (fun b => c a b * (u4 a * u5 b)))).
  assert (ES : s = 4 * y4 0%nat * y5 0%nat + 3 * y4 1%nat * y5 1%nat).
  { transitivity (rsum 2 (fun i => rsum 2 (fun j => (m * rsum k4 (fun a => rsum k5 (fun b => c a b * (q4 i a * q5 j b)))) * (y4 i * y5 j)))).
    - unfold s. transitivity (rsum k4 (fun a => rsum k5 (fun b => m * c a b * (rsum 2 (fun i => q4 i a * y4 i) * rsum 2 (fun j => q5 j b * y5 j))))).
      + rewrite <- rsum_scal_l_R. apply rsum_ext_R. intros a Ha. rewrite <- rsum_scal_l_R. apply rsum_ext_R. intros b Hb. rewrite P4, P5 by auto. ring.
      + cbn [rsum]. rcbn. rewrite !Rplus_0_l. rewrite <- !rsum_scal_l_R, <- !rsum_scal_r_R, <- !rsum_plus_R. apply rsum_ext_R. intros a Ha.
        rewrite <- !rsum_scal_l_R, <- !rsum_scal_r_R, <- !rsum_plus_R. apply rsum_ext_R. intros b Hb. ring.
    - rewrite (rsum_ext_R 2 _ (fun i => rsum 2 (fun j => (if (i =? j)%nat then if (i =? 0)%nat then 4 else 3 else 0) * (y4 i * y5 j)))).
      + cbn [rsum]. rcbn. cbn [Nat.eqb]. ring.
      + intros i Hi. apply rsum_ext_R. intros j Hj. rewrite HA by auto. auto. }
  assert (EF : forall i j, m * rsum k4 (fun a => rsum k5 (fun b => c a b * (y4 i * u4 a * (y5 j * u5 b)))) = s * (y4 i * y5 j)).
  { intros i j. unfold s. rewrite <- !rsum_scal_l_R, <- !rsum_scal_r_R. apply rsum_ext_R. intros a _. rewrite <- !rsum_scal_l_R, <- !rsum_scal_r_R. apply rsum_ext_R. intros b _. ring. }
  rewrite (rsum_ext_R 2 _ (fun i => rsum 2 (fun j => (s * (y4 i * y5 j)) * (s * (y4 i * y5 j))))).
  2:{ intros i _. apply rsum_ext_R. intros j _. pose proof (EF i j) as Q. unfold y4, y5 in Q. unfold y4, y5. rewrite Q. reflexivity. }
  rewrite (rsum_ext_R 2 _ (fun i => (s * s * (y4 i * y4 i)) * rsum 2 (fun j => y5 j * y5 j))) by (intros i _; rewrite <- rsum_scal_l_R; apply rsum_ext_R; intros; ring).
  rewrite rsum_scal_r_R, rsum_scal_l_R, N4, N5. rewrite ES. cbn [rsum] in N4, N5.
  set (p := y4 0%nat) in *. set (q := y4 1%nat) in *. set (x := y5 0%nat) in *. set (z := y5 1%nat) in *. clearbody p q x z.
  assert (A1 : p * p + q * q = 1) by (revert N4; rcbn; lra). assert (A2 : x * x + z * z = 1) by (revert N5; rcbn; lra).
  assert (B1 : (4 * p * x + 3 * q * z) * (4 * p * x + 3 * q * z) = (16 * (p * p) + 9 * (q * q)) * (x * x + z * z) - (4 * p * z - 3 * q * x) * (4 * p * z - 3 * q * x)) by ring.
  pose proof (Rle_0_sqr (4 * p * z - 3 * q * x)) as B2. unfold Rsqr in B2. pose proof (Rle_0_sqr q) as B3. unfold Rsqr in B3. rewrite A2 in B1. lra.
Qed.
