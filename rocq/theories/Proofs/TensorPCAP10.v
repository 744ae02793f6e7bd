(** tree_based_approximation with the empirical interpolation method always returns a tensor. *)
From Coq Require Import List Arith Lia Bool Reals Permutation Lra.
From Verif.Base Require Import ListAux CRing Index RealAux LinAlg.
From Verif.Model Require Import Sorting Numpy FullTensor Diagonal Canonical DimensionTree TreeBased Truncator HSVD HsvdTree Functions Measures Learning DensityL2 MagicIndices AltMin TensorPCA.
From Verif.Spec Require Import TensorSpec TreeSpec TreeTensorSpec TruncatorSpec LearningSpec FunctionSpec MagicSpec PCASpec.
From Verif.Proofs Require AltMinP4.
From Verif.Proofs Require Import LearningP2 NumpyP FullTensorP FunctionsP FunctionsP3 DimTreeP TreeTensorP HsvdP2 HsvdTreeP4 MagicP OrthNodeP4 TensorPCAP1 TensorPCAP2 TensorPCAP3 TensorPCAP4 TensorPCAP5 TensorPCAP6 TensorPCAP7 TensorPCAP8 TensorPCAP9.
From Verif.Model Require Import Learning.
Import ListNotations.
Local Open Scope R_scope.

Lemma columns_ok d ind g : Forall (fun p => length p = d) g -> Forall (fun k => (k < d)%nat) ind -> exists q, TensorPCA.columns ind g = Some q.
Proof.
  intros HG HI. rewrite Forall_forall in HG, HI. destruct (omap_all (fun p => omap (nth_error p) ind) g) as (q & E & _); [|exists q; exact E].
  intros p Hp. destruct (omap_all (nth_error p) ind) as (q & E & _); [|exists q; exact E]. intros k Hk. specialize (HG p Hp). specialize (HI k Hk).
  destruct (nth_error p k) eqn:EN; [eauto|]. apply nth_error_None in EN. lia.
Qed.
Lemma ind_lt d A : is_perm d A -> Forall (fun k => (k < d)%nat) (map (fun x => index_of x A) (seq 0 d)).
Proof.
  intros H. apply Forall_forall. intros k Hk. apply in_map_iff in Hk. destruct Hk as (x & <- & Hx).
  assert (Hin : In x A) by (eapply Permutation_in; [apply Permutation_sym; exact H|exact Hx]). destruct (index_of_nth _ _ Hin) as [H1 _]. apply Permutation_length in H. rewrite seq_length in H. lia.
Qed.
Lemma garray2 (I Z : list (list nat)) : I <> [] -> Z <> [] -> g_array [I; Z] = Some (map (grid_point [I; Z]) (boxF [length I; length Z])).
Proof. intros H1 H2. rewrite g_array_ok; [reflexivity|discriminate|repeat constructor; auto]. Qed.
Lemma garray2_len (I Z : list (list nat)) a b : Forall (fun p => length p = a) I -> Forall (fun p => length p = b) Z -> Forall (fun p => length p = (a + b)%nat) (map (grid_point [I; Z]) (boxF [length I; length Z])).
Proof.
  intros HI HZ. rewrite Forall_forall in *. intros p Hp. apply in_map_iff in Hp. destruct Hp as (is & <- & H). apply in_boxF in H. inversion H as [|i ? is' ? V1 V2]; subst. inversion V2 as [|j ? js' ? V3 V4]; subst. inversion V4; subst.
  cbn [grid_point]. rewrite app_nil_r, app_length. rewrite HI by (apply nth_In; auto). rewrite HZ by (apply nth_In; auto). reflexivity.
Qed.

Section APC.
  Variable svd : nd R -> nd R * list R * nd R.
  Hypothesis SV : svd_contract svd.
  Variable L : lapack.
  Hypothesis HL : lapack_ok L.
  Variables (factor : nat) (adaptive : bool) (f : list nat -> R) (shp : list nat).

  Definition cols_orth (P : mx) : Prop := forall a b, (a < mcols P)%nat -> (b < mcols P)%nat -> rsum (mrows P) (fun i => ment P i a * ment P i b) = if (a =? b)%nat then 1 else 0.
  Lemma pc_cols A m n p r : shape A = [m; n] -> principal_components svd A p = Some r -> cols_orth (fst r).
  Proof.
    intros HS H a b Ha Hb. destruct (pc_some svd SV A m n p r HS H) as (k & _ & _ & E & _). rewrite E. apply (pc_orth svd SV A m n p r HS H); auto.
  Qed.
  Lemma adapt_orth ind p B I : forall todo k A pts lr r, match lr with None => True | Some (pc, sv, g) => cols_orth pc end ->
    adapt_loop svd L factor f ind p B I todo k A pts lr = Some r -> cols_orth (po_pc r).
  Proof.
    induction todo as [|z todo IH]; intros k A pts lr r HLR H; cbn [adapt_loop] in H.
    - destruct lr as [[[pc sv] g]|]; [|discriminate]. injection H as <-. exact HLR.
    - destruct (g_array [I; [z]]) as [g|]; [|discriminate]. cbn [bind] in H. destruct (TensorPCA.columns ind g) as [q|]; [|discriminate]. cbn [bind] in H.
      destruct (length q =? mrows B)%nat; [|discriminate]. cbn [negb] in H. destruct (l_solve L B _) as [x|]; [|discriminate]. cbn [bind] in H. set (A' := MX _ _ _) in H.
      destruct (principal_components svd (nd_of A') p) as [[pc sv]|] eqn:EP; [|discriminate]. cbn [bind fst snd] in H. assert (HO := pc_cols (nd_of A') (mrows A') (mcols A') p _ eq_refl EP). cbn [fst] in HO.
      destruct sv as [|s0 s]; [discriminate|]. destruct (_ || _) in H; [injection H as <-; exact HO|]. eapply IH; [|exact H]. exact HO.
  Qed.
  Lemma alpha_pc_orth alpha p B I rnd r : alpha_pc svd L factor adaptive f shp alpha p B I rnd = Some r -> cols_orth (po_pc r).
  Proof.
    intros H. unfold alpha_pc in H. destruct (pca_samples factor p B) as [N|]; [|discriminate]. cbn [bind] in H. destruct (lt1 p && adaptive); [eapply adapt_orth; [|exact H]; exact Logic.I|].
    destruct (g_array _) as [g|]; [|discriminate]. cbn [bind] in H. destruct (TensorPCA.columns _ g) as [q|]; [|discriminate]. cbn [bind] in H.
    destruct (np_reshapeF _ _) as [A|]; [|discriminate]. cbn [bind] in H. destruct (solve_mat L B (to_mx A)) as [X|]; [|discriminate]. cbn [bind] in H.
    destruct (principal_components svd (nd_of X) p) as [r0|] eqn:EP; [|discriminate]. cbn [bind] in H. injection H as <-. cbn [po_pc]. apply (pc_cols (nd_of X) (mrows X) (mcols X) p _ eq_refl EP).
  Qed.

  Lemma adapt_succ ind p B I d : length I = mrows B -> I <> [] -> nonsingular B -> Forall (fun k => (k < d)%nat) ind -> forall a, Forall (fun q => length q = a) I -> forall todo k A pts lr,
    Forall (fun q => (a + length q)%nat = d) todo -> mrows A = mrows B -> (todo = [] -> lr <> None) -> exists r, adapt_loop svd L factor f ind p B I todo k A pts lr = Some r.
  Proof.
    intros HI HN NS HIN a HA. induction todo as [|z todo IH]; intros k A pts lr HT HM HLR; cbn [adapt_loop].
    - destruct lr as [[[pc sv] g]|]; [eauto|]. exfalso. apply HLR; auto.
    - rewrite garray2 by (auto; discriminate). cbn [bind]. assert (HZ := Forall_inv HT). cbn beta in HZ. assert (HG := garray2_len I [z] a (length z) HA). cbn [length] in HG.
      set (g := map (grid_point [I; [z]]) (boxF [length I; 1%nat])) in *. destruct (columns_ok d ind g) as [q EQ]; [rewrite <- HZ; apply HG; repeat constructor|auto|].
      cbn [length]. fold g. rewrite EQ. cbn [bind]. assert (LQ : length q = mrows B).
      { rewrite (omap_length _ _ _ EQ). unfold g. rewrite map_length, boxF_length. unfold prodn. cbn [fold_right]. lia. }
      rewrite LQ, Nat.eqb_refl. cbn [negb]. destruct (solve_ns L HL B (fun i => f (nth i q [])) NS) as [x ->]. cbn [bind]. set (A' := MX _ _ _).
      destruct (pc_ok svd (nd_of A') (mrows A) (S (mcols A)) p eq_refl) as [[pc sv] EP]. rewrite EP. cbn [bind fst snd].
      destruct (pc_some svd SV (nd_of A') (mrows A) (S (mcols A)) p _ eq_refl EP) as (j & _ & Hj & H1 & H2 & _ & H3). cbn [fst snd] in *.
      destruct (SV (nd_of A') (mrows A) (S (mcols A)) eq_refl) as (_ & LS & _).
      assert (HM1 : (1 <= mrows A)%nat) by (rewrite HM, <- HI; destruct I; [congruence|cbn; lia]).
      destruct sv as [|s0 s].
      + exfalso. specialize (Hj HM1). destruct (snd (fst (svd (nd_of A')))) as [|u v] eqn:ES; [cbn in LS; lia|]. destruct j; [lia|]. discriminate.
      + destruct (_ || _); [eauto|]. apply IH; [exact (Forall_inv_tail HT)|exact HM|discriminate].
  Qed.
  Lemma solve_mat_ex B M : nonsingular B -> exists X, solve_mat L B M = Some X.
  Proof. intros NS. unfold solve_mat. destruct (solve_ns L HL B (fun r => ment M r 0%nat) NS) as [x ->]. eauto. Qed.
  Lemma alpha_pc_succ alpha x B I rnd : length I = mrows B -> (1 <= mrows B)%nat -> nonsingular B -> NoDup alpha -> Forall (fun k => (k < length shp)%nat) alpha ->
    Forall (fun q => length q = length alpha) I -> (forall na N, length (rnd na N) = N) -> (forall na N, Forall (fun k => (k < length shp)%nat) na -> Forall (valid (sel 0%nat shp na)) (rnd na N)) -> (1 <= factor)%nat ->
    exists r, alpha_pc svd L factor adaptive f shp alpha (Some x) B I rnd = Some r.
  Proof.
    intros HI HB NS ND HF HLI RN RV HFc. unfold alpha_pc. set (d := length shp). set (na := compl d alpha).
    assert (HP : is_perm d (alpha ++ na)) by (apply app_compl_perm; auto). assert (HIN := ind_lt d _ HP). assert (LP : (length alpha + length na)%nat = d) by (apply Permutation_length in HP; rewrite seq_length, app_length in HP; auto).
    assert (HNI : I <> []) by (intros ->; cbn in HI; lia). assert (SQ := proj1 NS). unfold square in SQ.
    assert (HS : exists N, pca_samples factor (Some x) B = Some N /\ (1 <= N)%nat).
    { unfold pca_samples, lt1. destruct (Rlt_dec x 1); eexists; (split; [reflexivity|]); [nia|]. assert (HF1 : 1 <= INR factor) by (apply (le_INR 1); auto).
      destruct (ceil_spec (INR factor * x)) as [_ C]; [nra|]. apply INR_le. cbn. nra. }
    destruct HS as (N & -> & HN). cbn [bind].
    assert (HLZ : Forall (fun q => (length alpha + length q)%nat = d) (rnd na N)).
    { eapply Forall_impl; [|refine (RV na N _); apply Forall_forall; intros k Hk; unfold na, compl in Hk; apply filter_In in Hk; destruct Hk as [Hk _]; apply in_seq in Hk; unfold d in Hk; lia]. intros q Hq. apply valid_length in Hq. rewrite Hq. unfold sel. rewrite map_length. exact LP. }
    destruct (lt1 (Some x) && adaptive).
    - apply (adapt_succ _ _ _ _ d HI HNI NS HIN (length alpha)); auto. intros E. specialize (RN na N). rewrite E in RN. cbn in RN. lia.
    - assert (HNZ : rnd na N <> []) by (intros E; specialize (RN na N); rewrite E in RN; cbn in RN; lia).
      rewrite garray2 by auto. cbn [bind]. assert (HG := garray2_len I (rnd na N) (length alpha) (length na) HLI). set (g := map (grid_point [I; rnd na N]) (boxF [length I; length (rnd na N)])) in *.
      destruct (columns_ok d (map (fun x => index_of x (alpha ++ na)) (seq 0 d)) g) as [q EQ]; [rewrite <- LP; apply HG; eapply Forall_impl; [|exact HLZ]; cbn beta; intros; lia|auto|]. rewrite EQ. cbn [bind].
      assert (LQ : length q = (mrows B * N)%nat) by (rewrite (omap_length _ _ _ EQ); unfold g; rewrite map_length, boxF_length, RN, HI; unfold prodn; cbn [fold_right]; lia).
      unfold np_reshapeF. cbn [shape]. rewrite LQ. unfold prodn. cbn [fold_right]. replace (_ =? _)%nat with true by (symmetry; apply Nat.eqb_eq; lia). cbn [bind].
      match goal with |- context [solve_mat L B ?M] => destruct (solve_mat_ex B M NS) as [A ->] end. cbn [bind].
      destruct (pc_ok svd (nd_of A) (mrows A) (mcols A) (Some x) eq_refl) as [r EP]. rewrite EP. cbn [bind]. eauto.
  Qed.
End APC.

Lemma magic_succ L P B : lapack_ok L -> nonsingular B -> mcols B = mrows P -> cols_orth P -> exists r, magic_indices L (matmul B P) None LeftRight = Some r.
Proof.
  intros HL [SQ IN] HM HO. apply (magic_lr_success L HL). intros r Hr HR. assert (HR2 : (r < mcols P)%nat) by (unfold n_of in Hr; cbn [matmul mrows mcols] in Hr; lia).
  apply (rank_inj _ _ _ r HR); [exact HR2|]. cbn [matmul mrows mcols]. intros x Hx j Hj.
  assert (HP : forall k, (k < mcols B)%nat -> rsum (mcols P) (fun j => ment P k j * x j) = 0).
  { apply (IN (fun k => rsum (mcols P) (fun j => ment P k j * x j))). intros i Hi. rewrite <- (Hx i Hi). unfold mv. cbn [matmul ment].
    rewrite (rsum_ext_R' (mcols B) _ (fun k => rsum (mcols P) (fun j => ment B i k * (ment P k j * x j)))) by (intros; rewrite rsum_scal_l_R; reflexivity).
    rewrite rsum_swap_R. apply rsum_ext_R'. intros b Hb. rewrite (Rmult_comm _ (x b)), <- rsum_scal_l_R. apply rsum_ext_R'. intros; ring. }
  assert (E : rsum (mrows P) (fun k => ment P k j * rsum (mcols P) (fun b => ment P k b * x b)) = 0).
  { rewrite (rsum_ext_R' _ _ (fun _ => 0)); [apply rsum_zero_R; auto|]. intros k Hk. rewrite HP by lia. ring. }
  rewrite (rsum_ext_R' _ _ (fun k => rsum (mcols P) (fun b => x b * (ment P k b * ment P k j)))) in E by (intros; rewrite <- rsum_scal_l_R; apply rsum_ext_R'; intros; ring).
  rewrite rsum_swap_R in E. rewrite <- E. rewrite (rsum_ext_R' _ _ (fun b => if (b =? j)%nat then x b else 0)).
  - rewrite PolyP5.rsum_pick. apply Nat.ltb_lt in Hj. rewrite Hj. reflexivity.
  - intros b Hb. rewrite rsum_scal_l_R, (HO b j) by auto. destruct (b =? j)%nat; ring.
Qed.
Lemma kron_ns : forall Bs, (forall B, In B Bs -> nonsingular B) -> forall c : list nat -> R,
  (forall js, valid (rowsof Bs) js -> bsum (colsof Bs) (fun ks => kval Bs js ks * c ks) = 0) -> forall ks, valid (colsof Bs) ks -> c ks = 0.
Proof.
  induction Bs as [|B Bs IH]; intros HB c HC ks Vk; cbn [rowsof colsof map] in *.
  - inversion Vk; subst. specialize (HC [] (Forall2_nil _)). cbn in HC. lra.
  - inversion Vk as [|k ? ks' ? Vk1 Vk2]; subst. destruct (HB B (or_introl eq_refl)) as [SQ IN]. apply (IH (fun B' H => HB B' (or_intror H)) (fun ks => c (k :: ks))); [|exact Vk2]. intros js Vj.
    apply (IN (fun k => bsum (colsof Bs) (fun ks => kval Bs js ks * c (k :: ks)))); [|exact Vk1]. intros j Hj. rewrite <- (HC (j :: js)) by (constructor; auto). cbn [bsum]. unfold mv.
    apply rsum_ext_R'. intros k0 Hk0. rewrite <- bsum_scal_l_R. apply bsum_ext. intros ks Vks. unfold kval. cbn [combine lprod fst snd]. cbn [rmul CRing_R]. ring.
Qed.
Lemma kron_nonsingular Bs B : (forall M, In M Bs -> nonsingular M) -> mrows B = prodn (rowsof Bs) -> mcols B = prodn (colsof Bs) -> mrows B = mcols B ->
  (forall is js, valid (rowsof Bs) is -> valid (colsof Bs) js -> ment B (sub2indF (rowsof Bs) is) (sub2indF (colsof Bs) js) = kval Bs is js) -> nonsingular B.
Proof.
  intros HN H1 H2 H3 HK. split; [exact H3|]. intros x Hx j Hj. rewrite H2 in Hj. assert (Vj := ind2subF_valid (colsof Bs) j Hj).
  assert (E := kron_ns Bs HN (fun ks => x (sub2indF (colsof Bs) ks))). specialize (fun H => E H _ Vj). cbv beta in E. rewrite sub2indF_ind2subF in E by auto. apply E. intros js Vjs.
  assert (Hlt := sub2indF_lt _ _ Vjs). rewrite <- H1 in Hlt. rewrite <- (Hx _ Hlt). unfold mv. rewrite H2. rewrite <- bsum_linear'. apply bsum_ext. intros ks Vk.
  rewrite HK by auto. reflexivity.
Qed.

Section Succ.
  Variable svd : nd R -> nd R * list R * nd R.
  Hypothesis SV : svd_contract svd.
  Variable L : lapack.
  Hypothesis HL : lapack_ok L.
  Variables (factor : nat) (adaptive : bool) (f : list nat -> R) (shp : list nat).
  Variables (t : dtree) (r : nat).
  Hypothesis T : dim_tree t r.
  Hypothesis HD : length shp = length (d2i t).
  Hypothesis HP : Forall (fun m => (1 <= m)%nat) shp.
  Hypothesis Hleaf : is_leaf t r = false.
  Hypothesis HFc : (1 <= factor)%nat.
  Variables (act : list bool) (tol mr : list (option R)) (rnd : nat -> sampler) (choice : nat -> nat -> nat -> list nat).
  Hypothesis RN : forall n na N, length (rnd n na N) = N.
  Hypothesis RV : forall n na N, Forall (fun k => (k < length shp)%nat) na -> Forall (valid (sel 0%nat shp na)) (rnd n na N).
  Hypothesis CH : forall n m k, (k <= m)%nat -> length (choice n m k) = k /\ forall i, In i (choice n m k) -> (i < m)%nat.
  Hypothesis HX : forall n, node t n -> n <> r -> exists x, omin (nth (n - 1) tol None) (nth (n - 1) mr None) = Some x.
  Notation good := (good shp t act).
  Notation ex := (ex factor adaptive f shp t act tol mr rnd).
  Notation lstep := (leaf_step svd L factor adaptive f shp t act tol mr EIM rnd choice).
  Notation istep := (inner_step svd L factor adaptive f shp t tol mr rnd).
  Let V : rooted_tree t r := proj1 T.

  Lemma good_pos st n : node t n -> n <> r -> good st n -> (1 <= mcols (nthb st n))%nat.
  Proof.
    intros Hn Hr (G1 & G2 & G3 & G4). destruct (is_leaf t n) eqn:Hl; [|apply G4]. unfold leafdata in G4. destruct (nth (n - 1) act false); [apply G4|].
    destruct G4 as (_ & -> & _). cbn [eye_mx mcols]. destruct (leaf_index t n Hl) as [H1 H2]. rewrite <- H2, (msize_leaf shp t r T) by auto. apply (Forall_nth' (fun m => (1 <= m)%nat)); auto. lia.
  Qed.
  Lemma leaf_succ st nu : (nu < length (d2i t))%nat -> exists st', lstep st nu = Some st'.
  Proof.
    intros Hnu. unfold leaf_step. set (n := nth nu (d2i t) 0%nat). set (m := nth nu shp 0%nat). assert (Hn : node t n) by exact (d2i_node t r T nu Hnu).
    destruct (nth (n - 1) act false); [|eauto]. assert (Hm : (1 <= m)%nat) by (apply (Forall_nth' (fun m => (1 <= m)%nat)); auto; lia).
    assert (NR : n <> r). { intros E. assert (is_leaf t r = true) by (rewrite <- E; apply d2i_leaf; auto). congruence. }
    destruct (HX n Hn NR) as [x ->]. set (g := map (fun i => [i]) (seq 0 m)). assert (Lg : length g = m) by (unfold g; rewrite map_length, seq_length; auto).
    assert (NE : nonsingular (eye_mx m)) by (apply (eye_nonsingular shp t HD)).
    destruct (alpha_pc_succ svd SV L HL factor adaptive f shp [nu] x (eye_mx m) g (rnd n)) as [p EP]; auto.
    { constructor; [intros []|constructor]. } { constructor; [lia|constructor]. } { apply Forall_forall. intros q Hq. unfold g in Hq. apply in_map_iff in Hq. destruct Hq as (i & <- & _). reflexivity. }
    rewrite EP. cbn [bind]. destruct (alpha_pc_ok svd SV L HL factor adaptive f shp [nu] _ (eye_mx m) g (rnd n) p Lg (RN n) EP) as (_ & P1 & P2 & _). cbn [eye_mx mrows] in P1, P2.
    assert (HS : shape (nd_of (po_pc p)) = [m; mcols (po_pc p)]) by (cbn; rewrite P1; auto). destruct (reshapeF_same _ _ HS) as (C & -> & _). cbn [bind].
    destruct (magic_succ L (po_pc p) (eye_mx m) HL NE) as [IJ ->]; [cbn; auto|apply (alpha_pc_orth svd SV L factor adaptive f shp _ _ _ _ _ _ EP)|]. cbn [bind]. eauto.
  Qed.
  (** the matrices and points of the children *)
  Lemma gather_succ st n : node t n -> is_leaf t n = false -> (forall c, edge t n c -> good st c /\ nonsingular (nthb st c)) ->
    exists B g, tensor_product_bases (cbases t st n) = Some B /\ g_array (cgrids t st n) = Some g /\ nonsingular B /\ (1 <= mrows B)%nat.
  Proof.
    intros Hn Hl HG. assert (NE := children_ne t r T n Hn Hl). destruct (kron_spec (cbases t st n)) as (B & E1 & E2 & E3 & E4).
    { unfold cbases. destruct (children t n); [congruence|discriminate]. }
    assert (POS : forall c, In c (children t n) -> (1 <= mcols (nthb st c))%nat /\ mrows (nthb st c) = mcols (nthb st c) /\ length (nthg st c) = mrows (nthb st c)).
    { intros c Hc. apply in_children in Hc; auto. destruct (child_ne_root t r T n c Hc) as [c1 c2]. destruct (HG c Hc) as [G1 _]. split; [apply good_pos; auto|]. destruct G1 as (G2 & G3 & _). auto. }
    assert (EG : exists g, g_array (cgrids t st n) = Some g).
    { rewrite g_array_ok; [eauto| |].
      - unfold cgrids. destruct (children t n); [congruence|discriminate].
      - apply Forall_forall. intros g Hg. unfold cgrids in Hg. apply in_map_iff in Hg. destruct Hg as (c & <- & Hc). destruct (POS c Hc) as (P1 & P2 & P3). destruct (nthg st c); [cbn in P3; lia|discriminate]. }
    destruct EG as [g EG]. exists B, g. split; [auto|]. split; [auto|].
    assert (RC : rowsof (cbases t st n) = colsof (cbases t st n)).
    { unfold rowsof, colsof, cbases. rewrite !map_map. apply map_ext_in. intros c Hc. apply POS; auto. }
    split.
    - apply (kron_nonsingular (cbases t st n)); auto; [|rewrite E2, E3, RC; auto]. intros M HM. unfold cbases in HM. apply in_map_iff in HM. destruct HM as (c & <- & Hc). apply HG, in_children; auto.
    - rewrite E2. apply prodn_pos. apply Forall_forall. intros m Hm. unfold rowsof, cbases in Hm. rewrite map_map in Hm. apply in_map_iff in Hm. destruct Hm as (c & <- & Hc). destruct (POS c Hc) as (P1 & P2 & _). lia.
  Qed.
  Lemma inner_succ st n : node t n -> is_leaf t n = false -> n <> r -> (forall c, edge t n c -> good st c /\ nonsingular (nthb st c)) -> exists st', istep st n = Some st'.
  Proof.
    intros Hn Hl Hr HG. destruct (gather_succ st n Hn Hl HG) as (B & g & EB & EG & NS & HB). unfold inner_step. fold (cbases t st n). fold (cgrids t st n). rewrite EB, EG. cbn [bind].
    destruct (gather shp t r T HD act st n Hn Hl (fun c Hc => proj1 (HG c Hc)) B g EB EG) as (B1 & B2 & B3 & B4 & B5 & B6 & B7 & B8).
    destruct (HX n Hn Hr) as [x ->]. destruct (dims_bound shp t r T HD n Hn) as [DN DB].
    destruct (alpha_pc_succ svd SV L HL factor adaptive f shp (dims t n) x B g (rnd n)) as [p EP]; auto.
    { eapply Forall_impl; [|exact B7]. intros q Hq. apply valid_length in Hq. rewrite Hq. unfold sel. apply map_length. }
    rewrite EP. cbn [bind]. rewrite cols_map. destruct (alpha_pc_ok svd SV L HL factor adaptive f shp (dims t n) _ B g (rnd n) p B3 (RN n) EP) as (_ & P1 & P2 & _).
    unfold np_reshapeF. replace (_ =? _)%nat with true.
    - cbn [bind]. destruct (magic_succ L (po_pc p) B HL NS) as [IJ ->]; [lia|apply (alpha_pc_orth svd SV L factor adaptive f shp _ _ _ _ _ _ EP)|]. cbn [bind]. eauto.
    - symmetry. apply Nat.eqb_eq. rewrite prodn_app. cbn [nd_of shape]. unfold prodn at 2 3. cbn [fold_right]. rewrite P1, B4, B2. reflexivity.
  Qed.
  Lemma root_succ st : (forall c, edge t r c -> good st c /\ nonsingular (nthb st c)) -> exists st', root_step L f shp t st = Some st'.
  Proof.
    intros HG. assert (Hn := rt_root t r V). destruct (gather_succ st r Hn Hleaf HG) as (B & g & EB & EG & NS & HB). unfold root_step. rewrite (root_eq t r V). fold (cbases t st r). fold (cgrids t st r). rewrite EB, EG. cbn [bind].
    destruct (gather shp t r T HD act st r Hn Hleaf (fun c Hc => proj1 (HG c Hc)) B g EB EG) as (B1 & B2 & B3 & B4 & B5 & B6 & B7 & B8).
    assert (LD := Permutation_length (dims_root t r T)). rewrite seq_length in LD.
    destruct (columns_ok (length shp) (map (fun x => index_of x (dims t r)) (seq 0 (length shp))) g) as [q EQ].
    { eapply Forall_impl; [|exact B7]. intros p Hp. apply valid_length in Hp. rewrite Hp. unfold sel. rewrite map_length. lia. }
    { rewrite HD. apply ind_lt. exact (dims_root t r T). }
    rewrite EQ. cbn [bind]. rewrite (omap_length _ _ _ EQ), B3, Nat.eqb_refl. cbn [negb]. destruct (solve_ns L HL B (fun i => f (nth i q [])) NS) as [x ->]. cbn [bind].
    rewrite cols_map. unfold np_reshapeF. replace (_ =? _)%nat with true; [cbn [bind]; eauto|]. symmetry. apply Nat.eqb_eq. cbn [shape]. rewrite B2. unfold prodn at 2. cbn [fold_right]. lia.
  Qed.
  Lemma leaves_succ : forall l st, (forall nu, In nu l -> (nu < length (d2i t))%nat) -> exists st', ofold lstep l st = Some st'.
  Proof.
    induction l as [|nu l IH]; intros st HI; cbn [ofold]; [eauto|]. destruct (leaf_succ st nu (HI nu (or_introl eq_refl))) as [s1 ->]. apply IH. intros mu Hmu. apply HI. right; auto.
  Qed.
  Lemma inners_succ : forall l done st, (forall m, In m done -> node t m /\ good st m /\ ex st m /\ forall c, edge t m c -> In c done) -> NoDup l ->
    (forall m, In m l -> ~ In m done /\ node t m /\ is_leaf t m = false /\ m <> r) -> (forall l1 n l2 c, l = l1 ++ n :: l2 -> edge t n c -> In c (done ++ l1)) ->
    lens t st -> exists st', ofold istep l st = Some st'.
  Proof.
    induction l as [|n l IH]; intros done st HDn ND HI HT HLn; cbn [ofold]; [eauto|]. inversion ND as [|? ? Hnl ND']; subst. destruct (HI n (or_introl eq_refl)) as (N1 & N2 & N3 & N4).
    assert (HC : forall c, edge t n c -> In c done) by (intros c Hc; specialize (HT [] n l c eq_refl Hc); rewrite app_nil_r in HT; auto).
    assert (Hnn : ~ edge t n n) by (intros Hc; apply N1, HC; auto). assert (HGc : forall c, edge t n c -> good st c) by (intros c Hc; apply HDn, HC; auto).
    destruct (inner_succ st n N2 N3 N4) as [s1 E1]; [intros c Hc; destruct (HDn c (HC c Hc)) as (_ & H1 & H2 & _); split; [auto|apply H2]|]. rewrite E1.
    destruct (inner_step_ok svd SV L HL factor adaptive f shp t r T HD act tol mr rnd RN st n s1 HLn N2 N3 HGc Hnn E1) as (A1 & A2 & A3 & A4).
    assert (A5 := inner_step2 svd SV L HL factor adaptive f shp t r T HD act tol mr rnd RN RV st n s1 HLn N2 N3 HGc Hnn E1).
    apply (IH (done ++ [n]) s1); auto.
    { intros x Hx. apply in_app_or in Hx. destruct Hx as [Hx|[<-|[]]].
      - destruct (HDn x Hx) as (D1 & D2 & D3 & D4). assert (S1 : sameat st s1 x) by (apply A3; auto; intros ->; auto).
        assert (S2 : forall c, edge t x c -> sameat st s1 c) by (intros c Hc; apply A3; [apply Hc|]; intros ->; apply N1; eapply D4; eauto).
        split; [auto|]. split; [apply (good_ext shp t act st); auto|]. split; [apply (ex_ext factor adaptive f shp t act tol mr rnd st); auto|]. intros c Hc. apply in_or_app; left; eauto.
      - split; [auto|]. split; [auto|]. split; [auto|]. intros c Hc. apply in_or_app. left; auto. }
    { intros x Hx. destruct (HI x (or_intror Hx)) as (M1 & M2 & M3 & M4). split; [|auto]. intros Hy. apply in_app_or in Hy. destruct Hy as [Hy|[<-|[]]]; auto. }
    { intros l1 n' l2 c E Hc. rewrite <- app_assoc. cbn [app]. apply (HT (n :: l1) n' l2); auto. rewrite E. auto. }
  Qed.
End Succ.

Lemma expand_ok n (l : list (option R)) : length l = 1%nat \/ length l = n -> exists l', expand_param n l = Some l'.
Proof. intros H. destruct l as [|x [|y l]]; unfold expand_param; [|eauto|]; (destruct H as [H|H]; [discriminate|]); rewrite H, Nat.eqb_refl; eauto. Qed.
Lemma local_length act tol : length (local_tol act tol) = length tol.
Proof. destruct tol as [|[u|] [|v tol]]; cbn; auto. destruct (Rlt_dec u 1); auto. Qed.
Lemma local_none act tol n : node_param (local_tol act tol) n = None -> node_param tol n = None.
Proof. destruct tol as [|[u|] [|v tol]]; cbn; auto. destruct (Rlt_dec u 1); cbn; auto. discriminate. Qed.

Theorem tree_succeeds svd L factor adaptive f shp tol mr rnd choice t r oact : svd_contract svd -> lapack_ok L -> dim_tree t r -> length shp = length (d2i t) -> (2 <= length shp)%nat ->
  Forall (fun m => (1 <= m)%nat) shp -> (1 <= factor)%nat ->
  (forall n na N, length (rnd n na N) = N) -> (forall n na N, Forall (fun k => (k < length shp)%nat) na -> Forall (valid (sel 0%nat shp na)) (rnd n na N)) ->
  (forall n m k, (k <= m)%nat -> length (choice n m k) = k /\ forall i, In i (choice n m k) -> (i < m)%nat) ->
  length tol = 1%nat \/ length tol = nbn t -> length mr = 1%nat \/ length mr = nbn t ->
  (forall n, node t n -> n <> r -> node_param tol n <> None \/ node_param mr n <> None) ->
  exists X st, tree_based_approximation svd L factor adaptive f shp tol mr EIM rnd choice t oact = Some (X, st).
Proof.
  intros SV HL T HD H2 HP HFc RN RV CH LT LM HX. assert (V := proj1 T). unfold tree_based_approximation. cbv zeta. set (act := match oact with None => _ | Some a => a end).
  destruct (expand_ok (nbn t) (local_tol act tol)) as [tol' E1]; [rewrite local_length; auto|]. destruct (expand_ok (nbn t) mr LM) as [mr' E2]. rewrite E1, E2. cbn [bind].
  assert (Hl : is_leaf t r = false).
  { destruct (is_leaf t r) eqn:El; auto. exfalso. assert (ED := dims_leaf t r T r El). assert (PR := Permutation_length (dims_root t r T)). rewrite ED, seq_length in PR. cbn in PR. lia. }
  assert (HX' : forall n, node t n -> n <> r -> exists x, omin (nth (n - 1) tol' None) (nth (n - 1) mr' None) = Some x).
  { intros n Hn Hr. assert (Hn' := Hn). unfold node in Hn'. rewrite (expand_nth _ _ _ n E1), (expand_nth _ _ _ n E2) by lia. specialize (HX n Hn Hr). assert (HQ := local_none act tol n).
    destruct (node_param (local_tol act tol) n), (node_param mr n); cbn [omin]; eauto. exfalso. destruct HX as [H|H]; auto. }
  set (st0 := PS _ _ _ _ _). assert (HLn : lens t st0) by (unfold st0, lens; cbn; rewrite !repeat_length; auto).
  assert (NC : forall nu, In nu (seq 0 (length shp)) -> nthc (ps_cores st0) (nth nu (d2i t) 0%nat) = no_core) by (intros nu _; subst st0; unfold nthc; cbn [ps_cores]; apply nth_repeat).
  assert (NI : forall nu, In nu (seq 0 (length shp)) -> (nu < length (d2i t))%nat) by (intros nu H; apply in_seq in H; lia).
  destruct (leaves_succ svd SV L HL factor adaptive f shp t r T HD HP Hl HFc act tol' mr' rnd choice RN RV HX' (seq 0 (length shp)) st0 NI) as [s1 E3]. rewrite E3. cbn [bind].
  destruct (leaves_fold svd SV L HL factor adaptive f shp t r T HD act tol' mr' EIM rnd choice RN CH (seq 0 (length shp)) st0 s1) as (A1 & A2 & A3 & A4); auto. { apply seq_NoDup. }
  assert (A5 := leaves_fold2 svd SV L HL factor adaptive f shp t r T HD act tol' mr' rnd choice RN RV CH (seq 0 (length shp)) st0 s1 (seq_NoDup _ _) NI HLn NC E3).
  rewrite inner_filter. set (inn := filter (fun n => negb (is_leaf t n)) (hsvd_nodes t)) in *.
  assert (D1 : forall m, In m (d2i t) -> node t m /\ good shp t act s1 m /\ ex factor adaptive f shp t act tol' mr' rnd s1 m /\ forall c, edge t m c -> In c (d2i t)).
  { intros m Hm. assert (Hlm : is_leaf t m = true) by (unfold is_leaf; apply NumpyP.inb_spec; auto). destruct (leaf_index t m Hlm) as [H3 H4].
    split; [apply (leaf_node t r T); auto|]. split; [rewrite <- H4; apply A2; apply in_seq; rewrite HD; lia|]. split; [rewrite <- H4; apply A5; apply in_seq; rewrite HD; lia|]. intros c Hc. exfalso. exact (leaf_noedge t r T m c Hlm Hc). }
  assert (D2 : NoDup inn) by (apply NoDup_filter, (NoDup_hsvd_nodes t r V)).
  assert (D3 : forall m, In m inn -> ~ In m (d2i t) /\ node t m /\ is_leaf t m = false /\ m <> r).
  { intros m Hm. apply filter_In in Hm. destruct Hm as [Hm Hlm]. apply negb_true_iff in Hlm. apply (in_hsvd_nodes t r V) in Hm. split; [|tauto].
    intros Hi. assert (is_leaf t m = true) by (unfold is_leaf; apply NumpyP.inb_spec; auto). congruence. }
  assert (D4 : forall l1 n l2 c, inn = l1 ++ n :: l2 -> edge t n c -> In c (d2i t ++ l1)).
  { intros l1 n l2 c E Hc. destruct (filter_split' _ _ _ _ _ E) as (h1 & h2 & E4 & E5). assert (Hin := hsvd_topo t r V h1 n h2 c E4 Hc). apply in_or_app.
    destruct (is_leaf t c) eqn:Hlm; [left; unfold is_leaf in Hlm; apply NumpyP.inb_spec in Hlm; auto|right]. rewrite <- E5. apply filter_In. rewrite Hlm. auto. }
  assert (Hall : forall n, node t n -> n <> r -> In n (d2i t ++ inn)).
  { intros n Hn Hr. apply in_or_app. destruct (is_leaf t n) eqn:Hlm; [left; unfold is_leaf in Hlm; apply NumpyP.inb_spec in Hlm; auto|right]. apply filter_In. rewrite Hlm. split; [|auto]. apply (in_hsvd_nodes t r V). auto. }
  destruct (inners_succ svd SV L HL factor adaptive f shp t r T HD HP HFc act tol' mr' rnd RN RV HX' inn (d2i t) s1 D1 D2 D3 D4 A1) as [s2 E4]. rewrite E4. cbn [bind].
  assert (D3' : forall m, In m inn -> ~ In m (d2i t) /\ node t m /\ is_leaf t m = false) by (intros m Hm; destruct (D3 m Hm) as (? & ? & ? & _); auto).
  destruct (inner_fold svd SV L HL factor adaptive f shp t r T HD act tol' mr' rnd RN inn (d2i t) s1 s2) as (B1 & B2 & B3); auto.
  { intros m Hm. destruct (D1 m Hm) as (H3 & H4 & _ & H5). auto. }
  assert (B4 := inner_fold2 svd SV L HL factor adaptive f shp t r T HD act tol' mr' rnd RN RV inn (d2i t) s1 s2 D1 D2 D3' D4 A1 E4).
  assert (CR : forall c, edge t r c -> good shp t act s2 c /\ nonsingular (nthb s2 c)).
  { intros c Hc. destruct (child_ne_root t r T r c Hc) as [c1 c2]. split; [apply B2, Hall; auto|]. exact (proj1 (B4 c (Hall c c1 c2))). }
  destruct (root_succ L HL factor f shp t r T HD HP Hl HFc act s2 CR) as [st E5]. rewrite E5. cbn [bind].
  destruct (root_step_ok L HL f shp t r T HD act s2 st B1 Hl (fun c Hc => proj1 (CR c Hc)) E5) as (C1 & C2 & C3 & C4).
  unfold tb_make. replace (forallb _ _) with true; [cbn [bind]; eauto|]. symmetry. apply forallb_forall. intros n Hn. unfold internal_nodes in Hn. apply filter_In in Hn. destruct Hn as [Hn Hln].
  apply in_nodes in Hn; auto. apply negb_true_iff in Hln. unfold activec, ft_storage, np_size. apply negb_true_iff, Nat.eqb_neq.
  assert (POS : forall n, node t n -> n <> r -> (1 <= mcols (nthb st n))%nat).
  { intros m Hm Hr. apply (good_pos factor shp t r T HD HP HFc act st m Hm Hr). refine (good_ext shp t act s2 st m Hm (C3 m Hm Hr) _ (B2 m (Hall m Hm Hr))). intros c Hc. destruct (child_ne_root t r T m c Hc). apply C3; auto. }
  assert (POC : forall n, node t n -> (0 < prodn (colsof (cbases t st n)))%nat).
  { intros m Hm. apply prodn_pos, Forall_forall. intros k Hk. unfold colsof, cbases in Hk. rewrite map_map in Hk. apply in_map_iff in Hk. destruct Hk as (c & <- & Hc). apply in_children in Hc; auto. destruct (child_ne_root t r T m c Hc). apply POS; auto. }
  destruct (Nat.eq_dec n r) as [->|NE].
  - destruct C2 as (R1 & _). rewrite R1. specialize (POC r Hn). lia.
  - assert (GN : good shp t act st n). { refine (good_ext shp t act s2 st n Hn (C3 n Hn NE) _ (B2 n (Hall n Hn NE))). intros c Hc. destruct (child_ne_root t r T n c Hc). apply C3; auto. }
    destruct GN as (_ & _ & _ & G4). rewrite Hln in G4. destruct G4 as (G5 & G6 & _). rewrite G5, prodn_app. specialize (POC n Hn). cbn. nia.
Qed.
