(** the loops of tree_based_approximation: the spaces of the nodes contain the fibres. *)
From Coq Require Import List Arith Lia Bool Reals Permutation Lra.
From Verif.Base Require Import ListAux CRing Index RealAux LinAlg.
From Verif.Model Require Import Sorting Numpy FullTensor Diagonal Canonical DimensionTree TreeBased Truncator HSVD Functions Measures Learning DensityL2 MagicIndices AltMin TensorPCA.
From Verif.Spec Require Import TensorSpec TreeSpec TreeTensorSpec TruncatorSpec LearningSpec FunctionSpec MagicSpec PCASpec.
From Verif.Proofs Require AltMinP4.
From Verif.Proofs Require Import NumpyP FullTensorP FunctionsP3 DimTreeP HsvdP2 MagicP OrthNodeP4 TensorPCAP1 TensorPCAP2 TensorPCAP3 TensorPCAP4 TensorPCAP5 TensorPCAP6.
From Verif.Model Require Import Learning.
Import ListNotations.
Local Open Scope R_scope.

(** number of random points for a node with m unknown coefficients *)
Definition nsamp (factor : nat) (x : R) (m : nat) : nat := if Rlt_dec x 1 then (factor * m)%nat else ceil_nat (INR factor * x).
Lemma nsamp_ok factor x B N : pca_samples factor (Some x) B = Some N -> N = nsamp factor x (mcols B).
Proof. unfold pca_samples, nsamp, lt1. destruct (Rlt_dec x 1); intros H; injection H as <-; reflexivity. Qed.
Lemma samples_some factor p B N : pca_samples factor p B = Some N -> exists x, p = Some x.
Proof. unfold pca_samples, lt1. destruct p; eauto. discriminate. Qed.

Section Loops.
  Variable svd : nd R -> nd R * list R * nd R.
  Hypothesis SV : svd_contract svd.
  Variable L : lapack.
  Hypothesis HL : lapack_ok L.
  Variables (factor : nat) (adaptive : bool) (f : list nat -> R) (shp : list nat).
  Variables (t : dtree) (r : nat).
  Hypothesis T : dim_tree t r.
  Hypothesis HD : length shp = length (d2i t).
  Variables (act : list bool) (tol mr : list (option R)) (rnd : nat -> sampler) (choice : nat -> nat -> nat -> list nat).
  Hypothesis RN : forall n na N, length (rnd n na N) = N.
  Hypothesis RV : forall n na N, Forall (fun k => (k < length shp)%nat) na -> Forall (valid (sel 0%nat shp na)) (rnd n na N).
  Hypothesis CH : forall n m k, (k <= m)%nat -> length (choice n m k) = k /\ forall i, In i (choice n m k) -> (i < m)%nat.
  Notation good := (good shp t act).
  Notation lstep := (leaf_step svd L factor adaptive f shp t act tol mr EIM rnd choice).
  Notation istep := (inner_step svd L factor adaptive f shp t tol mr rnd).
  Let V : rooted_tree t r := proj1 T.

  (** the truncation of node n, with m unknown coefficients, is exact *)
  Definition exact_at (n m : nat) : Prop := exists x, omin (nth (n - 1) tol None) (nth (n - 1) mr None) = Some x /\
    (x <= 0 /\ adaptive = false \/ 1 <= x /\ rank_at_most shp (dims t n) (floor_nat x) f) /\
    fibres_span f shp (dims t n) (rnd n (other_dims (length shp) (dims t n)) (nsamp factor x m)).
  Definition ex (st : pca_state) (n : nat) : Prop := nonsingular (nthb st n) /\
    if is_leaf t n then
      nth (n - 1) act false = true -> exact_at n (msize shp t n) -> forall is, valid shp is -> exists b : nat -> R, forall i, (i < msize shp t n)%nat ->
        f (TensorSpec.put (dims t n) [i] is) = rsum (mcols (nthb st n)) (fun k => get (nthc (ps_cores st) n) [i; k] * b k)
    else exact_at n (prodn (colsof (cbases t st n))) -> forall is c, valid shp is ->
        (forall js, valid (rowsof (cbases t st n)) js -> bsum (colsof (cbases t st n)) (fun ks => kval (cbases t st n) js ks * c ks) = f (TensorSpec.put (dims t n) (grid_point (cgrids t st n) js) is)) ->
        exists b : nat -> R, forall ks, valid (colsof (cbases t st n)) ks -> c ks = rsum (mcols (nthb st n)) (fun k => get (nthc (ps_cores st) n) (ks ++ [k]) * b k).
  Lemma ex_ext st st' n : node t n -> sameat st st' n -> (forall c, edge t n c -> sameat st st' c) -> ex st n -> ex st' n.
  Proof.
    intros Hn (E1 & E2 & E3) HC G.
    assert (EB : cbases t st' n = cbases t st n) by (unfold cbases; apply map_ext_in; intros c Hc; apply HC, in_children; auto).
    assert (EG : cgrids t st' n = cgrids t st n) by (unfold cgrids; apply map_ext_in; intros c Hc; apply HC, in_children; auto).
    unfold ex. rewrite E1, E3, EB, EG. exact G.
  Qed.
  Lemma exact_lt1 n m x : exact_at n m -> omin (nth (n - 1) tol None) (nth (n - 1) mr None) = Some x -> lt1 (Some x) && adaptive = false.
  Proof. intros (y & E & H & _) E2. rewrite E2 in E. injection E as <-. unfold lt1. destruct (Rlt_dec x 1); [|reflexivity]. destruct H as [[_ ->]|[H _]]; [reflexivity|lra]. Qed.
  Lemma dims_bound n : node t n -> NoDup (dims t n) /\ Forall (fun k => (k < length shp)%nat) (dims t n).
  Proof. intros Hn. split; [exact (NoDup_dims t r T n Hn)|]. apply Forall_forall. intros k Hk. apply (in_dims t r T n k Hn) in Hk. rewrite HD. apply Hk. Qed.
  Lemma eye_nonsingular m : nonsingular (eye_mx m).
  Proof. split; [reflexivity|]. intros x Hx j Hj. specialize (Hx j Hj). unfold mv in Hx. cbn [eye_mx mrows mcols] in *. rewrite (eye_mul shp t HD m 0 (fun j _ => x j)) in Hx by auto. exact Hx. Qed.

  Lemma leaf_step2 st nu st' : lens t st -> (nu < length (d2i t))%nat -> let n := nth nu (d2i t) 0%nat in
    leaf_step svd L factor adaptive f shp t act tol mr EIM rnd choice st nu = Some st' -> ex st' n.
  Proof.
    intros HLn Hnu n H. assert (Hn : node t n) by exact (d2i_node t r T nu Hnu). assert (Hl : is_leaf t n = true) by (apply d2i_leaf; auto).
    unfold leaf_step in H. fold n in H. set (m := nth nu shp 0%nat) in *. set (g := map (fun i => [i]) (seq 0 m)) in *.
    assert (EM : msize shp t n = m) by (apply (msize_leaf shp t r T); auto). assert (ED : dims t n = [nu]) by (apply (dims_of_leaf t r T); auto).
    destruct (dims_bound n Hn) as [DN DB]. rewrite ED in DN, DB. unfold ex. rewrite Hl, EM, ED.
    destruct (nth (n - 1) act false) eqn:EA.
    - destruct (alpha_pc _ _ _ _ _ _ _ _ _ _ _) as [p|] eqn:EP; [|discriminate]. cbn [bind] in H.
      assert (Lg : length g = m) by (unfold g; rewrite map_length, seq_length; auto).
      destruct (alpha_pc_ok svd SV L HL factor adaptive f shp [nu] _ (eye_mx m) g (rnd n) p Lg (RN n) EP) as (_ & P1 & P2 & P3). cbn [eye_mx mrows] in P1, P2.
      destruct (np_reshapeF _ _) as [C|] eqn:EC; [|discriminate]. cbn [bind] in H. set (B' := matmul (eye_mx m) (po_pc p)) in *.
      assert (HC : forall i k, (i < m)%nat -> (k < mcols (po_pc p))%nat -> get C [i; k] = ment (po_pc p) i k).
      { assert (HS : shape (nd_of (po_pc p)) = [m; mcols (po_pc p)]) by (cbn; rewrite P1; auto). destruct (reshapeF_same _ _ HS) as (C' & E1 & E2 & E3).
        rewrite E1 in EC. injection EC as <-. intros i k Hi Hk. rewrite E3; [reflexivity|]. repeat constructor; auto. }
      destruct (magic_indices L B' None LeftRight) as [IJ|] eqn:EI; [|discriminate]. cbn [bind] in H. injection H as <-.
      assert (MR := magic_rows L HL shp t HD B' IJ). cbn [B' matmul mrows mcols eye_mx] in MR. destruct (MR ltac:(lia) EI) as (M1 & M2 & M3 & M4).
      match goal with |- context [TensorPCA.put n C ?B2 ?g2 ?k ?q st] => destruct (put_at t n C B2 g2 k q st HLn Hn) as (A1 & A2 & A3) end. rewrite A1, A3.
      split; [apply (eim_nonsingular B' (fst IJ) (snd IJ)); auto|]. intros _ (x & X1 & X2 & X3) is HV. rewrite X1 in EP. rewrite ED in X2, X3. cbn [MagicIndices.take_rows mcols B' matmul].
      assert (HG : Forall (valid (sel 0%nat shp [nu])) g).
      { apply Forall_forall. intros y Hy. apply in_map_iff in Hy. destruct Hy as (i & <- & Hi). apply in_seq in Hi. cbn. constructor; [fold m; lia|constructor]. }
      destruct (pc_fact svd SV L HL factor adaptive f shp [nu] x (eye_mx m) g (rnd n) p Lg (RN n) DN DB HG (RV n)) with (is := is) (c := fun i => f (TensorSpec.put [nu] [i] is)) as [b Hb]; auto.
      + apply (exact_lt1 n m); [|exact X1]. exists x. rewrite ED. auto.
      + destruct X2 as [[X2 _]|X2]; [left; auto|right; auto].
      + intros N HN. apply nsamp_ok in HN. cbn [eye_mx mcols] in HN. rewrite HN. exact X3.
      + intros i Hi. cbn [eye_mx mrows mcols] in Hi |- *. rewrite (eye_mul shp t HD m 0 (fun j _ => f (TensorSpec.put [nu] [j] is))) by auto.
        unfold g. rewrite (map_nth_in _ _ _ 0%nat) by (rewrite seq_length; auto). rewrite seq_nth by auto. reflexivity.
      + exists b. intros i Hi. rewrite (Hb i) by exact Hi. apply rsum_ext_R'. intros k Hk. rewrite HC by auto. reflexivity.
    - injection H as <-. set (st' := PS _ _ _ _ _). destruct HLn as (L1 & L2 & L3). unfold node in Hn.
      assert (A1 : nthb st' n = eye_mx m) by (unfold nthb, st'; cbn [ps_basis]; apply ListAux.nth_upd_eq; lia). rewrite A1. split; [apply eye_nonsingular|]. discriminate.
  Qed.

  Lemma inner_step2 st n st' : lens t st -> node t n -> is_leaf t n = false -> (forall c, edge t n c -> good st c) -> ~ edge t n n -> istep st n = Some st' -> ex st' n.
  Proof.
    intros HLn Hn Hl HG Hnn H. unfold inner_step in H. fold (cbases t st n) in H. fold (cgrids t st n) in H.
    destruct (tensor_product_bases (cbases t st n)) as [B|] eqn:EB; [|discriminate]. cbn [bind] in H. destruct (g_array (cgrids t st n)) as [g|] eqn:EG; [|discriminate]. cbn [bind] in H.
    destruct (gather shp t r T HD act st n Hn Hl HG B g EB EG) as (B1 & B2 & B3 & B4 & B5 & B6 & B7 & B8).
    destruct (alpha_pc _ _ _ _ _ _ _ _ _ _ _) as [p|] eqn:EP; [|discriminate]. cbn [bind] in H.
    destruct (alpha_pc_ok svd SV L HL factor adaptive f shp (dims t n) _ B g (rnd n) p B3 (RN n) EP) as (NB & P1 & P2 & P3).
    rewrite cols_map in H. destruct (np_reshapeF _ _) as [C|] eqn:EC; [|discriminate]. cbn [bind] in H.
    set (B' := matmul B (po_pc p)) in *. destruct (magic_indices L B' None LeftRight) as [IJ|] eqn:EI; [|discriminate]. cbn [bind] in H. injection H as <-.
    assert (MR := magic_rows L HL shp t HD B' IJ). cbn [B' matmul mrows mcols] in MR. destruct (MR ltac:(lia) EI) as (M1 & M2 & M3 & M4). clear MR.
    set (cs := colsof (cbases t st n)) in *. set (rs := rowsof (cbases t st n)) in *. set (r0 := mcols (po_pc p)) in *.
    assert (HC2 : forall ks k, valid cs ks -> (k < r0)%nat -> get C (ks ++ [k]) = ment (po_pc p) (sub2indF cs ks) k).
    { unfold np_reshapeF in EC. destruct (_ =? _)%nat in EC; [|discriminate]. injection EC as <-. cbn [shape get]. intros ks k Vk Hk.
      rewrite sub2indF_app by auto. cbn [sub2indF nd_of shape get ind2subF]. rewrite P1, B4, B2. fold cs.
      assert (H0 := sub2indF_lt _ _ Vk). replace (k + r0 * 0)%nat with k by lia.
      replace ((sub2indF cs ks + prodn cs * k) mod prodn cs)%nat with (sub2indF cs ks) by (rewrite (Nat.mul_comm (prodn cs)), Nat.mod_add, Nat.mod_small by lia; auto).
      replace ((sub2indF cs ks + prodn cs * k) / prodn cs)%nat with k by (rewrite (Nat.mul_comm (prodn cs)), Nat.div_add, Nat.div_small by lia; auto).
      cbn [nth]. f_equal. apply Nat.mod_small; auto. }
    match goal with |- context [TensorPCA.put n C ?B2 ?g2 ?k ?q st] => destruct (put_at t n C B2 g2 k q st HLn Hn) as (A1 & A2 & A3); set (st' := TensorPCA.put n C B2 g2 k q st) in * end.
    assert (SO : forall c, edge t n c -> sameat st st' c).
    { intros c Hc. apply (put_other t); auto; [apply Hc|]. intros ->. auto. }
    assert (EBs : cbases t st' n = cbases t st n) by (unfold cbases; apply map_ext_in; intros c Hc; apply SO, in_children; auto).
    assert (EGs : cgrids t st' n = cgrids t st n) by (unfold cgrids; apply map_ext_in; intros c Hc; apply SO, in_children; auto).
    unfold ex. rewrite Hl, A1, A3, EBs, EGs. fold cs rs. split; [apply (eim_nonsingular B' (fst IJ) (snd IJ)); auto|].
    intros (x & X1 & X2 & X3) is c HV HC. rewrite X1 in EP. cbn [MagicIndices.take_rows mcols B' matmul]. fold r0. destruct (dims_bound n Hn) as [DN DB].
    destruct (pc_fact svd SV L HL factor adaptive f shp (dims t n) x B g (rnd n) p B3 (RN n) DN DB B7 (RV n)) with (is := is) (c := fun k => c (ind2subF cs k)) as [b Hb]; auto.
    - apply (exact_lt1 n (prodn cs)); [|exact X1]. exists x. auto.
    - destruct X2 as [[X2 _]|X2]; [left; auto|right; auto].
    - intros N HN. apply nsamp_ok in HN. rewrite B2 in HN. fold cs in HN. rewrite HN. exact X3.
    - intros i Hi. rewrite B1 in Hi. fold rs in Hi. assert (Vi := ind2subF_valid rs i Hi). assert (E := HC _ Vi). assert (E6 := B6 _ Vi). fold rs in E6. rewrite sub2indF_ind2subF in E6 by auto. rewrite E6, <- E.
      rewrite B2. fold cs. rewrite <- bsum_linear'. apply bsum_ext. intros ks Vk. assert (E5 := B5 _ _ Vi Vk). fold rs cs in E5. rewrite sub2indF_ind2subF in E5 by auto. rewrite E5. rewrite ind2subF_sub2indF by auto. reflexivity.
    - exists b. intros ks Vk. assert (Hlt := sub2indF_lt _ _ Vk). specialize (Hb (sub2indF cs ks)). rewrite B2 in Hb. fold cs in Hb. specialize (Hb Hlt). cbv beta in Hb. rewrite ind2subF_sub2indF in Hb by auto. rewrite Hb.
      apply rsum_ext_R'. intros k Hk. rewrite HC2 by auto. reflexivity.
  Qed.
  (** the last system is nonsingular *)
  Lemma root_step2 st st' : is_leaf t r = false -> (forall c, edge t r c -> good st c) -> root_step L f shp t st = Some st' ->
    forall c c' : list nat -> R, (forall js, valid (rowsof (cbases t st r)) js -> bsum (colsof (cbases t st r)) (fun ks => kval (cbases t st r) js ks * c ks) = bsum (colsof (cbases t st r)) (fun ks => kval (cbases t st r) js ks * c' ks)) ->
      forall ks, valid (colsof (cbases t st r)) ks -> c ks = c' ks.
  Proof.
    intros Hl HG H c c' HC ks Vk. unfold root_step in H. rewrite (root_eq t r V) in H. assert (Hn := rt_root t r V).
    fold (cbases t st r) in H. fold (cgrids t st r) in H.
    destruct (tensor_product_bases (cbases t st r)) as [B|] eqn:EB; [|discriminate]. cbn [bind] in H. destruct (g_array (cgrids t st r)) as [g|] eqn:EG; [|discriminate]. cbn [bind] in H.
    destruct (gather shp t r T HD act st r Hn Hl HG B g EB EG) as (B1 & B2 & B3 & B4 & B5 & B6 & B7 & B8).
    destruct (TensorPCA.columns _ g) as [q|] eqn:EQ; [|discriminate]. cbn [bind] in H. destruct (length q =? mrows B)%nat; [|discriminate]. cbn [negb] in H.
    destruct (l_solve L B _) as [x|] eqn:EX; [|discriminate]. destruct (solve_some L HL _ _ _ EX) as [HN _].
    set (cs := colsof (cbases t st r)) in *. set (rs := rowsof (cbases t st r)) in *. assert (Hlt := sub2indF_lt _ _ Vk).
    assert (Z : c (ind2subF cs (sub2indF cs ks)) - c' (ind2subF cs (sub2indF cs ks)) = 0); [|rewrite ind2subF_sub2indF in Z by auto; lra].
    apply (proj2 HN (fun k => c (ind2subF cs k) - c' (ind2subF cs k))); [|rewrite B2; exact Hlt].
    intros i Hi. rewrite B1 in Hi. fold rs in Hi. assert (Vi := ind2subF_valid rs i Hi). unfold mv. rewrite B2. fold cs.
    rewrite (rsum_ext_R' _ _ (fun k => ment B i k * c (ind2subF cs k) + (-1) * (ment B i k * c' (ind2subF cs k)))) by (intros; ring). rewrite rsum_plus_R, rsum_scal_l_R.
    assert (EL : forall c0 : list nat -> R, rsum (prodn cs) (fun k => ment B i k * c0 (ind2subF cs k)) = bsum cs (fun ls => kval (cbases t st r) (ind2subF rs i) ls * c0 ls)).
    { intros c0. rewrite <- bsum_linear'. apply bsum_ext. intros ls Vl. assert (E5 := B5 _ _ Vi Vl). fold rs cs in E5. rewrite sub2indF_ind2subF in E5 by auto. rewrite E5, ind2subF_sub2indF by auto. reflexivity. }
    rewrite !EL, HC by auto. ring.
  Qed.

  Lemma leaves_fold2 : forall l st st', NoDup l -> (forall nu, In nu l -> (nu < length (d2i t))%nat) -> lens t st ->
    (forall nu, In nu l -> nthc (ps_cores st) (nth nu (d2i t) 0%nat) = no_core) -> ofold lstep l st = Some st' -> forall nu, In nu l -> ex st' (nth nu (d2i t) 0%nat).
  Proof.
    induction l as [|nu l IH]; intros st st' ND HI HLn HN0 H mu Hmu; cbn in H; [destruct Hmu|].
    destruct (lstep st nu) as [s1|] eqn:E1; [|discriminate]. inversion ND as [|? ? Hnu ND']; subst.
    destruct (leaf_step_ok svd SV L HL factor adaptive f shp t r T HD act tol mr EIM rnd choice RN CH st nu s1 HLn (HI nu (or_introl eq_refl)) (HN0 nu (or_introl eq_refl)) E1) as (A1 & A2 & A3 & A4).
    assert (NE : forall mu, In mu l -> nth mu (d2i t) 0%nat <> nth nu (d2i t) 0%nat).
    { intros xi Hxi E. apply Hnu. rewrite (d2i_inj t r T nu xi); auto; apply HI; cbn; auto. }
    assert (N0 : forall mu, In mu l -> nthc (ps_cores s1) (nth mu (d2i t) 0%nat) = no_core).
    { intros xi Hxi. destruct (A3 (nth xi (d2i t) 0%nat)) as (_ & _ & E); [apply (d2i_node t r T), HI; right; auto|apply NE; auto|]. rewrite E. apply HN0. right; auto. }
    assert (HI' : forall nu, In nu l -> (nu < length (d2i t))%nat) by (intros xi Hxi; apply HI; right; auto).
    destruct Hmu as [<-|Hmu]; [|apply (IH s1 st'); auto].
    destruct (leaves_fold svd SV L HL factor adaptive f shp t r T HD act tol mr EIM rnd choice RN CH l s1 st') as (B1 & B2 & B3 & B4); auto.
    assert (Hl : is_leaf t (nth nu (d2i t) 0%nat) = true) by (apply (d2i_leaf t), HI; left; auto).
    apply (ex_ext s1); [apply (leaf_node t r T); auto| | |apply (leaf_step2 st nu s1); auto; apply HI; left; auto].
    - apply B3; [apply (leaf_node t r T); auto|]. intros x Hx E. apply (NE x Hx). auto.
    - intros c Hc. exfalso. exact (leaf_noedge t r T _ c Hl Hc).
  Qed.
  Lemma inner_fold2 : forall l done st st', (forall m, In m done -> node t m /\ good st m /\ ex st m /\ forall c, edge t m c -> In c done) -> NoDup l ->
    (forall m, In m l -> ~ In m done /\ node t m /\ is_leaf t m = false) -> (forall l1 n l2 c, l = l1 ++ n :: l2 -> edge t n c -> In c (done ++ l1)) ->
    lens t st -> ofold istep l st = Some st' -> forall m, In m (done ++ l) -> ex st' m.
  Proof.
    induction l as [|n l IH]; intros done st st' HDn ND HI HT HLn H; cbn in H.
    - injection H as <-. intros m Hm. rewrite app_nil_r in Hm. apply HDn; auto.
    - destruct (istep st n) as [s1|] eqn:E1; [|discriminate]. inversion ND as [|? ? Hnl ND']; subst. destruct (HI n (or_introl eq_refl)) as (N1 & N2 & N3).
      assert (HC : forall c, edge t n c -> In c done) by (intros c Hc; specialize (HT [] n l c eq_refl Hc); rewrite app_nil_r in HT; auto).
      assert (Hnn : ~ edge t n n) by (intros Hc; apply N1, HC; auto).
      assert (HGc : forall c, edge t n c -> good st c) by (intros c Hc; apply HDn, HC; auto).
      destruct (inner_step_ok svd SV L HL factor adaptive f shp t r T HD act tol mr rnd RN st n s1 HLn N2 N3 HGc Hnn E1) as (A1 & A2 & A3 & A4).
      assert (A5 := inner_step2 st n s1 HLn N2 N3 HGc Hnn E1).
      intros m Hm. apply (IH (done ++ [n]) s1 st'); auto; [| | |rewrite <- app_assoc; auto].
      { intros x Hx. apply in_app_or in Hx. destruct Hx as [Hx|[<-|[]]].
        - destruct (HDn x Hx) as (D1 & D2 & D3 & D4). assert (S1 : sameat st s1 x) by (apply A3; auto; intros ->; auto).
          assert (S2 : forall c, edge t x c -> sameat st s1 c) by (intros c Hc; apply A3; [apply Hc|]; intros ->; apply N1; eapply D4; eauto).
          split; [auto|]. split; [apply (good_ext shp t act st); auto|]. split; [apply (ex_ext st); auto|]. intros c Hc. apply in_or_app; left; auto.
        - split; [auto|]. split; [auto|]. split; [auto|]. intros c Hc. apply in_or_app. left; auto. }
      { intros x Hx. destruct (HI x (or_intror Hx)) as (M1 & M2 & M3). split; [|auto]. intros Hy. apply in_app_or in Hy. destruct Hy as [Hy|[<-|[]]]; auto. }
      { intros l1 n' l2 c E Hc. rewrite <- app_assoc. cbn [app]. apply (HT (n :: l1) n' l2); auto. rewrite E. auto. }
  Qed.
End Loops.
