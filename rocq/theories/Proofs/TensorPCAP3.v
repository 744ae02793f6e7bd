(** the loops of tree_based_approximation: what is known of the data of each node. *)
From Coq Require Import List Arith Lia Bool Reals Permutation Lra.
From Verif.Base Require Import ListAux CRing Index RealAux LinAlg.
From Verif.Model Require Import Sorting Numpy FullTensor Diagonal Canonical DimensionTree TreeBased Truncator HSVD Functions Measures Learning DensityL2 MagicIndices AltMin TensorPCA.
From Verif.Spec Require Import TensorSpec TreeSpec TruncatorSpec LearningSpec FunctionSpec MagicSpec.
From Verif.Proofs Require Import NumpyP FullTensorP FullTensorP3 FunctionsP FunctionsP3 TensorizerP DimTreeP HsvdP2 TreeTensorP2 TreeTensorP3 TreeTensorP13 MagicP TensorPCAP1 TensorPCAP2.
Import ListNotations.
Local Open Scope R_scope.

Definition lens (t : dtree) (st : pca_state) : Prop := length (ps_cores st) = nbn t /\ length (ps_basis st) = nbn t /\ length (ps_grid st) = nbn t.
Definition sameat (st st' : pca_state) (m : nat) : Prop :=
  nthb st' m = nthb st m /\ nthg st' m = nthg st m /\ nthc (ps_cores st') m = nthc (ps_cores st) m.
Lemma sameat_refl st m : sameat st st m. Proof. repeat split. Qed.
Lemma sameat_trans a b c m : sameat a b m -> sameat b c m -> sameat a c m.
Proof. intros (A1 & A2 & A3) (B1 & B2 & B3). repeat split; congruence. Qed.

Lemma put_lens t n C B g k q st : lens t st -> lens t (TensorPCA.put n C B g k q st).
Proof. intros (H1 & H2 & H3). unfold TensorPCA.put, lens. cbn. rewrite setc_length, !ListAux.upd_length. auto. Qed.
Lemma put_at t n C B g k q st : lens t st -> node t n ->
  nthb (TensorPCA.put n C B g k q st) n = B /\ nthg (TensorPCA.put n C B g k q st) n = g /\ nthc (ps_cores (TensorPCA.put n C B g k q st)) n = C.
Proof.
  intros (H1 & H2 & H3) Hn. unfold node in Hn. unfold nthb, nthg, TensorPCA.put. cbn [ps_basis ps_grid ps_cores]. rewrite !ListAux.nth_upd_eq by lia.
  rewrite nthc_setc_eq by lia. auto.
Qed.
Lemma put_other t n C B g k q st m : node t n -> node t m -> m <> n -> sameat st (TensorPCA.put n C B g k q st) m.
Proof.
  intros Hn Hm H. unfold node in *. unfold sameat, nthb, nthg, TensorPCA.put. cbn [ps_basis ps_grid ps_cores]. rewrite !ListAux.nth_upd_neq by lia. rewrite nthc_setc_neq by lia. auto.
Qed.

Section Loops.
  Variable svd : nd R -> nd R * list R * nd R.
  Hypothesis SV : svd_contract svd.
  Variable L : lapack.
  Hypothesis HL : lapack_ok L.
  Variables (factor : nat) (adaptive : bool) (f : list nat -> R) (shp : list nat).
  Variables (t : dtree) (r : nat).
  Hypothesis T : dim_tree t r.
  Hypothesis HD : length shp = length (d2i t).
  Variables (act : list bool) (tol mr : list (option R)) (sub : subsampling) (rnd : nat -> sampler) (choice : nat -> nat -> nat -> list nat).
  Hypothesis RN : forall n na N, length (rnd n na N) = N.
  Hypothesis CH : forall n m k, (k <= m)%nat -> length (choice n m k) = k /\ forall i, In i (choice n m k) -> (i < m)%nat.

  Definition msize (n : nat) : nat := nth (index_of n (d2i t)) shp 0%nat.
  Definition leafdata (st : pca_state) (n : nat) : Prop :=
    if nth (n - 1) act false then
      shape (nthc (ps_cores st) n) = [msize n; mcols (nthb st n)] /\ (1 <= mcols (nthb st n))%nat /\ (1 <= msize n)%nat /\
      forall a k, (a < mrows (nthb st n))%nat -> (k < mcols (nthb st n))%nat -> ment (nthb st n) a k = get (nthc (ps_cores st) n) [nth 0 (nth a (nthg st n) []) 0%nat; k]
    else nthc (ps_cores st) n = no_core /\ nthb st n = eye_mx (msize n) /\ nthg st n = map (fun i => [i]) (seq 0 (msize n)).
  Definition cbases (st : pca_state) (n : nat) : list mx := map (nthb st) (children t n).
  Definition cgrids (st : pca_state) (n : nat) : list (list (list nat)) := map (nthg st) (children t n).
  Definition innerdata (st : pca_state) (n : nat) : Prop :=
    shape (nthc (ps_cores st) n) = colsof (cbases st n) ++ [mcols (nthb st n)] /\ (1 <= mcols (nthb st n))%nat /\
    forall a, (a < mrows (nthb st n))%nat -> exists js, valid (rowsof (cbases st n)) js /\ nth a (nthg st n) [] = grid_point (cgrids st n) js /\
      forall k, (k < mcols (nthb st n))%nat ->
        ment (nthb st n) a k = bsum (colsof (cbases st n)) (fun ks => get (nthc (ps_cores st) n) (ks ++ [k]) * kval (cbases st n) js ks).
  Definition good (st : pca_state) (n : nat) : Prop :=
    length (nthg st n) = mrows (nthb st n) /\ mrows (nthb st n) = mcols (nthb st n) /\ Forall (valid (sel 0%nat shp (dims t n))) (nthg st n) /\
    if is_leaf t n then leafdata st n else innerdata st n.

  Lemma good_ext st st' n : node t n -> sameat st st' n -> (forall c, edge t n c -> sameat st st' c) -> good st n -> good st' n.
  Proof.
    intros Hn (E1 & E2 & E3) HC (G1 & G2 & G3 & G4).
    assert (EB : cbases st' n = cbases st n) by (unfold cbases; apply map_ext_in; intros c Hc; apply HC, in_children; auto).
    assert (EG : cgrids st' n = cgrids st n) by (unfold cgrids; apply map_ext_in; intros c Hc; apply HC, in_children; auto).
    unfold good, leafdata, innerdata. rewrite E1, E2, E3, EB, EG. auto.
  Qed.

  Lemma msize_leaf nu : (nu < length (d2i t))%nat -> msize (nth nu (d2i t) 0%nat) = nth nu shp 0%nat.
  Proof. intros H. unfold msize. rewrite index_of_NoDup; auto. exact (NoDup_d2i t r T). Qed.
  Lemma dims_of_leaf nu : (nu < length (d2i t))%nat -> dims t (nth nu (d2i t) 0%nat) = [nu].
  Proof. intros H. rewrite (dims_leaf t r T) by (apply d2i_leaf; auto). rewrite index_of_NoDup; auto. exact (NoDup_d2i t r T). Qed.

  Lemma eye_mul m k (M : nat -> nat -> R) a : (a < m)%nat -> rsum m (fun j => ment (eye_mx m) a j * M j k) = M a k.
  Proof.
    intros H. rewrite (rsum_ext_R' m _ (fun j => if (j =? a)%nat then M j k else 0)).
    - rewrite PolyP5.rsum_pick. destruct (Nat.ltb_spec a m); [reflexivity|lia].
    - intros j Hj. unfold eye_mx. cbn [ment]. rewrite (Nat.eqb_sym a j). destruct (j =? a)%nat; ring.
  Qed.
  Lemma take_rows_at F Is a k : ment (MagicIndices.take_rows F Is) a k = ment F (nth a Is 0%nat) k.
  Proof. reflexivity. Qed.

  (** the rows that are kept *)
  Lemma rows_kept (M : mx) (g : list (list nat)) Is : length g = mrows M -> (mcols M <= mrows M)%nat -> length Is = mcols M -> (forall i, In i Is -> (i < mrows M)%nat) ->
    let B := MagicIndices.take_rows M Is in let g' := map (fun i => nth i g []) Is in
    length g' = mrows B /\ mrows B = mcols B /\ (forall a, (a < mrows B)%nat -> nth a g' [] = nth (nth a Is 0%nat) g [] /\ (nth a Is 0 < mrows M)%nat) /\
    (forall P, Forall P g -> Forall P g').
  Proof.
    intros Hg HM HI HB. cbn. rewrite map_length. split; [auto|]. split; [auto|]. split.
    - intros a Ha. split; [rewrite (map_nth_in _ _ _ 0%nat) by auto; reflexivity|]. apply HB, nth_In. auto.
    - intros P HP. apply Forall_forall. intros x Hx. apply in_map_iff in Hx. destruct Hx as (i & <- & Hi). rewrite Forall_forall in HP. apply HP, nth_In. rewrite Hg. auto.
  Qed.
  Lemma magic_rows (M : mx) IJ : (mcols M <= mrows M)%nat -> magic_indices L M None LeftRight = Some IJ -> length (fst IJ) = mcols M /\ (forall i, In i (fst IJ) -> (i < mrows M)%nat) /\
    sub_nonsingular (ment M) (fst IJ) (snd IJ) /\ distinct_below (mcols M) (snd IJ).
  Proof.
    intros H E. destruct IJ as [Is J]. destruct (magic_state L HL _ _ _ _ _ E) as (H1 & H2 & [_ H3] & H4). cbn [fst snd]. split; [rewrite H1; unfold n_of; lia|]. auto.
  Qed.

  Lemma leaf_step_ok st nu st' : lens t st -> (nu < length (d2i t))%nat -> let n := nth nu (d2i t) 0%nat in nthc (ps_cores st) n = no_core ->
    leaf_step svd L factor adaptive f shp t act tol mr sub rnd choice st nu = Some st' ->
    lens t st' /\ good st' n /\ (forall m, node t m -> m <> n -> sameat st st' m) /\ (ps_n st = length (ps_pts st) -> ps_n st' = length (ps_pts st')).
  Proof.
    intros HLn Hnu n HN0 H. assert (Hn : node t n) by exact (d2i_node t r T nu Hnu). assert (Hl : is_leaf t n = true) by (apply d2i_leaf; auto).
    unfold leaf_step in H. fold n in H. set (m := nth nu shp 0%nat) in *. set (g := map (fun i => [i]) (seq 0 m)) in *.
    assert (EM : msize n = m) by (apply msize_leaf; auto). assert (ED : dims t n = [nu]) by (apply dims_of_leaf; auto).
    assert (HG : Forall (valid (sel 0%nat shp (dims t n))) g).
    { rewrite ED. apply Forall_forall. intros x Hx. apply in_map_iff in Hx. destruct Hx as (i & <- & Hi). apply in_seq in Hi. cbn. constructor; [fold m; lia|constructor]. }
    assert (Lg : length g = m) by (unfold g; rewrite map_length, seq_length; auto).
    destruct (nth (n - 1) act false) eqn:EA.
    - destruct (alpha_pc _ _ _ _ _ _ _ _ _ _ _) as [p|] eqn:EP; [|discriminate]. cbn [bind] in H.
      destruct (alpha_pc_ok svd SV L HL factor adaptive f shp [nu] _ (eye_mx m) g (rnd n) p Lg (RN n) EP) as (_ & P1 & P2 & P3).
      cbn [eye_mx mrows] in P1, P2. destruct (np_reshapeF _ _) as [C|] eqn:EC; [|discriminate]. cbn [bind] in H. set (B' := matmul (eye_mx m) (po_pc p)) in *.
      assert (HC : shape C = [m; mcols (po_pc p)] /\ forall i k, (i < m)%nat -> (k < mcols (po_pc p))%nat -> get C [i; k] = ment (po_pc p) i k).
      { assert (HS : shape (nd_of (po_pc p)) = [m; mcols (po_pc p)]) by (cbn; rewrite P1; auto). destruct (reshapeF_same _ _ HS) as (C' & E1 & E2 & E3).
        rewrite E1 in EC. injection EC as <-. split; [auto|]. intros i k Hi Hk. rewrite E3; [reflexivity|]. repeat constructor; auto. }
      destruct HC as [HC1 HC2].
      assert (HI : exists Is, length Is = mcols B' /\ (forall i, In i Is -> (i < mrows B')%nat) /\
        Some (TensorPCA.put n C (MagicIndices.take_rows B' Is) (map (fun i => nth i g []) Is) (po_n p) (po_pts p) st) = Some st').
      { destruct sub.
        - destruct (magic_indices L B' None LeftRight) as [IJ|] eqn:EI; [|discriminate]. cbn [bind] in H. exists (fst IJ).
          assert (MR := magic_rows B' IJ). cbn [B' matmul mrows mcols eye_mx] in MR. destruct (MR ltac:(lia) EI) as (M1 & M2 & _). auto.
        - destruct (Nat.leb_spec (mcols B') (mrows B')) as [HB|HB]; [|discriminate]. cbn [bind] in H. exists (choice n (mrows B') (mcols B')). destruct (CH n _ _ HB). auto. }
      destruct HI as (Is & I1 & I2 & I3). injection I3 as <-.
      destruct (rows_kept B' g Is) as (K1 & K2 & K3 & K4); [exact Lg|cbn; lia|auto|auto|]. set (B2 := MagicIndices.take_rows B' Is) in *. set (g2 := map (fun i => nth i g []) Is) in *.
      destruct (put_at t n C B2 g2 (po_n p) (po_pts p) st HLn Hn) as (A1 & A2 & A3).
      split; [apply put_lens; auto|]. split; [|split].
      + unfold good, leafdata. rewrite Hl, EA, A1, A2, A3, EM. split; [auto|]. split; [auto|]. split; [apply K4; auto|]. split; [exact HC1|]. split; [exact (proj1 P2)|]. split; [lia|].
        intros a k Ha Hk. destruct (K3 a Ha) as [E1 E2]. rewrite E1. unfold B2. rewrite take_rows_at. unfold g. rewrite (map_nth_in _ _ _ 0%nat) by (rewrite seq_length; exact E2).
        rewrite seq_nth by exact E2. cbn [nth Nat.add]. rewrite HC2 by auto. unfold B', matmul. cbn [ment mcols eye_mx]. apply (eye_mul m k (ment (po_pc p))). exact E2.
      + intros m' Hm' Hne. apply (put_other t); auto.
      + intros HP. cbn. rewrite app_length. lia.
    - injection H as <-. set (st' := PS _ _ _ _ _). destruct HLn as (L1 & L2 & L3). unfold node in Hn.
      assert (A1 : nthb st' n = eye_mx m) by (unfold nthb, st'; cbn [ps_basis]; apply ListAux.nth_upd_eq; lia).
      assert (A2 : nthg st' n = g) by (unfold nthg, st'; cbn [ps_grid]; apply ListAux.nth_upd_eq; lia).
      split; [unfold lens, st'; cbn; rewrite !ListAux.upd_length; auto|]. split; [|split].
      + unfold good, leafdata. rewrite Hl, EA, A1, A2, EM. cbn [eye_mx mrows mcols]. split; [exact Lg|]. split; [auto|]. split; [exact HG|]. split; [exact HN0|]. auto.
      + intros m' Hm' Hne. unfold node in Hm'. unfold sameat, nthb, nthg, st'. cbn [ps_basis ps_grid ps_cores]. rewrite !ListAux.nth_upd_neq by lia. auto.
      + auto.
  Qed.

  Lemma grid_valid st : forall ch js, (forall c, In c ch -> Forall (valid (sel 0%nat shp (dims t c))) (nthg st c)) -> valid (map (fun c => length (nthg st c)) ch) js ->
    valid (sel 0%nat shp (flat_map (dims t) ch)) (grid_point (map (nthg st) ch) js).
  Proof.
    induction ch as [|c ch IH]; intros js HV V; cbn [map flat_map] in *.
    - inversion V; subst. cbn. apply NumpyP.valid_intro; [reflexivity|cbn; lia].
    - inversion V as [|? ? ? ? V1 V2]; subst. cbn [grid_point]. unfold sel. rewrite map_app. apply valid_app.
      + assert (HC := HV c (or_introl eq_refl)). rewrite Forall_forall in HC. apply HC, nth_In. auto.
      + apply IH; auto. intros c' Hc'. apply HV. right; auto.
  Qed.
  Lemma rows_lens st n : (forall c, edge t n c -> good st c) -> node t n -> rowsof (cbases st n) = map (fun c => length (nthg st c)) (children t n).
  Proof.
    intros HG Hn. unfold rowsof, cbases. rewrite map_map. apply map_ext_in. intros c Hc. apply in_children in Hc; auto. destruct (HG c Hc) as (E & _). auto.
  Qed.
  Lemma children_ne n : node t n -> is_leaf t n = false -> children t n <> [].
  Proof. intros Hn Hl E. assert (H : is_leaf t n = true); [|congruence]. apply (proj2 (leaf_iff t r T n)). split; auto. intros c Hc. apply in_children in Hc; auto. rewrite E in Hc. destruct Hc. Qed.

  (** what is computed from the children *)
  Lemma gather st n : node t n -> is_leaf t n = false -> (forall c, edge t n c -> good st c) -> forall B g,
    tensor_product_bases (cbases st n) = Some B -> g_array (cgrids st n) = Some g ->
    mrows B = prodn (rowsof (cbases st n)) /\ mcols B = prodn (colsof (cbases st n)) /\ length g = mrows B /\ mrows B = mcols B /\
    (forall is js, valid (rowsof (cbases st n)) is -> valid (colsof (cbases st n)) js ->
       ment B (sub2indF (rowsof (cbases st n)) is) (sub2indF (colsof (cbases st n)) js) = kval (cbases st n) is js) /\
    (forall is, valid (rowsof (cbases st n)) is -> nth (sub2indF (rowsof (cbases st n)) is) g [] = grid_point (cgrids st n) is) /\
    Forall (valid (sel 0%nat shp (dims t n))) g /\ g = map (grid_point (cgrids st n)) (boxF (rowsof (cbases st n))).
  Proof.
    intros Hn Hl HG B g HB Hg. assert (RL := rows_lens st n HG Hn). destruct (kron_spec (cbases st n)) as (B' & E1 & E2 & E3 & E4).
    { unfold cbases. assert (NE := children_ne n Hn Hl). destruct (children t n); [congruence|discriminate]. }
    rewrite E1 in HB. injection HB as <-. destruct (garray_some _ _ Hg) as (_ & _ & Eg). unfold cgrids in Eg. rewrite map_map in Eg. rewrite <- RL in Eg.
    split; [auto|]. split; [auto|]. split; [rewrite Eg, map_length, boxF_length; auto|]. split.
    { rewrite E2, E3. f_equal. unfold rowsof, colsof, cbases. rewrite !map_map. apply map_ext_in. intros c Hc. apply in_children in Hc; auto. destruct (HG c Hc) as (_ & E & _). auto. }
    split; [auto|]. split.
    { intros is V. rewrite Eg. assert (Hlt := sub2indF_lt _ _ V). rewrite (map_nth_in _ _ _ []) by (rewrite boxF_length; auto). rewrite nth_boxF by auto. rewrite ind2subF_sub2indF by auto. reflexivity. }
    split; [|exact Eg].
    rewrite Eg. apply Forall_forall. intros x Hx. apply in_map_iff in Hx. destruct Hx as (js & <- & Hjs). apply in_boxF in Hjs. rewrite (dims_internal t r T) by auto.
    apply grid_valid; [|rewrite <- RL; auto]. intros c Hc. apply in_children in Hc; auto. destruct (HG c Hc) as (_ & _ & E & _). auto.
  Qed.
  Lemma cols_map st n : map (fun c => mcols (nthb st c)) (children t n) = colsof (cbases st n).
  Proof. unfold colsof, cbases. rewrite map_map. reflexivity. Qed.

  Lemma inner_step_ok st n st' : lens t st -> node t n -> is_leaf t n = false -> (forall c, edge t n c -> good st c) -> ~ edge t n n ->
    inner_step svd L factor adaptive f shp t tol mr rnd st n = Some st' ->
    lens t st' /\ good st' n /\ (forall m, node t m -> m <> n -> sameat st st' m) /\ (ps_n st = length (ps_pts st) -> ps_n st' = length (ps_pts st')).
  Proof.
    intros HLn Hn Hl HG Hnn H. unfold inner_step in H. fold (cbases st n) in H. fold (cgrids st n) in H.
    destruct (tensor_product_bases (cbases st n)) as [B|] eqn:EB; [|discriminate]. cbn [bind] in H. destruct (g_array (cgrids st n)) as [g|] eqn:EG; [|discriminate]. cbn [bind] in H.
    destruct (gather st n Hn Hl HG B g EB EG) as (B1 & B2 & B3 & B4 & B5 & B6 & B7 & B8).
    destruct (alpha_pc _ _ _ _ _ _ _ _ _ _ _) as [p|] eqn:EP; [|discriminate]. cbn [bind] in H.
    destruct (alpha_pc_ok svd SV L HL factor adaptive f shp (dims t n) _ B g (rnd n) p B3 (RN n) EP) as (_ & P1 & P2 & P3).
    rewrite cols_map in H. destruct (np_reshapeF _ _) as [C|] eqn:EC; [|discriminate]. cbn [bind] in H.
    set (B' := matmul B (po_pc p)) in *. destruct (magic_indices L B' None LeftRight) as [IJ|] eqn:EI; [|discriminate]. cbn [bind] in H. injection H as <-.
    assert (MR := magic_rows B' IJ). cbn [B' matmul mrows mcols] in MR. destruct (MR ltac:(lia) EI) as (M1 & M2 & _). clear MR.
    destruct (rows_kept B' g (fst IJ)) as (K1 & K2 & K3 & K4); [exact B3|cbn; lia|auto|auto|]. set (Bn := MagicIndices.take_rows B' (fst IJ)) in *. set (gn := map (fun i => nth i g []) (fst IJ)) in *.
    destruct (put_at t n C Bn gn (po_n p) (po_pts p) st HLn Hn) as (A1 & A2 & A3).
    set (cs := colsof (cbases st n)) in *. set (rs := rowsof (cbases st n)) in *. set (r0 := mcols (po_pc p)) in *.
    assert (HC : shape C = cs ++ [r0] /\ forall ks k, valid cs ks -> (k < r0)%nat -> get C (ks ++ [k]) = ment (po_pc p) (sub2indF cs ks) k).
    { unfold np_reshapeF in EC. destruct (_ =? _)%nat in EC; [|discriminate]. injection EC as <-. cbn [shape get]. split; [reflexivity|]. intros ks k Vk Hk.
      rewrite sub2indF_app by auto. cbn [sub2indF nd_of shape get ind2subF]. rewrite P1, B4, B2. fold cs.
      assert (H0 := sub2indF_lt _ _ Vk). replace (k + r0 * 0)%nat with k by lia.
      replace ((sub2indF cs ks + prodn cs * k) mod prodn cs)%nat with (sub2indF cs ks) by (rewrite (Nat.mul_comm (prodn cs)), Nat.mod_add, Nat.mod_small by lia; auto).
      replace ((sub2indF cs ks + prodn cs * k) / prodn cs)%nat with k by (rewrite (Nat.mul_comm (prodn cs)), Nat.div_add, Nat.div_small by lia; auto).
      cbn [nth]. f_equal. apply Nat.mod_small; auto. }
    destruct HC as [HC1 HC2]. split; [apply put_lens; auto|].
    assert (SO : forall c, edge t n c -> sameat st (TensorPCA.put n C Bn gn (po_n p) (po_pts p) st) c).
    { intros c Hc. apply (put_other t); auto; [apply Hc|]. intros ->. auto. }
    assert (EBs : cbases (TensorPCA.put n C Bn gn (po_n p) (po_pts p) st) n = cbases st n) by (unfold cbases; apply map_ext_in; intros c Hc; apply SO, in_children; auto).
    assert (EGs : cgrids (TensorPCA.put n C Bn gn (po_n p) (po_pts p) st) n = cgrids st n) by (unfold cgrids; apply map_ext_in; intros c Hc; apply SO, in_children; auto).
    split; [|split].
    - unfold good, innerdata. rewrite Hl, A1, A2, A3, EBs, EGs. fold cs rs. split; [auto|]. split; [auto|]. split; [apply K4; auto|]. split; [exact HC1|]. split; [exact (proj1 P2)|].
      intros a Ha. destruct (K3 a Ha) as [E1 E2]. set (i := nth a (fst IJ) 0%nat) in *. cbn [B' matmul mrows] in E2. rewrite B1 in E2. fold rs in E2. exists (ind2subF rs i).
      split; [apply ind2subF_valid; auto|]. split; [rewrite E1; rewrite <- B6 by (apply ind2subF_valid; auto); fold rs; rewrite sub2indF_ind2subF; auto|].
      intros k Hk. unfold Bn. rewrite take_rows_at. fold i. unfold B', matmul. cbn [ment mcols]. rewrite B2. fold cs. rewrite <- bsum_linear'.
      apply bsum_ext. intros ks Vk. rewrite HC2 by auto. rewrite <- B5 by (auto; apply ind2subF_valid; auto). fold rs cs. rewrite sub2indF_ind2subF by auto. cbn. ring.
    - intros m' Hm' Hne. apply (put_other t); auto.
    - intros HP. cbn. rewrite app_length. lia.
  Qed.

  (** the root *)
  Definition rootdata (st : pca_state) : Prop :=
    shape (nthc (ps_cores st) r) = colsof (cbases st r) /\ nthg st r = map (grid_point (cgrids st r)) (boxF (rowsof (cbases st r))) /\
    (forall js is, valid (rowsof (cbases st r)) js -> length is = length shp -> sel 0%nat is (dims t r) = grid_point (cgrids st r) js ->
       bsum (colsof (cbases st r)) (fun ks => get (nthc (ps_cores st) r) ks * kval (cbases st r) js ks) = f is).
  Lemma columns_row (ind : list nat) g q i : TensorPCA.columns ind g = Some q -> (i < length g)%nat -> nth i q [] = map (fun k => nth k (nth i g []) 0%nat) ind.
  Proof.
    intros H Hi. unfold TensorPCA.columns in H. assert (E := omap_Forall2 _ _ _ H). assert (LQ := omap_length _ _ _ H).
    assert (F : forall j, (j < length g)%nat -> omap (nth_error (nth j g [])) ind = Some (nth j q [])).
    { clear - E. induction E as [|a b l l' H1 H2 IH]; intros j Hj; cbn in Hj; [lia|]. destruct j; [exact H1|]. apply IH. lia. }
    specialize (F i Hi). set (p := nth i g []) in *. clear - F. revert F. generalize (nth i q []). induction ind as [|k ind IH]; intros l F; cbn in F.
    - injection F as <-. reflexivity.
    - destruct (nth_error p k) as [v|] eqn:EV; [|discriminate]. destruct (omap (nth_error p) ind) as [l0|]; [|discriminate]. injection F as <-. cbn. rewrite <- (IH l0 eq_refl). f_equal.
      symmetry. apply nth_error_nth. auto.
  Qed.
  Lemma sel_index (D is : list nat) : is_perm (length is) D -> map (fun k => nth k (sel 0%nat is D) 0%nat) (map (fun x => index_of x D) (seq 0 (length is))) = is.
  Proof.
    intros HP. rewrite map_map. apply (nth_ext' 0%nat); [rewrite map_length, seq_length; auto|]. intros k Hk. rewrite map_length, seq_length in Hk. rewrite nth_map_seq by auto.
    assert (HI : In k D) by (apply (Permutation_in k (Permutation_sym HP)), in_seq; lia). destruct (index_of_nth D k HI) as [E1 E2]. unfold sel. rewrite (map_nth_in _ _ _ 0%nat) by auto. rewrite E2. reflexivity.
  Qed.
  Lemma root_step_ok st st' : lens t st -> is_leaf t r = false -> (forall c, edge t r c -> good st c) ->
    root_step L f shp t st = Some st' ->
    lens t st' /\ rootdata st' /\ (forall m, node t m -> m <> r -> sameat st st' m) /\ (ps_n st = length (ps_pts st) -> ps_n st' = length (ps_pts st')).
  Proof.
    intros HLn Hl HG H. unfold root_step in H. assert (ER : root t = r) by exact (root_eq t r (proj1 T)). rewrite ER in H. assert (Hn : node t r) by exact (rt_root t r (proj1 T)).
    fold (cbases st r) in H. fold (cgrids st r) in H. rewrite cols_map in H.
    destruct (tensor_product_bases (cbases st r)) as [B|] eqn:EB; [|discriminate]. cbn [bind] in H. destruct (g_array (cgrids st r)) as [g|] eqn:EG; [|discriminate]. cbn [bind] in H.
    destruct (gather st r Hn Hl HG B g EB EG) as (B1 & B2 & B3 & B4 & B5 & B6 & B7 & B8).
    destruct (TensorPCA.columns _ g) as [q|] eqn:EQ; [|discriminate]. cbn [bind] in H. destruct (length q =? mrows B)%nat; [|discriminate]. cbn [negb] in H.
    destruct (l_solve L B _) as [x|] eqn:EX; [|discriminate]. cbn [bind] in H. destruct (solve_some L HL _ _ _ EX) as [HN HX].
    destruct (np_reshapeF _ _) as [C|] eqn:EC; [|discriminate]. cbn [bind] in H. injection H as <-. set (st' := PS _ _ _ _ _).
    set (cs := colsof (cbases st r)) in *. set (rs := rowsof (cbases st r)) in *.
    assert (HC : shape C = cs /\ forall ks, valid cs ks -> get C ks = x (sub2indF cs ks)).
    { unfold np_reshapeF in EC. destruct (_ =? _)%nat in EC; [|discriminate]. injection EC as <-. cbn [shape get]. split; [reflexivity|]. intros ks Vk. cbn [ind2subF nth].
      rewrite B2. f_equal. apply Nat.mod_small. apply sub2indF_lt. auto. }
    destruct HC as [HC1 HC2]. destruct HLn as (L1 & L2 & L3). assert (Hn' := Hn). unfold node in Hn'.
    assert (SO : forall m, node t m -> m <> r -> sameat st st' m).
    { intros m Hm Hne. unfold node in Hm. unfold sameat, nthb, nthg, st'. cbn [ps_basis ps_grid ps_cores]. rewrite ListAux.nth_upd_neq by lia. rewrite nthc_setc_neq by lia. auto. }
    assert (SO' : forall c, edge t r c -> sameat st st' c).
    { intros c Hc. apply SO; [apply Hc|]. intros ->. exact (rt_no_edge t r (proj1 T) _ Hc). }
    assert (EBs : cbases st' r = cbases st r) by (unfold cbases; apply map_ext_in; intros c Hc; apply SO', in_children; auto).
    assert (EGs : cgrids st' r = cgrids st r) by (unfold cgrids; apply map_ext_in; intros c Hc; apply SO', in_children; auto).
    split; [unfold lens, st'; cbn; rewrite setc_length, ListAux.upd_length; auto|]. split; [|split; [exact SO|]].
    - unfold rootdata. rewrite EBs, EGs. fold cs rs. unfold st' at 1 2 3. cbn [ps_cores]. rewrite nthc_setc_eq by lia. split; [exact HC1|].
      split; [unfold nthg, st'; cbn [ps_grid]; rewrite ListAux.nth_upd_eq by lia; exact B8|]. intros js is V LI ES.
      assert (Hi := sub2indF_lt _ _ V). specialize (HX (sub2indF rs js)). rewrite B1 in HX. fold rs in HX. specialize (HX Hi).
      rewrite (columns_row _ _ _ _ EQ) in HX by (rewrite B3, B1; exact Hi). assert (B6' := B6 js V). fold rs in B6'. rewrite B6' in HX. rewrite <- ES in HX. rewrite <- LI in HX.
      rewrite sel_index in HX by (rewrite LI, HD; exact (dims_root t r T)). rewrite <- HX. unfold mv. rewrite B2. fold cs. rewrite <- bsum_linear'.
      apply bsum_ext. intros ks Vk. rewrite HC2 by auto. rewrite <- B5 by auto. cbn. fold rs cs. ring.
    - intros HP. cbn [st' ps_n ps_pts]. rewrite app_length. assert (LQ := omap_length _ _ _ EQ). lia.
  Qed.
End Loops.
