(** when the principal components capture the sampled fibres exactly. *)
From Coq Require Import List Arith Lia Bool Reals Permutation Lra.
From Verif.Base Require Import ListAux CRing Index RealAux LinAlg.
From Verif.Model Require Import Sorting Numpy FullTensor Diagonal Canonical DimensionTree TreeBased Truncator HSVD Functions Measures Learning DensityL2 MagicIndices AltMin TensorPCA.
From Verif.Spec Require Import TensorSpec TreeSpec TreeTensorSpec TruncatorSpec LearningSpec FunctionSpec MagicSpec.
From Verif.Proofs Require AltMinP4.
From Verif.Proofs Require Import NumpyP FullTensorP TruncatorP2 TruncatorP5 TruncatorP6 HsvdP5 MagicP TensorPCAP1 TensorPCAP2 TensorPCAP3.
From Verif.Model Require Import Learning.
Import ListNotations.
Local Open Scope R_scope.

Section PcRange.
  Variable svd : nd R -> nd R * list R * nd R.
  Hypothesis SV : svd_contract svd.
  Lemma err2_self A : err2 A (get A) = 0.
  Proof. unfold err2. transitivity (bsum (shape A) (fun _ => 0)); [apply bsum_ext; intros; ring|]. apply AltMinP4.bsum_zero_R. auto. Qed.
  Lemma pc_range A m n x r : shape A = [m; n] -> (0 < m)%nat -> (0 < n)%nat -> principal_components svd A (Some x) = Some r ->
    (x <= 0 \/ (1 <= x /\ rank_at_most [m; n] [0%nat] (floor_nat x) (get A))) ->
    forall j, (j < n)%nat -> exists b : nat -> R, forall i, (i < m)%nat -> get A [i; j] = rsum (mcols (fst r)) (fun k => ment (fst r) i k * b k).
  Proof.
    intros HS Hm Hn H HX j Hj. unfold principal_components, ndim in H. rewrite HS in H. cbn [length Nat.eqb negb nth] in H.
    set (p := if Rlt_dec (INR m) x then INR m else x) in H. assert (Hm1 : 1 <= INR m) by (apply (le_INR 1); lia).
    fold (pc_trunc p) in H. destruct (trunc_svd svd (pc_trunc p) A None (Pw 2)) as [c|] eqn:EC; [|discriminate]. cbn [bind] in H. injection H as <-. cbn [fst].
    change (trunc_svd svd (pc_trunc p) A None (Pw 2)) with (trunc_svd svd (pc_trunc p) A (Some (tolerance (pc_trunc p))) (Pw 2)) in EC.
    set (mr := match max_rank (pc_trunc p) with [q] => q | _ => None end). assert (EM : max_rank (pc_trunc p) = [mr]) by (unfold mr, pc_trunc; destruct (Rlt_dec p 1); reflexivity).
    assert (ET : thresholding_parameter (pc_trunc p) = None \/ thresholding_parameter (pc_trunc p) = Some 0) by (left; unfold pc_trunc; destruct (Rlt_dec p 1); reflexivity).
    destruct (trunc_svd_kept svd SV (pc_trunc p) A m n HS Hm Hn mr (tolerance (pc_trunc p)) EM ET (Pw 2) ltac:(lra)) as (k0 & U & V & E1 & E2 & E3 & E4 & _ & _ & E5).
    rewrite EC in E1. injection E1 as ->. cbn [cp_space nth cp_core] in *. set (s := snd (fst (svd A))) in *. set (k := min_opt k0 mr) in *.
    assert (Ls : length s = Nat.min m n) by (apply (SV A m n HS)).
    assert (TL : tolerance (pc_trunc p) <= 0 \/ (0 < x /\ x < 1)).
    { unfold pc_trunc, p. destruct (Rlt_dec (INR m) x); destruct (Rlt_dec _ 1); cbn; lra. }
    assert (ERR : err2 A (cp_val (firstn k s) [U; V]) = 0).
    { assert (K0 : (length s <= k0)%nat) by (apply (proj1 E2); left; destruct TL as [|[? ?]]; [lra|]; destruct HX as [|[? _]]; lra).
      destruct (le_lt_dec (length s) k) as [Hk|Hk]; [rewrite E5, skipn_all2 by auto; reflexivity|].
      assert (HP : 1 <= x /\ rank_at_most [m; n] [0%nat] (floor_nat x) (get A) /\ k = floor_nat x).
      { destruct HX as [HX|[HX1 HX2]].
        - exfalso. unfold k, mr, pc_trunc, p in Hk. destruct (Rlt_dec (INR m) x); [lra|]. destruct (Rlt_dec x 1); [|lra]. cbn in Hk. lia.
        - split; [auto|]. split; [auto|]. unfold k, mr, pc_trunc, p in Hk |- *. destruct (Rlt_dec (INR m) x).
          + exfalso. destruct (Rlt_dec (INR m) 1); [lra|]. cbn [max_rank min_opt] in Hk. rewrite floor_INR in Hk. lia.
          + destruct (Rlt_dec x 1); [lra|]. cbn [max_rank min_opt] in *. lia. }
      destruct HP as (_ & HR & HK).
      destruct (trunc_svd_best svd SV (pc_trunc p) A m n HS Hm Hn mr (tolerance (pc_trunc p)) EM ET (Pw 2) ltac:(lra)) as (c & F1 & F2). rewrite EC in F1. injection F1 as <-. cbn [cp_core cp_space] in F2.
      assert (F3 := F2 (get A)). rewrite firstn_length, Nat.min_l in F3 by lia. rewrite HK in F3 at 1. specialize (F3 HR). rewrite err2_self in F3.
      apply Rle_antisym; auto. apply HsvdP5.err2_nonneg. }
    assert (SU : shape U = [m; length (firstn k s)]).
    { destruct E3 as [_ E3]. destruct (Forall_inv E3) as [m' SU]. rewrite SU. cbn in E4. rewrite SU in E4. cbn in E4. injection E4 as -> _. reflexivity. }
    exists (fun c => nth c (firstn k s) 0 * get V [j; c]). intros i Hi.
    assert (VV : valid (shape A) [i; j]) by (rewrite HS; repeat constructor; auto). rewrite <- (HsvdP5.err2_zero A _ ERR [i; j] VV).
    unfold cp_val, to_mx. cbn [mcols ment]. rewrite SU. cbn [nth]. apply rsum_ext_R'. intros c Hc. cbn [combine lprod fst snd]. cbn. ring.
  Qed.
End PcRange.

(** the rows chosen by magic_indices(F, option="left") in a matrix with at least as many rows as columns *)
Lemma eim_nonsingular (M : mx) Is J : length Is = mcols M -> sub_nonsingular (ment M) Is J -> distinct_below (mcols M) J -> nonsingular (MagicIndices.take_rows M Is).
Proof.
  intros HI [HL HN] [ND HB]. split; [exact HI|]. cbn [MagicIndices.take_rows mrows mcols ment]. intros x Hx.
  assert (P : Permutation J (seq 0 (mcols M))).
  { apply NoDup_Permutation_bis; auto; [rewrite seq_length; lia|]. intros a Ha. apply in_seq. specialize (HB a Ha). lia. }
  assert (Z : forall l, (l < length J)%nat -> x (nth l J 0%nat) = 0).
  { apply HN. intros k Hk. rewrite <- (Hx k Hk). unfold mv.
    set (h := fun j => ment M (nth k Is 0%nat) j * x j). change (rsum (length J) (fun l => h (nth l J 0%nat)) = rsum (mcols M) h).
    rewrite <- !LearningP.lsum_seq_rsum. transitivity (lsum J h); [|apply lsum_perm; auto].
    rewrite <- (map_seq_nth 0%nat J) at 2. rewrite lsum_map. reflexivity. }
  intros j Hj. assert (Hin : In j J) by (apply (Permutation_in j (Permutation_sym P)), in_seq; lia). destruct (In_nth J j 0%nat Hin) as (l & Hl & <-). apply Z; auto.
Qed.

Lemma sel_index' (D is : list nat) : is_perm (length is) D -> map (fun k => nth k (sel 0%nat is D) 0%nat) (map (fun x => index_of x D) (seq 0 (length is))) = is.
Proof.
  intros HP. rewrite map_map. apply (nth_ext' 0%nat); [rewrite map_length, seq_length; auto|]. intros k Hk. rewrite map_length, seq_length in Hk. rewrite nth_map_seq by auto.
  assert (HI : In k D) by (apply (Permutation_in k (Permutation_sym HP)), in_seq; lia). destruct (index_of_nth D k HI) as [E1 E2]. unfold sel. rewrite (map_nth_in _ _ _ 0%nat) by auto. rewrite E2. reflexivity.
Qed.
Section Cols.
  Variable svd : nd R -> nd R * list R * nd R.
  Hypothesis SV : svd_contract svd.
  Variable L : lapack.
  Hypothesis HL : lapack_ok L.
  Variables (factor : nat) (adaptive : bool) (f : list nat -> R) (shp : list nat).

  (** the point with the multi-index p in the dimensions alpha and z in the others *)
  Definition at_point (alpha p z : list nat) (is : list nat) : list nat := TensorSpec.put alpha p (TensorSpec.put (compl (length shp) alpha) z is).

  Lemma at_point_sel alpha p z is : length is = length shp -> NoDup alpha -> Forall (fun k => (k < length shp)%nat) alpha -> length p = length alpha -> length z = length (compl (length shp) alpha) ->
    map (fun k => nth k (p ++ z) 0%nat) (map (fun x => index_of x (alpha ++ compl (length shp) alpha)) (seq 0 (length shp))) = at_point alpha p z is.
  Proof.
    intros LI ND HA Lp Lz. set (d := length shp) in *. set (y := at_point alpha p z is).
    assert (Ly : length y = d) by (unfold y, at_point; rewrite !put_length; auto).
    assert (HC : Forall (fun k => (k < d)%nat) (compl d alpha)) by (apply Forall_forall; intros k Hk; unfold compl in Hk; apply filter_In in Hk; destruct Hk as [Hk _]; apply in_seq in Hk; lia).
    assert (NDC : NoDup (compl d alpha)) by (apply NoDup_filter, seq_NoDup).
    assert (ES : sel 0%nat y (alpha ++ compl d alpha) = p ++ z).
    { unfold sel. rewrite map_app. fold (sel 0%nat y alpha). fold (sel 0%nat y (compl d alpha)). f_equal.
      - apply OrthNodeP4.sel_put_in; auto. rewrite put_length. rewrite LI. auto.
      - unfold y, at_point. rewrite OrthNodeP4.sel_put_out.
        + apply OrthNodeP4.sel_put_in; auto. rewrite LI. auto.
        + intros k Hk. unfold compl in Hk. apply filter_In in Hk. destruct Hk as [_ Hk]. intros Hi. apply NumpyP.inb_spec in Hi. rewrite Hi in Hk. discriminate. }
    rewrite <- ES. rewrite <- Ly at 1. apply sel_index'. rewrite Ly. apply app_compl_perm; auto.
  Qed.
  (** what alpha_principal_components computes when the samples are drawn once *)
  Lemma alpha_cols alpha p B I rnd r : length I = mrows B -> (forall na N, length (rnd na N) = N) -> NoDup alpha -> Forall (fun k => (k < length shp)%nat) alpha ->
    Forall (fun p => length p = length alpha) I -> (forall N, Forall (fun z => length z = length (compl (length shp) alpha)) (rnd (compl (length shp) alpha) N)) -> lt1 p && adaptive = false ->
    alpha_pc svd L factor adaptive f shp alpha p B I rnd = Some r ->
    exists N X, pca_samples factor p B = Some N /\ nonsingular B /\ mrows X = mcols B /\ mcols X = N /\ (0 < mrows X)%nat /\ (0 < N)%nat /\
      (forall i j is, (i < mrows B)%nat -> (j < N)%nat -> length is = length shp ->
         rsum (mcols B) (fun k => ment B i k * ment X k j) = f (at_point alpha (nth i I []) (nth j (rnd (compl (length shp) alpha) N) []) is)) /\
      principal_components svd (nd_of X) p = Some (po_pc r, po_sv r).
  Proof.
    intros HI HR ND HA HIl HRl HAD H. unfold alpha_pc in H. destruct (pca_samples factor p B) as [N|]; [|discriminate]. cbn [bind] in H. rewrite HAD in H.
    set (d := length shp) in *. set (Z := rnd (compl d alpha) N) in *.
    destruct (g_array _) as [g|] eqn:EG; [|discriminate]. cbn [bind] in H. destruct (TensorPCA.columns _ g) as [q|] eqn:EQ; [|discriminate]. cbn [bind] in H.
    destruct (np_reshapeF _ _) as [A|] eqn:ER; [|discriminate]. cbn [bind] in H. destruct (solve_mat L B (to_mx A)) as [X|] eqn:ES; [|discriminate]. cbn [bind] in H.
    destruct (principal_components svd (nd_of X) p) as [[pc sv]|] eqn:EP; [|discriminate]. cbn [bind] in H. injection H as <-. cbn [po_pc po_sv po_n po_pts fst snd].
    destruct (solve_mat_some L HL _ _ _ ES) as (HN & HX & HC & HV). destruct (garray_some _ _ EG) as (HF & _ & Eg).
    assert (LZ : length Z = N) by apply HR. cbn [map] in Eg. rewrite LZ, HI in Eg.
    assert (Lg : length g = (mrows B * N)%nat). { rewrite Eg, map_length, boxF_length. unfold prodn. cbn [fold_right]. lia. }
    unfold np_reshapeF in ER. cbn [shape] in ER. destruct (Nat.eqb_spec (prodn [mrows B; N]) (prodn [length q])) as [E2|]; [|discriminate]. injection ER as <-. cbn [to_mx mcols shape nth] in HC.
    assert (LQ : length q = length g) by (eapply omap_length; exact EQ).
    assert (HI1 : (1 <= length I)%nat) by (inversion HF; destruct I; [congruence|cbn; lia]).
    assert (HN1 : (1 <= N)%nat). { assert (HF2 := Forall_inv (Forall_inv_tail HF)). cbn beta in HF2. rewrite <- LZ. destruct Z; [congruence|cbn; lia]. }
    assert (SQ := proj1 HN). unfold square in SQ. exists N, X. split; [auto|]. split; [auto|]. split; [auto|]. split; [auto|]. split; [lia|]. split; [lia|]. split; [|exact EP].
    intros i j is Hi Hj LI. rewrite HV by auto. cbn [to_mx ment get]. f_equal.
    assert (V : valid [mrows B; N] [i; j]) by (repeat constructor; auto).
    assert (Hlt := sub2indF_lt _ _ V). assert (EPN : prodn [mrows B; N] = (mrows B * N)%nat) by (unfold prodn; cbn [fold_right]; lia). rewrite EPN in Hlt.
    cbn [ind2subF nth]. change (i + mrows B * (j + N * 0))%nat with (sub2indF [mrows B; N] [i; j]). rewrite Nat.mod_small by (rewrite LQ, Lg; exact Hlt).
    rewrite (columns_row _ _ _ _ EQ) by (rewrite Lg; exact Hlt).
    assert (EP2 : nth (sub2indF [mrows B; N] [i; j]) g [] = nth i I [] ++ nth j Z []).
    { rewrite Eg. rewrite (map_nth_in _ _ _ []) by (rewrite boxF_length, EPN; exact Hlt). rewrite nth_boxF by (rewrite EPN; exact Hlt). rewrite ind2subF_sub2indF by exact V. cbn [grid_point]. rewrite app_nil_r. reflexivity. }
    rewrite EP2. apply at_point_sel; auto.
    - rewrite Forall_forall in HIl. apply HIl, nth_In. lia.
    - specialize (HRl N). rewrite Forall_forall in HRl. apply HRl, nth_In. fold Z. lia.
  Qed.
End Cols.
