(** principal components and alpha_principal_components. *)
From Coq Require Import List Arith Lia Bool Reals Permutation Lra ZArith.
From Verif.Base Require Import ListAux CRing Index RealAux LinAlg.
From Verif.Model Require Import Sorting Numpy FullTensor Diagonal Canonical DimensionTree TreeBased Truncator HSVD Functions Measures Learning DensityL2 MagicIndices AltMin TensorPCA.
From Verif.Spec Require Import TensorSpec TruncatorSpec LearningSpec FunctionSpec.
From Verif.Proofs Require Import NumpyP FullTensorP FullTensorP3 FunctionsP FunctionsP2 FunctionsP3 TensorizerP TensorPCAP1.
Import ListNotations.
Local Open Scope R_scope.

Lemma floor_pos x : 1 <= x -> (1 <= floor_nat x)%nat.
Proof.
  intros H. unfold floor_nat. assert (E := base_Int_part x). assert (Hz : IZR 0 < IZR (Int_part x)) by lra. apply lt_IZR in Hz. lia.
Qed.
Lemma floor_INR k : floor_nat (INR k) = k.
Proof.
  unfold floor_nat. assert (E : Int_part (INR k) = Z.of_nat k).
  { unfold Int_part. assert (H : (up (INR k)) = (Z.of_nat k + 1)%Z); [|lia]. symmetry. apply tech_up; rewrite plus_IZR, <- INR_IZR_INZ; simpl; lra. }
  rewrite E. apply Nat2Z.id.
Qed.
Lemma ceil_INR k : ceil_nat (INR k) = k.
Proof.
  unfold ceil_nat. assert (E : Int_part (- INR k) = (- Z.of_nat k)%Z).
  { unfold Int_part. assert (H : (up (- INR k)) = (- Z.of_nat k + 1)%Z); [|lia]. symmetry. apply tech_up; rewrite plus_IZR, opp_IZR, <- INR_IZR_INZ; simpl; lra. }
  rewrite E. rewrite Z.opp_involutive. apply Nat2Z.id.
Qed.

Section PC.
  Variable svd : nd R -> nd R * list R * nd R.
  Hypothesis SV : svd_contract svd.

  Definition pc_par (m : nat) (p : option R) : R := match p with Some x => if Rlt_dec (INR m) x then INR m else x | None => INR m end.
  Definition pc_trunc (p : R) : truncator := if Rlt_dec p 1 then Trunc p [None] Hard None else Trunc 0 [Some (floor_nat p)] Hard None.
  Lemma pc_some A m n p r : shape A = [m; n] -> principal_components svd A p = Some r ->
    exists k, trunc_rank (pc_trunc (pc_par m p)) (Pw 2) (tolerance (pc_trunc (pc_par m p))) (Nat.min m n) (snd (fst (svd A))) = Some (k, snd (fst (svd A))) /\
      (1 <= m -> 1 <= k)%nat /\ mrows (fst r) = m /\ mcols (fst r) = Nat.min k (Nat.min m n) /\
      (forall i j, ment (fst r) i j = get (fst (fst (svd A))) [i; j]) /\ snd r = firstn k (snd (fst (svd A))).
  Proof.
    intros HS H. unfold principal_components, ndim in H. rewrite HS in H. cbn [length Nat.eqb negb nth] in H.
    fold (pc_par m p) in H. fold (pc_trunc (pc_par m p)) in H. destruct (SV A m n HS) as (SU & _ & _). unfold trunc_svd in H. destruct (svd A) as [[U s] V] eqn:ES. cbn [fst snd] in *.
    rewrite HS in H. cbn [nth] in H. set (t := pc_trunc (pc_par m p)) in *.
    assert (HT : exists k, trunc_rank t (Pw 2) (tolerance t) (Nat.min m n) s = Some (k, s) /\ ((1 <= m)%nat -> (1 <= k)%nat)).
    { unfold trunc_rank, t, pc_trunc.
      assert (TR : forall tol, (1 <= tol_rank (Pw 2) tol (Nat.min m n) s)%nat) by (intros tol; unfold tol_rank; destruct (first_true _); lia).
      destruct (Rlt_dec (pc_par m p) 1) as [Hp|Hp]; cbn [max_rank thresholding_parameter tolerance min_opt].
      - eexists. split; [reflexivity|]. intros _. apply TR.
      - eexists. split; [reflexivity|]. intros Hm. specialize (TR 0). assert (F := floor_pos (pc_par m p)). lra || (assert (1 <= pc_par m p) by lra; specialize (F H0); lia). }
    destruct HT as (k & HT & Hk). rewrite HT in H. cbn [bind fst snd cp_space nth cp_core] in H. injection H as <-. exists k. cbn [fst snd].
    split; [auto|]. split; [auto|]. unfold to_mx, Truncator.take_cols. cbn [mrows mcols ment shape nth get]. rewrite SU. cbn [nth]. auto.
  Qed.
  (** the columns are orthonormal *)
  Lemma pc_orth A m n p r : shape A = [m; n] -> principal_components svd A p = Some r ->
    forall a b, (a < mcols (fst r))%nat -> (b < mcols (fst r))%nat -> rsum m (fun i => ment (fst r) i a * ment (fst r) i b) = if (a =? b)%nat then 1 else 0.
  Proof.
    intros HS H a b Ha Hb. destruct (pc_some A m n p r HS H) as (k & _ & _ & _ & E & G & _). rewrite E in Ha, Hb.
    destruct (SV A m n HS) as (_ & _ & _ & _ & _ & O & _). rewrite <- (O a b) by lia. apply rsum_ext_R'. intros i Hi. rewrite !G. reflexivity.
  Qed.
  Lemma pc_ok A m n p : shape A = [m; n] -> exists r, principal_components svd A p = Some r.
  Proof.
    intros HS. unfold principal_components, ndim. rewrite HS. cbn [length Nat.eqb negb nth]. fold (pc_par m p). fold (pc_trunc (pc_par m p)).
    unfold trunc_svd. destruct (svd A) as [[U s] V]. unfold trunc_rank, pc_trunc. destruct (Rlt_dec (pc_par m p) 1); cbn; eauto.
  Qed.
End PC.

Section APC.
  Variable svd : nd R -> nd R * list R * nd R.
  Hypothesis SV : svd_contract svd.
  Variable L : lapack.
  Hypothesis HL : lapack_ok L.
  Variables (factor : nat) (adaptive : bool) (f : list nat -> R) (shp : list nat).

  Lemma solve_some M b x : l_solve L M b = Some x -> nonsingular M /\ forall i, (i < mrows M)%nat -> mv (mcols M) (ment M) x i = b i.
  Proof. intros H. assert (E := proj1 (proj2 HL) M b). unfold solve_ok in E. rewrite H in E. exact E. Qed.
  Lemma solve_ns M b : nonsingular M -> exists x, l_solve L M b = Some x.
  Proof. intros H. assert (E := proj1 (proj2 HL) M b). unfold solve_ok in E. destruct (l_solve L M b); [eauto|contradiction]. Qed.
  Lemma solve_mat_some M B X : solve_mat L M B = Some X -> nonsingular M /\ mrows X = mcols M /\ mcols X = mcols B /\
    forall i j, (i < mrows M)%nat -> rsum (mcols M) (fun k => ment M i k * ment X k j) = ment B i j.
  Proof.
    unfold solve_mat. destruct (l_solve L M (fun r => ment B r 0%nat)) as [x0|] eqn:E0; [|discriminate]. intros H. injection H as <-. destruct (solve_some _ _ _ E0) as [HN _].
    split; [auto|]. split; [reflexivity|]. split; [reflexivity|]. intros i j Hi. cbn [ment].
    destruct (solve_ns M (fun r => ment B r j) HN) as [x Hx]. rewrite Hx. apply (proj2 (solve_some _ _ _ Hx)); auto.
  Qed.

  Lemma omap_length {A B} (g : A -> option B) : forall l r, omap g l = Some r -> length r = length l.
  Proof. induction l as [|a l IH]; intros r H; cbn in H; [injection H as <-; reflexivity|]. destruct (g a); [|discriminate]. destruct (omap g l); [|discriminate]. injection H as <-. cbn. rewrite (IH l0); auto. Qed.
  Lemma garray_some {A} (G : list (list (list A))) g : g_array G = Some g -> Forall (fun x => x <> []) G /\ G <> [] /\ g = map (grid_point G) (boxF (map (@length _) G)).
  Proof.
    intros H. assert (HG : Forall (fun x => x <> []) G).
    { apply Forall_forall. intros x Hx ->. rewrite g_array_empty in H by auto. discriminate. }
    assert (HN : G <> []). { intros ->. unfold g_array, g_multi_indices in H. cbn in H. discriminate. }
    split; [auto|]. split; [auto|]. rewrite g_array_ok in H by auto. injection H as <-. reflexivity.
  Qed.

  Lemma adapt_ok ind p B I : length I = mrows B -> forall todo k A pts lr r,
    mrows A = length I -> length pts = (length I * k)%nat ->
    match lr with None => True | Some (pc, sv, g) => nonsingular B /\ mrows pc = mrows B /\ (1 <= mcols pc <= mrows B)%nat end ->
    adapt_loop svd L factor f ind p B I todo k A pts lr = Some r ->
    nonsingular B /\ mrows (po_pc r) = mrows B /\ (1 <= mcols (po_pc r) <= mrows B)%nat /\ po_n r = length (po_pts r).
  Proof.
    intros HI. induction todo as [|z todo IH]; intros k A pts lr r HA HP HLR H.
    - cbn in H. destruct lr as [[[pc sv] g]|]; [|discriminate]. injection H as <-. cbn. destruct HLR as (H1 & H2 & H3). auto.
    - cbn [adapt_loop] in H. destruct (g_array [I; [z]]) as [g|] eqn:EG; [|discriminate]. cbn [bind] in H. destruct (TensorPCA.columns ind g) as [q|] eqn:EQ; [|discriminate]. cbn [bind] in H.
      destruct (Nat.eqb_spec (length q) (mrows B)) as [EL|]; [|discriminate]. cbn [negb] in H. destruct (l_solve L B _) as [x|] eqn:EX; [|discriminate]. cbn [bind] in H.
      destruct (solve_some _ _ _ EX) as [HN _]. set (A' := MX _ _ _) in H. destruct (principal_components svd (nd_of A') p) as [[pc sv]|] eqn:EP; [|discriminate]. cbn [bind fst snd] in H.
      destruct (pc_some svd SV (nd_of A') (mrows A) (S (mcols A)) p _ eq_refl EP) as (j & _ & Hj & H1 & H2 & _ & _). cbn [fst snd] in *.
      destruct (garray_some _ _ EG) as (HF & _ & _). assert (HI1 : (1 <= length I)%nat) by (inversion HF; destruct I; [congruence|cbn; lia]).
      assert (HPC : nonsingular B /\ mrows pc = mrows B /\ (1 <= mcols pc <= mrows B)%nat).
      { split; [auto|]. split; [lia|]. rewrite H2. assert (1 <= j)%nat by (apply Hj; lia). lia. }
      destruct sv as [|s0 s]; [discriminate|]. destruct (_ || _) in H.
      + injection H as <-. cbn [po_pc po_n po_pts]. destruct HPC as (P1 & P2 & P3). split; [auto|]. split; [auto|]. split; [auto|]. rewrite app_length, HP, EL. lia.
      + eapply IH in H; [exact H| | |].
        * exact HA.
        * rewrite app_length, HP, EL. lia.
        * exact HPC.
  Qed.
  Lemma alpha_pc_ok alpha p B I rnd r : length I = mrows B -> (forall na N, length (rnd na N) = N) -> alpha_pc svd L factor adaptive f shp alpha p B I rnd = Some r ->
    nonsingular B /\ mrows (po_pc r) = mrows B /\ (1 <= mcols (po_pc r) <= mrows B)%nat /\ po_n r = length (po_pts r).
  Proof.
    intros HI HR H. unfold alpha_pc in H. destruct (pca_samples factor p B) as [N|]; [|discriminate]. cbn [bind] in H. destruct (lt1 p && adaptive).
    - eapply adapt_ok in H; [exact H|auto|reflexivity|cbn; lia|exact Logic.I].
    - destruct (g_array _) as [g|] eqn:EG; [|discriminate]. cbn [bind] in H. destruct (TensorPCA.columns _ g) as [q|] eqn:EQ; [|discriminate]. cbn [bind] in H.
      destruct (np_reshapeF _ _) as [A|] eqn:ER; [|discriminate]. cbn [bind] in H. destruct (solve_mat L B (to_mx A)) as [X|] eqn:ES; [|discriminate]. cbn [bind] in H.
      destruct (principal_components svd (nd_of X) p) as [[pc sv]|] eqn:EP; [|discriminate]. cbn [bind] in H. injection H as <-. cbn [po_pc po_n po_pts fst snd].
      destruct (solve_mat_some _ _ _ ES) as (HN & HX & HC & _). destruct (pc_some svd SV (nd_of X) (mrows X) (mcols X) p _ eq_refl EP) as (j & _ & Hj & H1 & H2 & _ & _). cbn [fst snd] in *.
      destruct (garray_some _ _ EG) as (HF & _ & Eg).
      assert (Lg : length g = (length I * N)%nat). { rewrite Eg, map_length, boxF_length. cbn [map prodn]. unfold prodn. cbn [fold_right]. rewrite HR. lia. }
      assert (LQ : length q = length g) by (eapply omap_length; exact EQ).
      unfold np_reshapeF in ER. cbn [shape] in ER. destruct (Nat.eqb_spec (prodn [mrows B; N]) (prodn [length q])) as [E2|]; [|discriminate]. injection ER as <-. cbn [to_mx mcols shape nth] in HC.
      assert (HI1 : (1 <= length I)%nat) by (inversion HF; destruct I; [congruence|cbn; lia]).
      assert (HN1 : (1 <= N)%nat). { assert (HF2 := Forall_inv (Forall_inv_tail HF)). cbn beta in HF2. specialize (HR (compl (length shp) alpha) N). destruct (rnd _ N); [congruence|cbn in HR; lia]. }
      destruct HN as [SQ HN]. unfold square in SQ. split; [split; auto|]. split; [lia|]. split.
      + rewrite H2. assert (1 <= j)%nat by (apply Hj; lia). lia.
      + lia.
  Qed.
End APC.
