(** Property C69: inner products, norms, variances and products of functional tensors (functions/functional_tensor.py) whose
    tensor is a FullTensor.  Vocabulary: Spec/FunctionalSpec.v ([expansion bs T]: the function with the coefficients T in
    the product basis of bs; [tmean G W]: expectation for the product of the discrete measures with points G and weights
    W; [mean_ok], [gram_ok]: the bases know their means and their Gram matrices for these measures). *)
From Coq Require Import List Arith ZArith Lia Bool Reals Lra.
From Verif.Base Require Import ListAux CRing Index RealAux.
From Verif.Model Require Import MultiIndices Numpy FullTensor FunctionalBases FuncStats.
From Verif.Spec Require Import TensorSpec FunctionSpec FunctionalSpec.
From Verif.Proofs Require FullTensorP2 FunctionalP2 FunctionalP5 FuncStatsP1.
Import ListNotations.
Local Open Scope cr_scope.

(** dot_product_expectation, norm and variance raise for all functional tensors: they call the method gram_matrix of
    FunctionalBases, which does not exist *)
Theorem c69_dot_expectation_refuted : forall {R} {CR : CRing R} {A V} same (T1 T2 : nd R) (bs : list (fbasis R A V)),
  fun_dot_expectation same T1 T2 bs = None.
Proof. intros. unfold fun_dot_expectation, fun_dot_of. destruct (ndim T1 =? ndim T2)%nat; [|reflexivity]. destruct same; reflexivity. Qed.
Print Assumptions c69_dot_expectation_refuted.
Theorem c69_norm_refuted : forall {R} {CR : CRing R} {A V} (T : nd R) (bs : list (fbasis R A V)), fun_norm2 T bs = None.
Proof. intros. unfold fun_norm2, fun_norm2_of. exact (c69_dot_expectation_refuted true T T bs). Qed.
Print Assumptions c69_norm_refuted.
Theorem c69_variance_refuted : forall {R} {CR : CRing R} {A V} (T : nd R) (bs : list (fbasis R A V)), fun_variance T bs = None.
Proof.
  intros. unfold fun_variance, fun_variance_of. destruct (fun_mean_full T bs MNone) as [m|]; [|reflexivity]. cbn [bind]. destruct (shape m); [|reflexivity].
  change (fun_dot_of fbs_gram_matrix true T T bs) with (fun_dot_expectation true T T bs). rewrite c69_dot_expectation_refuted. reflexivity.
Qed.
Print Assumptions c69_variance_refuted.
(** with the existing method gram_matrices in the place of the missing one, the rest of the code is right: expectation of
    the product, squared norm and variance *)
Theorem c69_dot_expectation_partial : forall {R} {CR : CRing R} {A V} (T1 T2 : nd R) (bs : list (fbasis R A V)) G W, shape T1 = cards bs -> shape T2 = cards bs ->
  each3 gram_ok bs G W ->
  fun_dot_of (Some fbs_gram_matrices) true T1 T2 bs = Some (tmean G W (fun p => expansion bs (get T1) p * expansion bs (get T2) p)).
Proof. intros. apply FuncStatsP1.fun_dot_ok; auto. Qed.
Print Assumptions c69_dot_expectation_partial.
Theorem c69_norm_partial : forall {R} {CR : CRing R} {A V} (T : nd R) (bs : list (fbasis R A V)) G W, shape T = cards bs -> each3 gram_ok bs G W ->
  fun_norm2_of (Some fbs_gram_matrices) T bs = Some (tmean G W (fun p => expansion bs (get T) p * expansion bs (get T) p)).
Proof. intros. apply FuncStatsP1.fun_dot_ok; auto. Qed.
Print Assumptions c69_norm_partial.
Theorem c69_variance_partial : forall {R} {CR : CRing R} {A V} (T : nd R) (bs : list (fbasis R A V)) G W, shape T = cards bs ->
  each3 mean_ok bs G W -> each3 gram_ok bs G W -> tmean G W (fun _ => r1) = r1 ->
  fun_variance_of (Some fbs_gram_matrices) T bs =
    Some (let m := tmean G W (expansion bs (get T)) in tmean G W (fun p => (expansion bs (get T) p - m) * (expansion bs (get T) p - m))).
Proof. intros. apply FuncStatsP1.fun_variance_ok; auto. Qed.
Print Assumptions c69_variance_partial.

(** f * g for functions of one variable in the polynomials of degree at most 1 (a family with a constant polynomial of
    degree 0 and a polynomial c x + e of degree 1, as all the families of orthonormal polynomials): f = g = the polynomial
    of degree 1.  Whatever the matrix B computed by the projection, the result is not the product: the degrees kept by
    kron are 0, ..., m - 1 where m is the sum of the largest degrees, the product has degree m *)
Theorem c69_product_refuted : forall (pol : nat -> list R -> R) a c e (B : nd R) t (bs : list (fbasis R R unit)), c <> 0%R ->
  (forall x, pol 0%nat [x] = a) -> (forall x, pol 1%nat [x] = (c * x + e)%R) -> shape B = [2%nat; 4%nat] ->
  let T := ND [2%nat] (fun ix => if Nat.eqb (nth 0 ix 0%nat) 1 then r1 else r0) in
  (forall x, expansion [pol_basis (V := unit) pol [0%nat; 1%nat]] (get T) [x] = pol 1%nat [x]) /\
  (fun_mul T T [[0%nat; 1%nat]] [[0%nat; 1%nat]] pol [B] = Some (t, bs) ->
   ~ (forall x : R, returns (fun_eval_full t bs [[x]]) [1%nat] (fun _ => pol 1%nat [x] * pol 1%nat [x]))).
Proof.
  intros pol a c e B t bs Hc H0 H1 HB T. split.
  - intros x. unfold expansion, T. cbn. lra.
  - unfold fun_mul. destruct (FullTensorP2.ft_kron_spec T T eq_refl) as (t' & Et & St & _). rewrite Et. cbn [bind combine map fst snd]. intros E. injection E as <- <-. intros H.
    assert (Hx : forall x : R, expansion [pol_kron (V := unit) pol [0%nat; 1%nat] [0%nat; 1%nat] B] (get t') [x] = ((c * x + e) * (c * x + e))%R).
    { intros x. destruct (H x) as (Y & EY & SY & GY).
      destruct (FunctionalP2.fun_eval_full_ok [pol_kron (V := unit) pol [0%nat; 1%nat] [0%nat; 1%nat] B]) with (x := [[x]]) (T := t') as (Y' & EY' & SY' & GY'); [discriminate| | |].
      - constructor; [reflexivity|constructor].
      - rewrite St. cbn. rewrite HB. reflexivity.
      - rewrite EY in EY'. injection EY' as <-. specialize (GY [0%nat]). specialize (GY' [0%nat]). cbn [nth] in GY'. rewrite <- GY' by (repeat constructor).
        rewrite GY by (repeat constructor). rewrite H1. reflexivity. }
    pose proof (Hx 0%R) as E0. pose proof (Hx 1%R) as E1. pose proof (Hx 2%R) as E2.
    unfold expansion, pol_kron, sub_basis in E0, E1, E2. cbn in E0, E1, E2. rewrite HB in E0, E1, E2. cbn in E0, E1, E2. rewrite !H0, !H1 in E0, E1, E2.
    assert (Hcc : (c * c = 0)%R) by nra. apply Rmult_integral in Hcc. tauto.
Qed.
Print Assumptions c69_product_refuted.

(** examples: the hypotheses are met and the values computed *)
Definition hat : fbasis Z Z unit := FB 1 2 (fun p k => if Nat.eqb k 0 then (1 - nth 0 p 0)%Z else nth 0 p 0%Z) (fun _ => [1; 1]%Z) (np_eye 2) true.
Definition one3 : fbasis Z Z unit := FB 1 1 (fun _ _ => 1%Z) (fun _ => [1%Z]) (np_eye 1) true.
Definition exG := [[[0]; [1]]; [[5]; [7]; [5]]]%Z.
Definition exW := [[1; 1]; [1; 1; -1]]%Z.
Definition ex2 (a b : Z) : nd Z := ND [2%nat; 1%nat] (fun ix => if Nat.eqb (nth 0 ix 0%nat) 0 then a else b).
Example c69_ex_hyps : each3 mean_ok [hat; one3] exG exW /\ each3 gram_ok [hat; one3] exG exW /\ shape (ex2 3 4) = cards [hat; one3].
Proof.
  split; [|split; [|reflexivity]].
  - split; [|split; [|exact Logic.I]].
    + split; [reflexivity|]. split; [repeat constructor|]. split; [reflexivity|]. intros [|[|k]] Hk; try reflexivity. cbn in Hk. lia.
    + split; [reflexivity|]. split; [repeat constructor|]. split; [reflexivity|]. intros [|k] Hk; try reflexivity. cbn in Hk. lia.
  - split; [|split; [|exact Logic.I]].
    + split; [reflexivity|]. split; [repeat constructor|]. split; [reflexivity|]. split.
      * intros [|[|k]] [|[|l]] Hk Hl; try reflexivity; cbn in Hk, Hl; lia.
      * intros _ [|[|k]] [|[|l]] Hk Hl; try reflexivity; cbn in Hk, Hl; lia.
    + split; [reflexivity|]. split; [repeat constructor|]. split; [reflexivity|]. split.
      * intros [|k] [|l] Hk Hl; try reflexivity; cbn in Hk, Hl; lia.
      * intros _ [|k] [|l] Hk Hl; try reflexivity; cbn in Hk, Hl; lia.
Qed.
Example c69_ex_dot : fun_dot_of (Some fbs_gram_matrices) true (ex2 3 4) (ex2 10 1) [hat; one3] = Some 34%Z.
Proof. vm_compute. reflexivity. Qed.
(** a measure with total mass 1 *)
Definition point : fbasis Z Z unit := FB 1 2 (fun p k => if Nat.eqb k 0 then 1%Z else nth 0 p 0%Z) (fun _ => [1; 3]%Z) (ND [2%nat; 2%nat] (fun ix => match ix with [0%nat; 0%nat] => 1 | [1%nat; 1%nat] => 5 | _ => 3 end)%Z) false.
Example c69_ex_variance : each3 mean_ok [point] [[[1]; [2]; [0]]]%Z [[1; 1; -1]]%Z /\ tmean [[[1]; [2]; [0]]]%Z [[1; 1; -1]]%Z (fun _ => r1) = 1%Z.
Proof.
  split; [|reflexivity]. split; [|exact Logic.I]. split; [reflexivity|]. split; [repeat constructor|]. split; [reflexivity|]. intros [|[|k]] Hk; try reflexivity. cbn in Hk. lia.
Qed.
Example c69_ex_variance_gram : each3 gram_ok [point] [[[1]; [2]; [0]]]%Z [[1; 1; -1]]%Z.
Proof.
  split; [|exact Logic.I]. split; [reflexivity|]. split; [repeat constructor|]. split; [reflexivity|]. split.
  - intros [|[|k]] [|[|l]] Hk Hl; try reflexivity; cbn in Hk, Hl; lia.
  - discriminate.
Qed.
