(** Property C68: algebra and statistics of FunctionalBasisArray (approximation/bases/functional_basis_array.py).
    Vocabulary: Spec/ArraySpec.v ([array_fun b d j]: the j-th component of the function with coefficients d in the basis
    b; [evaluates b q d f]: eval returns the values of f_0, ..., f_(q-1)) and Spec/FunctionalSpec.v ([dmean]: expectation
    for a discrete measure; [mean_ok], [gram_ok]: the basis knows its means and its Gram matrix for this measure). *)
From Coq Require Import List Arith ZArith Lia Bool.
From Verif.Base Require Import ListAux CRing Index.
From Verif.Model Require Import MultiIndices Numpy FullTensor FunctionalBases BasisArray.
From Verif.Spec Require Import TensorSpec FunctionSpec FunctionalSpec ArraySpec.
From Verif.Proofs Require FunctionalP4 BasisArrayP1.
Import ListNotations.
Local Open Scope cr_scope.

(** eval, any number of components *)
Theorem c68_eval : forall {R} {CR : CRing R} {A V} (b : fbasis R A V) q d, shape d = [fb_card b; q] -> evaluates b q d (array_fun b d).
Proof. intros. apply BasisArrayP1.eval_array; auto. Qed.
Print Assumptions c68_eval.
(** f + g, f - g, - f and f * c, one component *)
Theorem c68_add_partial : forall {R} {CR : CRing R} {A V} (b : fbasis R A V) f g, shape f = [fb_card b; 1%nat] -> shape g = [fb_card b; 1%nat] ->
  exists h, fba_add b [1%nat] f g = Some h /\ shape h = [fb_card b; 1%nat] /\ evaluates b 1 h (fun _ p => array_fun b f 0 p + array_fun b g 0 p).
Proof. intros. apply BasisArrayP1.add_ok; auto. Qed.
Print Assumptions c68_add_partial.
Theorem c68_sub_partial : forall {R} {CR : CRing R} {A V} (b : fbasis R A V) f g, shape f = [fb_card b; 1%nat] -> shape g = [fb_card b; 1%nat] ->
  exists h, fba_sub b [1%nat] f g = Some h /\ shape h = [fb_card b; 1%nat] /\ evaluates b 1 h (fun _ p => array_fun b f 0 p - array_fun b g 0 p).
Proof. intros. apply BasisArrayP1.sub_ok; auto. Qed.
Print Assumptions c68_sub_partial.
Theorem c68_neg_partial : forall {R} {CR : CRing R} {A V} (b : fbasis R A V) f, shape f = [fb_card b; 1%nat] ->
  exists h, fba_neg b [1%nat] f = Some h /\ shape h = [fb_card b; 1%nat] /\ evaluates b 1 h (fun _ p => - array_fun b f 0 p).
Proof. intros. apply BasisArrayP1.neg_ok; auto. Qed.
Print Assumptions c68_neg_partial.
Theorem c68_scale_partial : forall {R} {CR : CRing R} {A V} (b : fbasis R A V) f c, shape f = [fb_card b; 1%nat] ->
  exists h, fba_scale b [1%nat] f c = Some h /\ shape h = [fb_card b; 1%nat] /\ evaluates b 1 h (fun _ p => c * array_fun b f 0 p).
Proof. intros. apply BasisArrayP1.scale_ok; auto. Qed.
Print Assumptions c68_scale_partial.
(** matmul by a column: the linear combination of the components *)
Theorem c68_matmul_partial : forall {R} {CR : CRing R} {A V} (b : fbasis R A V) q f v, shape f = [fb_card b; q] -> shape v = [q; 1%nat] ->
  exists h, fba_matmul b f v = Some ([1%nat], h) /\ shape h = [fb_card b; 1%nat] /\ evaluates b 1 h (fun _ p => rsum q (fun j => array_fun b f j p * get v [j; 0%nat])).
Proof. intros. apply BasisArrayP1.matmul_array; auto. Qed.
Print Assumptions c68_matmul_partial.
(** mean, expectation of products and variance of every component, any number of components *)
Theorem c68_mean : forall {R} {CR : CRing R} {A V} (b : fbasis R A V) q d pts w, mean_ok b pts w -> shape d = [fb_card b; q] ->
  returns (fba_mean b [q] d None) [1%nat; q] (fun ix => dmean pts w (array_fun b d (nth 1 ix 0%nat))).
Proof. intros. apply BasisArrayP1.mean_array; auto. Qed.
Print Assumptions c68_mean.
Theorem c68_dot_product_expectation : forall {R} {CR : CRing R} {A V} (b : fbasis R A V) q f g pts w, gram_ok b pts w -> fb_orth b = true ->
  shape f = [fb_card b; q] -> shape g = [fb_card b; q] ->
  returns (fba_dot_expectation true b f g) [1%nat; q] (fun ix => dmean pts w (fun p => array_fun b f (nth 1 ix 0%nat) p * array_fun b g (nth 1 ix 0%nat) p)).
Proof. intros. apply BasisArrayP1.dot_expectation_ok; auto. Qed.
Print Assumptions c68_dot_product_expectation.
Theorem c68_variance : forall {R} {CR : CRing R} {A V} (b : fbasis R A V) q d pts w, mean_ok b pts w -> gram_ok b pts w -> fb_orth b = true ->
  rsum (length pts) (fun k => nth k w r0) = r1 -> shape d = [fb_card b; q] ->
  returns (fba_variance true b [q] d None) [1%nat; q]
    (fun ix => let f := array_fun b d (nth 1 ix 0%nat) in let m := dmean pts w f in dmean pts w (fun p => (f p - m) * (f p - m))).
Proof. intros. apply BasisArrayP1.variance_ok; auto. Qed.
Print Assumptions c68_variance.
(** without an orthonormal basis (or with two different bases) dot_product_expectation and variance raise *)
Theorem c68_not_orthonormal : forall {R} {CR : CRing R} {A V} (b : fbasis R A V) same s f g m, same = false \/ fb_orth b = false ->
  fba_dot_expectation same b f g = None /\ fba_variance same b s f m = None.
Proof.
  intros R CR A V b same s f g m H. assert (E : same && fb_orth b = false) by (destruct H as [-> | ->]; [reflexivity|apply andb_false_r]).
  unfold fba_variance, fba_dot_expectation. rewrite E. split; [reflexivity|]. destruct (fba_mean b s f m); reflexivity.
Qed.
Print Assumptions c68_not_orthonormal.
(** dot: the canonical inner product of the coefficients *)
Theorem c68_dot : forall {R} {CR : CRing R} (q n : nat) (f g : nd R), shape f = [n; q] -> shape g = [n; q] ->
  returns (fba_dot f g None) [1%nat; 1%nat] (fun _ => rsum n (fun k => rsum q (fun j => get f [k; j] * get g [k; j]))).
Proof.
  intros R CR q n f g Hf Hg.
  exact (BasisArrayP1.dot_all (FB 1 n (fun (_ : list unit) _ => r0) (fun _ : option unit => []) (scalar r0) false) q f g Hf Hg).
Qed.
Print Assumptions c68_dot.

(** ** refutations, over the integers, with the functions 1 and x *)
Definition line : fbasis Z Z unit := FB 1 2 (fun p k => if Nat.eqb k 0 then 1%Z else nth 0 p 0%Z) (fun _ => [1; 0]%Z) (ND [2%nat; 2%nat] (fun ix => if list_eq_dec Nat.eq_dec ix [0%nat; 0%nat] then 1%Z else 0%Z)) false.
Definition mat (q : nat) (l : list Z) : nd Z := ND [2%nat; q] (fun ix => nth (nth 0 ix 0 * q + nth 1 ix 0)%nat l 0%Z).
Lemma evaluates_at {A V} (b : fbasis Z A V) q h f p j : evaluates b q h f -> (j < q)%nat -> option_map (fun T => get T [0%nat; j]) (fba_eval b [q] h [p]) = Some (f j p).
Proof.
  intros H Hj. destruct (H [p]) as (T & E & S1 & G1). rewrite E. cbn [option_map]. rewrite G1; auto. apply FunctionalP4.v2; auto.
Qed.
(** several components: adding the function 0 exchanges coefficients, because the constructor that is called on the sum
    flattens the array in the order F and fills it again in the order C *)
Theorem c68_vector_add_refuted : exists (b : fbasis Z Z unit) f g h, shape f = [fb_card b; 2%nat] /\ shape g = [fb_card b; 2%nat] /\
  (forall j p, array_fun b g j p = 0%Z) /\ fba_add b [2%nat] f g = Some h /\ ~ evaluates b 2 h (fun j p => array_fun b f j p + array_fun b g j p).
Proof.
  exists line, (mat 2 [1; 2; 3; 4]%Z), (ND [2%nat; 2%nat] (fun _ => 0%Z)). eexists. split; [reflexivity|]. split; [reflexivity|]. split.
  - intros j p. unfold array_fun. cbn [fb_card line]. cbn [rsum get]. unfold radd, rmul, r0. cbn. destruct (nth 0 p 0%Z); reflexivity.
  - split; [reflexivity|]. intros H. apply (fun H => evaluates_at _ _ _ _ [1%Z] 0 H (Nat.lt_0_succ 1)) in H. vm_compute in H. discriminate H.
Qed.
Print Assumptions c68_vector_add_refuted.
(** f * g multiplies the coefficients, not the functions *)
Theorem c68_product_refuted : exists (b : fbasis Z Z unit) f g h, shape f = [fb_card b; 1%nat] /\ shape g = [fb_card b; 1%nat] /\
  fba_mul b [1%nat] f g = Some h /\ ~ evaluates b 1 h (fun _ p => array_fun b f 0 p * array_fun b g 0 p).
Proof.
  exists line, (mat 1 [0; 1]%Z), (mat 1 [0; 1]%Z). eexists. split; [reflexivity|]. split; [reflexivity|]. split; [reflexivity|].
  intros H. apply (fun H => evaluates_at _ _ _ _ [2%Z] 0 H (Nat.lt_0_succ 0)) in H. vm_compute in H. discriminate H.
Qed.
Print Assumptions c68_product_refuted.
(** conditional_expectation: f in the span of the product functions phi_i(x) phi_j(y) with indices I and coefficients d;
    the function of x that is returned is not the expectation over y of f(x, y), because the matrix of the conditional
    expectations of the basis functions is also flattened in the order F and filled in the order C *)
Theorem c68_conditional_expectation_refuted : exists (bx b : fbasis Z Z unit) pts w I d J d' x,
  mean_ok b pts w /\ shape d = [length (mi_rows I); 1%nat] /\ fba_cond [bx; b] I d [0%nat] = Some (J, d') /\
  rsum (length (mi_rows J)) (fun k => get d' [k; 0%nat] * prod_fun [bx] (map Z.to_nat (nth k (mi_rows J) [])) x) <>
  dmean pts w (fun y => rsum (length (mi_rows I)) (fun k => get d [k; 0%nat] * prod_fun [bx; b] (map Z.to_nat (nth k (mi_rows I) [])) (x ++ y))).
Proof.
  exists line, line, [[0%Z]], [1%Z], (MI 2 [[0; 0]; [1; 0]; [0; 1]; [1; 1]]%Z), (ND [4%nat; 1%nat] (fun ix => if Nat.eqb (nth 0 ix 0%nat) 1 then 1%Z else 0%Z)).
  eexists. eexists. exists [1%Z]. split; [|split; [reflexivity|split; [vm_compute; reflexivity|vm_compute; discriminate]]].
  split; [reflexivity|]. split; [repeat constructor|]. split; [reflexivity|]. intros [|[|k]] Hk; try reflexivity. cbn in Hk. lia.
Qed.
Print Assumptions c68_conditional_expectation_refuted.

(** an orthonormal basis with two functions for the measure with points 0, 1 and weights 1: x -> 1 - x and x -> x *)
Definition hat : fbasis Z Z unit := FB 1 2 (fun p k => if Nat.eqb k 0 then (1 - nth 0 p 0)%Z else nth 0 p 0%Z) (fun _ => [1; 1]%Z) (np_eye 2) true.
Example c68_ex_hat : mean_ok hat [[0]; [1]]%Z [1; 1]%Z /\ gram_ok hat [[0]; [1]]%Z [1; 1]%Z /\ fb_orth hat = true.
Proof.
  split; [|split; [|reflexivity]].
  - split; [reflexivity|]. split; [repeat constructor|]. split; [reflexivity|]. intros [|[|k]] Hk; try reflexivity. cbn in Hk. lia.
  - split; [reflexivity|]. split; [repeat constructor|]. split; [reflexivity|]. split.
    + intros [|[|k]] [|[|l]] Hk Hl; try reflexivity; cbn in Hk, Hl; lia.
    + intros _ [|[|k]] [|[|l]] Hk Hl; try reflexivity; cbn in Hk, Hl; lia.
Qed.
Example c68_ex_mean : option_map to_list (fba_mean hat [2%nat] (mat 2 [1; 2; 3; 4]%Z) None) = Some ([1%nat; 2%nat], [4; 6]%Z) /\
  option_map to_list (fba_dot_expectation true hat (mat 2 [1; 2; 3; 4]%Z) (mat 2 [1; 2; 3; 4]%Z)) = Some ([1%nat; 2%nat], [10; 20]%Z).
Proof. vm_compute. split; reflexivity. Qed.
(** the hypotheses of c68_variance: one point with weight 1 and the function 1 *)
Definition one : fbasis Z Z unit := FB 1 1 (fun _ _ => 1%Z) (fun _ => [1%Z]) (np_eye 1) true.
Example c68_ex_one : mean_ok one [[5]; [7]; [5]]%Z [1; 1; -1]%Z /\ gram_ok one [[5]; [7]; [5]]%Z [1; 1; -1]%Z /\ rsum 3 (fun k => nth k [1; 1; -1] 0)%Z = 1%Z.
Proof.
  split; [|split; [|reflexivity]].
  - split; [reflexivity|]. split; [repeat constructor|]. split; [reflexivity|]. intros [|k] Hk; try reflexivity. cbn in Hk. lia.
  - split; [reflexivity|]. split; [repeat constructor|]. split; [reflexivity|]. split.
    + intros [|k] [|l] Hk Hl; try reflexivity; cbn in Hk, Hl; lia.
    + intros _ [|k] [|l] Hk Hl; try reflexivity; cbn in Hk, Hl; lia.
Qed.
Example c68_ex_matmul : option_map (fun r => to_list (snd r)) (fba_matmul hat (mat 2 [1; 2; 3; 4]%Z) (ND [2%nat; 1%nat] (fun ix => if Nat.eqb (nth 0 ix 0%nat) 0 then 10 else 1)%Z)) = Some ([2%nat; 1%nat], [12; 34]%Z).
Proof. vm_compute. reflexivity. Qed.
