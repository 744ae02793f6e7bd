(** Property C70: variances of the conditional expectations of a functional tensor (functions/functional_tensor.py:337-368),
    the numerators of its Sobol indices.  Vocabulary: Spec/FunctionalSpec.v, as for C54 and C69. *)
From Coq Require Import List Arith ZArith Lia Bool.
From Verif.Base Require Import ListAux CRing Index.
From Verif.Model Require Import MultiIndices Numpy FullTensor FunctionalBases FuncStats FuncSobol.
From Verif.Spec Require Import TensorSpec FunctionSpec FunctionalSpec.
From Verif.Proofs Require FunctionalP5 FunctionalP7 FuncSobolP1.
Import ListNotations.
Local Open Scope cr_scope.

(** the mean of the conditional expectation (the function characterised by c54_conditional_expectation) over the variables
    that are kept is the mean of the function *)
Theorem c70_mean_of_conditional_expectation : forall {R} {CR : CRing R} {A V} (T : nd R) (bs : list (fbasis R A V)) dims G W, NoDup dims ->
  Forall (fun k => (k < length bs)%nat) dims -> shape T = cards bs -> each3 mean_ok bs G W ->
  exists t bs', let sorted := filter (fun k => existsb (Nat.eqb k) dims) (seq 0 (length bs)) in
    fun_cond_full T bs dims MNone = Some (t, bs') /\ shape t = cards bs' /\
    tmean (map (fun k => nth k G []) sorted) (map (fun k => nth k W []) sorted) (expansion bs' (get t)) = tmean G W (expansion bs (get T)).
Proof. intros R CR A V T bs dims G W H1 H2 H3 H4. destruct (FuncSobolP1.tower T bs dims G W H1 H2 H3 H4) as (t & Ht). exists t. eexists. exact Ht. Qed.
Print Assumptions c70_mean_of_conditional_expectation.
(** variance_conditional_expectation with gram_matrices in the place of the missing method gram_matrix: entry by entry,
    0 for the empty set of variables, and the variance of the conditional expectation g for the others (m is the mean) *)
Theorem c70_variance_partial : forall {R} {CR : CRing R} {A V} (T : nd R) (bs : list (fbasis R A V)) dims G W, NoDup dims ->
  Forall (fun k => (k < length bs)%nat) dims -> shape T = cards bs -> each3 mean_ok bs G W -> each3 gram_ok bs G W -> dims <> [] ->
  let sorted := filter (fun k => existsb (Nat.eqb k) dims) (seq 0 (length bs)) in
  let G' := map (fun k => nth k G []) sorted in let W' := map (fun k => nth k W []) sorted in
  tmean G' W' (fun _ => r1) = r1 ->
  exists t bs', fun_cond_full T bs dims MNone = Some (t, bs') /\
    fun_var_cond_of (Some fbs_gram_matrices) T bs dims =
      Some (let g := expansion bs' (get t) in let m := tmean G W (expansion bs (get T)) in tmean G' W' (fun p => (g p - m) * (g p - m))).
Proof. intros R CR A V T bs dims G W H1 H2 H3 H4 H5 H6 sorted G' W' H7. destruct (FuncSobolP1.var_cond_ok T bs dims G W H1 H2 H3 H4 H5 H6 H7) as (t & Ht). exists t. eexists. exact Ht. Qed.
Print Assumptions c70_variance_partial.
Theorem c70_all_rows_partial : forall {R} {CR : CRing R} {A V} attr (T : nd R) (bs : list (fbasis R A V)) alpha v,
  fun_variance_cond_of attr T bs alpha = Some v -> length v = length alpha /\
  forall k, (k < length alpha)%nat -> fun_var_cond_of attr T bs (nth k alpha []) = Some (nth k v r0).
Proof.
  intros R CR A V attr T bs alpha. unfold fun_variance_cond_of. induction alpha as [|u alpha IH]; intros v H; cbn [omap] in H.
  - injection H as <-. split; [reflexivity|]. intros k Hk. cbn in Hk. lia.
  - destruct (fun_var_cond_of attr T bs u) as [x|] eqn:E; [|discriminate]. cbn [bind] in H. destruct (omap _ alpha) as [l|] eqn:E2; [|discriminate]. cbn [bind] in H. injection H as <-.
    destruct (IH l eq_refl) as [IL IV]. split; [cbn; auto|]. intros [|k] Hk; [exact E|]. apply IV. cbn in Hk. lia.
Qed.
Print Assumptions c70_all_rows_partial.
(** the empty set of variables: 0, whatever the method gram_matrix does, so for the code as it is *)
Theorem c70_empty : forall {R} {CR : CRing R} {A V} attr (T : nd R) (bs : list (fbasis R A V)) G W, shape T = cards bs -> each3 mean_ok bs G W ->
  fun_var_cond_of attr T bs [] = Some r0.
Proof.
  intros R CR A V attr T bs G W H1 H2. unfold fun_var_cond_of. destruct (FunctionalP5.fun_mean_full_ok T bs G W H1 H2) as (e & -> & _). reflexivity.
Qed.
Print Assumptions c70_empty.
(** the code raises as soon as one of the sets of variables is not empty *)
Theorem c70_variance_refuted : forall {R} {CR : CRing R} {A V} (T : nd R) (bs : list (fbasis R A V)) alpha u, In u alpha -> u <> [] ->
  fun_variance_cond T bs alpha = None.
Proof.
  intros R CR A V T bs alpha u Hu Hne. assert (E : fun_var_cond_of fbs_gram_matrix T bs u = None).
  { unfold fun_var_cond_of. destruct (fun_mean_full T bs MNone) as [m|]; [|reflexivity]. cbn [bind]. destruct u as [|u0 ul]; [congruence|].
    destruct (fun_cond_full T bs (u0 :: ul) MNone) as [[t b]|]; [|reflexivity]. cbn [bind fst snd]. unfold fun_dot_of. rewrite Nat.eqb_refl. reflexivity. }
  unfold fun_variance_cond, fun_variance_cond_of. induction alpha as [|a alpha IH]; [destruct Hu|]. cbn [omap]. destruct Hu as [-> | Hu].
  - rewrite E. reflexivity.
  - rewrite (IH Hu). destruct (fun_var_cond_of fbs_gram_matrix T bs a); reflexivity.
Qed.
Print Assumptions c70_variance_refuted.

(** example: two variables uniform on signed points with total mass 1 *)
Definition b1 : fbasis Z Z unit := FB 1 2 (fun p k => if Nat.eqb k 0 then 1%Z else nth 0 p 0%Z) (fun _ => [1; 3]%Z) (ND [2%nat; 2%nat] (fun ix => match ix with [0%nat; 0%nat] => 1 | [1%nat; 1%nat] => 5 | _ => 3 end)%Z) false.
Definition g1 : list (list Z) := [[1]; [2]; [0]]%Z.
Definition w1 : list Z := [1; 1; -1]%Z.
Example c70_ex_hyps : each3 mean_ok [b1; b1] [g1; g1] [w1; w1] /\ each3 gram_ok [b1; b1] [g1; g1] [w1; w1] /\ tmean [g1] [w1] (fun _ => r1) = 1%Z.
Proof.
  assert (HM : mean_ok b1 g1 w1).
  { split; [reflexivity|]. split; [repeat constructor|]. split; [reflexivity|]. intros [|[|k]] Hk; try reflexivity. cbn in Hk. lia. }
  assert (HG : gram_ok b1 g1 w1).
  { split; [reflexivity|]. split; [repeat constructor|]. split; [reflexivity|]. split; [|discriminate]. intros [|[|k]] [|[|l]] Hk Hl; try reflexivity; cbn in Hk, Hl; lia. }
  split; [split; [|split; [|exact Logic.I]]; exact HM|]. split; [split; [|split; [|exact Logic.I]]; exact HG|reflexivity].
Qed.
(** f(x, y) = 10 + 2 x + 3 y + x y: E[f | x] = 19 + 5 x, of variance 25 (5 - 9) *)
Definition exT : nd Z := of_list 0%Z [2%nat; 2%nat] [10; 2; 3; 1]%Z.
Example c70_ex : fun_variance_cond_of (Some fbs_gram_matrices) exT [b1; b1] [[0%nat]; []] = Some [-100; 0]%Z.
Proof. vm_compute. reflexivity. Qed.
