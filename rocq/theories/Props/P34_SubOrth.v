(** Property C71: Gram-Schmidt orthonormalization of a SubFunctionalBasis (approximation/bases/sub_functional_basis.py:94-115).
    The functions of SubFunctionalBasis(b, B) are array_fun b B j: p |-> sum_k phi_k(p) B[k, j], the phi_k being the functions of b
    (Spec/ArraySpec.v); dmean is the expectation for a discrete measure (Spec/FunctionalSpec.v).  Real numbers: the columns of B
    are exact, and independent as np.linalg.norm must not vanish. *)
From Coq Require Import List Arith Reals Lia Lra Bool.
From Verif.Base Require Import ListAux CRing Index RealAux.
From Verif.Model Require Import Numpy FunctionalBases SubOrth.
From Verif.Spec Require Import FunctionalSpec ArraySpec.
From Verif.Proofs Require FunctionalP4 SubOrthP1.
Import ListNotations.
Local Open Scope R_scope.

(** no combination of the m first columns of the matrix B of n rows vanishes, except the zero one *)
Definition independent_columns (n m : nat) (B : nd R) : Prop :=
  forall c : nat -> R, (forall k, (k < n)%nat -> rsum m (fun j => c j * get B [k; j]) = 0) -> forall j, (j < m)%nat -> c j = 0.

Section P.
  Context {A V : Type}.
  Implicit Type b : fbasis R A V.
  Lemma cross b (Q : nd R) i j pts w : gram_ok b pts w -> fb_orth b = true ->
    dmean pts w (fun p => array_fun b Q i p * array_fun b Q j p) = rsum (fb_card b) (fun k => get Q [k; i] * get Q [k; j]).
  Proof.
    intros HG HO. etransitivity; [exact (FunctionalP4.sub_dmean b Q pts w i j HG)|]. destruct HG as (H1 & H2 & H3 & H4 & H5).
    apply rsum_ext. intros k Hk. rewrite (rsum_single (R := R) _ k); auto.
    - rewrite H4, H5, Nat.eqb_refl by auto. rcbn. ring.
    - intros l Hl Hne. rewrite H4, H5 by auto. destruct (Nat.eqb_spec k l); [congruence|]. rcbn. ring.
  Qed.
  Lemma columns_len (B : nd R) n m : shape B = [n; m] -> length (columns B) = m.
  Proof. intros H. unfold columns. rewrite map_length, seq_length, H. reflexivity. Qed.
  Lemma columns_nth (B : nd R) n m j k : shape B = [n; m] -> (j < m)%nat -> nth j (columns B) (fun _ => 0) k = get B [k; j].
  Proof.
    intros H Hj. unfold columns. rewrite (nth_indep _ (fun _ => 0) (fun k => get B [k; 0%nat])) by (rewrite map_length, seq_length, H; auto).
    rewrite (map_nth (fun j k => get B [k; j]) _ 0%nat). rewrite seq_nth by (rewrite H; auto). reflexivity.
  Qed.
  Lemma afun_span b (Q B : nd R) m D j p :
    (forall k, (k < fb_card b)%nat -> get Q [k; j] = rsum m (fun i => D i * get B [k; i])) ->
    array_fun b Q j p = rsum m (fun i => D i * array_fun b B i p).
  Proof.
    intros H. unfold array_fun. transitivity (rsum (fb_card b) (fun k => rsum m (fun i => D i * (fb_at b p k * get B [k; i])))).
    - apply rsum_ext. intros k Hk. rewrite H by auto. rcbn. rewrite <- rsum_scal_l_R. apply rsum_ext. intros i Hi. rcbn. ring.
    - rewrite (rsum_exchange (R := R)). apply rsum_ext. intros i Hi. rewrite rsum_scal_l_R. reflexivity.
  Qed.
End P.

(** orthonormalize returns as many functions, orthonormal for the measure for which the functions of b are, and they span
    the same space: the new function of rank j is a combination of the j + 1 first given ones, and conversely *)
Theorem c71_orthonormalize : forall {A V} (b : fbasis R A V) (B : nd R) m pts w,
  gram_ok b pts w -> fb_orth b = true -> shape B = [fb_card b; S m] -> independent_columns (fb_card b) (S m) B ->
  exists Q, sub_orthonormalize b B = Some Q /\ shape Q = [fb_card b; S m] /\
    (forall i j, (i < S m)%nat -> (j < S m)%nat ->
       dmean pts w (fun p => array_fun b Q i p * array_fun b Q j p) = if (i =? j)%nat then 1 else 0) /\
    (forall j, (j < S m)%nat -> exists D : nat -> R, forall p, array_fun b Q j p = rsum (S j) (fun i => D i * array_fun b B i p)) /\
    (forall j, (j < S m)%nat -> exists E : nat -> R, forall p, array_fun b B j p = rsum (S j) (fun i => E i * array_fun b Q i p)).
Proof.
  intros A V b B m pts w HG HO HS HI. pose proof (columns_len B _ _ HS) as HL.
  assert (HI' : SubOrthP1.indep (fb_card b) (columns B)).
  { intros c Hc j Hj. rewrite HL in Hj. apply HI; auto. intros k Hk. rewrite <- (Hc k Hk). unfold SubOrthP1.comb. rewrite HL. apply rsum_ext. intros i Hi. rewrite (columns_nth B _ _ i k HS) by auto. reflexivity. }
  destruct (SubOrthP1.gs_ok _ _ HI') as (L & O & _). rewrite HL in L. pose proof (fun q => SubOrthP1.gs_prefix _ _ q HI') as HP. rewrite HL in HP. set (n := fb_card b) in *.
  exists (of_columns n (gs n (columns B))). unfold sub_orthonormalize. rewrite HO, HS. cbn [nth]. fold n. split; [reflexivity|].
  split; [unfold of_columns; cbn [shape]; rewrite L; reflexivity|]. split; [|split].
  - intros i j Hi Hj. rewrite (cross b _ i j pts w HG HO). fold n. cbn [get of_columns nth]. apply (O i j); rewrite L; auto.
  - intros j Hj. destruct (HP (S j) ltac:(lia)) as [H1 _]. destruct (H1 j ltac:(lia)) as (D & HD). exists D. intros p. apply afun_span. fold n. intros k Hk. cbn [get of_columns nth]. rewrite HD by auto.
    apply rsum_ext. intros i Hi. rewrite (columns_nth B _ _ i k HS) by lia. reflexivity.
  - intros j Hj. destruct (HP (S j) ltac:(lia)) as [_ H1]. destruct (H1 j ltac:(lia)) as (D & HD). exists D. intros p. apply afun_span. fold n. intros k Hk. rewrite <- (columns_nth B n (S m) j k HS) by auto. rewrite HD by auto.
    apply rsum_ext. intros i Hi. reflexivity.
Qed.
Print Assumptions c71_orthonormalize.
(** the assertion: the underlying basis must be orthonormal *)
Theorem c71_needs_orthonormal : forall {A V} (b : fbasis R A V) (B : nd R), fb_orth b = false -> sub_orthonormalize b B = None.
Proof. intros A V b B H. unfold sub_orthonormalize. rewrite H. reflexivity. Qed.
Print Assumptions c71_needs_orthonormal.

(** example: the functions 1, x for the uniform measure on the two points -1 and 1 are orthonormal; the columns (1, 1) and
    (0, 2) are independent *)
Definition b2 : fbasis R R unit := FB 1 2 (fun p k => if Nat.eqb k 0 then 1 else nth 0 p 0) (fun _ => [1; 0]) (ND [2%nat; 2%nat] (fun ix => if Nat.eqb (nth 0 ix 0%nat) (nth 1 ix 0%nat) then 1 else 0)) true.
Definition B2 : nd R := ND [2%nat; 2%nat] (fun ix => match ix with [0%nat; 0%nat] => 1 | [1%nat; 0%nat] => 1 | [1%nat; 1%nat] => 2 | _ => 0 end).
Example c71_ex_hyps : gram_ok b2 [[-1]; [1]] [1 / 2; 1 / 2] /\ fb_orth b2 = true /\ independent_columns 2 2 B2.
Proof.
  assert (HD : forall k l, (k < 2)%nat -> (l < 2)%nat -> dmean [[-1]; [1]] [1 / 2; 1 / 2] (fun p => fb_at b2 p k * fb_at b2 p l) = if (k =? l)%nat then 1 else 0).
  { intros [|[|k]] [|[|l]] Hk Hl; try lia; unfold dmean; cbn; lra. }
  split; [|split].
  - split; [reflexivity|]. split; [repeat constructor|]. split; [reflexivity|]. split; [|intros _; exact HD].
    intros k l Hk Hl. symmetry. exact (HD k l Hk Hl).
  - reflexivity.
  - intros c Hc j Hj. pose proof (Hc 0%nat ltac:(lia)) as H0. pose proof (Hc 1%nat ltac:(lia)) as H1. cbn in H0, H1. destruct j as [|[|j]]; [lra|lra|lia].
Qed.
