From Coq Require Import List Arith ZArith Reals Bool Lia Lra Sorted.
From Verif.Base Require Import ListAux CRing RealAux Poly.
From Verif.Model Require Import Truncator Polynomials Measures.
From Verif.Spec Require Import MeasureSpec PolySpec.
From Verif.Proofs Require Import PolyP PolyP3 PolyP4 PolyP5 PolyP6 MeasuresP MeasuresP2.
Import ListNotations.
Local Open Scope R_scope.

Lemma Int_part_INR k : Int_part (INR k) = Z.of_nat k.
Proof.
  unfold Int_part. rewrite INR_IZR_INZ. rewrite <- (up_tech (IZR (Z.of_nat k)) (Z.of_nat k)); [lia|lra|apply IZR_lt; lia].
Qed.

Lemma firstn_map_R {A B} (f : A -> B) k l : firstn k (map f l) = map f (firstn k l).
Proof. revert l; induction k as [|k IH]; intros [|a l]; cbn; auto. rewrite IH. auto. Qed.

Lemma dm_random_ok values weights us : length values = length weights -> (forall w, In w weights -> 0 <= w) -> 0 < total weights ->
  (forall u, In u us -> 0 < u <= 1) ->
  exists out, dm_random values weights us = Some out /\
    Forall2 (fun u v => exists k, (k < length values)%nat /\ v = nth k values 0 /\
       total (firstn k weights) / total weights < u <= total (firstn (S k) weights) / total weights) us out.
Proof.
  intros HL HW HT Hu. unfold dm_random. set (W := total weights) in *.
  assert (HD : is_distribution (map (fun w => w / W) weights)).
  { split.
    - intros p Hp. apply in_map_iff in Hp. destruct Hp as [w [<- Hw]]. apply Rmult_le_pos; auto. left. apply Rinv_0_lt_compat; auto.
    - pose proof (total_div weights W) as E. unfold total in E at 1. rewrite E. fold W. field. lra. }
  rewrite drv_make_dist; auto; [|rewrite !map_length, seq_length; auto].
  set (Y := {| dvals := map INR (seq 0 (length weights)); dprobs := map (fun w => w / W) weights |}).
  assert (HLY : length (dvals Y) = length (dprobs Y)) by (cbn; rewrite !map_length, seq_length; auto).
  destruct (drv_icdf_idx Y HLY (proj1 HD) us) as [ks [E1 E2]].
  { intros p Hp. unfold total. cbn [dprobs Y]. rewrite (proj2 HD). apply Hu in Hp. lra. }
  rewrite E1. clear E1. induction E2 as [|u k us ks H E2 IH]; [exists []; split; auto|].
  destruct IH as [out [I1 I2]]; [intros; apply Hu; cbn; auto|]. destruct H as [H1 [H2 H3]].
  assert (Hk : k <> 0%nat).
  { intros ->. cbn in H2. change (r0 : R) with 0 in H2. specialize (Hu u (or_introl eq_refl)). lra. }
  destruct k as [|k]; [congruence|]. cbn [dprobs Y] in H1, H2, H3. rewrite map_length in H1.
  exists (nth k values 0 :: out). split.
  - change (map (fun k0 => nth k0 (MInf :: map Fin (dvals Y)) MInf) (S k :: ks)) with
      (nth k (map Fin (dvals Y)) MInf :: map (fun k0 => nth k0 (MInf :: map Fin (dvals Y)) MInf) ks).
    cbn [fold_right]. rewrite I1.
    rewrite (map_nth_in _ _ _ 0) by (cbn [dvals Y]; rewrite map_length, seq_length; lia).
    cbn [dvals Y]. rewrite nth_map_seq by lia. rewrite Int_part_INR, Nat2Z.id.
    rewrite (nth_error_nth' values 0) by lia. auto.
  - constructor; auto. exists k. split; [lia|]. split; auto.
    specialize (H3 k ltac:(lia)). rewrite firstn_map_R in H2, H3.
    pose proof (total_div (firstn k weights) W) as T1. pose proof (total_div (firstn (S k) weights) W) as T2. 
    unfold total in T1 at 1, T2 at 1. rewrite T1 in H3. rewrite T2 in H2. lra.
Qed.

(** the draw u = 0 raises *)
Lemma dm_random_zero : dm_random [5] [1] [0] = None.
Proof.
  unfold dm_random. rewrite drv_make_dist; [|reflexivity|].
  - cbn [length seq map]. unfold drv_icdf. cbn [dvals dprobs].
    assert (E : first_ge (np_cumsum (0 :: map (fun w => w / total [1]) [1])) 0 = [0%nat]).
    { apply first_ge_some; [cbn; lia|lia|]. intros j Hj. unfold total. cbn in Hj. destruct j as [|[|j]]; [cbn; lra| |lia].
      cbn. lra. }
    cbn [map concat app] in *. rewrite E. reflexivity.
  - unfold total. split; [|cbn; field]. intros p [<-|[]]. cbn. lra.
Qed.

Lemma rvec_cdf_ok cdfs x : length x = length cdfs -> rvec_cdf cdfs x = lprod (seq 0 (length x)) (fun k => nth k cdfs (fun z => z) (nth k x 0)).
Proof.
  intros H. unfold rvec_cdf.
  assert (K : forall cdfs x, length x = length cdfs -> rprod (map (fun p => fst p (snd p)) (combine cdfs x)) = 
      lprod (seq 0 (length x)) (fun k => nth k cdfs (fun z : R => z) (nth k x 0))).
  { clear. induction cdfs as [|f cdfs IH]; intros [|x xs] H; try discriminate; [reflexivity|].
    cbn [combine map rprod length seq]. rewrite IH by (cbn in H; lia). rewrite <- seq_shift.
    change (lprod (0%nat :: map S (seq 0 (length xs))) (fun k => nth k (f :: cdfs) (fun z => z) (nth k (x :: xs) 0))) with
     (f x * lprod (map S (seq 0 (length xs))) (fun k => nth k (f :: cdfs) (fun z => z) (nth k (x :: xs) 0))).
    f_equal. generalize (seq 0 (length xs)). induction l as [|a l IHl]; auto. cbn [map lprod]. rewrite IHl. auto. }
  auto.
Qed.
