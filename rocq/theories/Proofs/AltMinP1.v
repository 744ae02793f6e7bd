(** Alternating minimisation: the linear systems. *)
From Coq Require Import List Arith Lia Bool Reals Lra.
From Verif.Base Require Import ListAux CRing Index RealAux LinAlg.
From Verif.Model Require Import Numpy FullTensor DimensionTree TreeBased Learning AltMin.
From Verif.Spec Require Import TensorSpec LearningSpec AltMinSpec.
From Verif.Proofs Require Import NumpyP LearningP PolyP5 HsvdP2.
Import ListNotations.
Local Open Scope R_scope.

Lemma all_zero_spec c : all_zero c = true <-> forall is, valid (shape c) is -> get c is = 0.
Proof.
  unfold all_zero. rewrite forallb_forall. split; intros H is Hi.
  - specialize (H is (proj2 (in_boxF _ _) Hi)). destruct (Req_EM_T (get c is) 0); auto; discriminate.
  - rewrite H by (apply in_boxF; auto). destruct (Req_EM_T 0 0); auto.
Qed.
Lemma reshapeF_val (c : nd R) s : prodn s = prodn (shape c) ->
  np_reshapeF c s = Some (ND s (fun is => get c (ind2subF (shape c) (sub2indF s is)))).
Proof. intros H. unfold np_reshapeF. rewrite H, Nat.eqb_refl. auto. Qed.
Lemma reshape_zero (c C : nd R) s : prodn s = prodn (shape c) -> np_reshapeF c s = Some C ->
  (all_zero c = true <-> forall js, valid s js -> get C js = 0).
Proof.
  intros H E. rewrite (reshapeF_val c s H) in E. injection E as <-. cbn [get]. rewrite all_zero_spec. split; intros Q is Hi.
  - apply Q. apply ind2subF_valid. rewrite <- H. apply sub2indF_lt. auto.
  - pose proof (sub2indF_lt _ _ Hi) as Hl. specialize (Q (ind2subF s (sub2indF (shape c) is))). rewrite sub2indF_ind2subF, ind2subF_sub2indF in Q; auto; [|rewrite H; auto]. apply Q. apply ind2subF_valid. rewrite H. auto.
Qed.
Lemma ls_ext A y y' rows x : (forall i, In i rows -> y i = y' i) -> least_squares A y rows x -> least_squares A y' rows x.
Proof.
  intros H Q x'. assert (E : forall z, rss A y rows z = rss A y' rows z) by (intros z; unfold rss; apply lsum_ext_in; intros i Hi; rewrite H; auto).
  rewrite <- !E. apply Q.
Qed.
Lemma sub1 P k : (k < P)%nat -> ind2subF [P] k = [k].
Proof. intros H. cbn. rewrite Nat.mod_small; auto. Qed.
Lemma sub2 P d j o : (j < P)%nat -> (o < d)%nat -> ind2subF [P; d] (j + P * o) = [j; o].
Proof. intros Hj Ho. assert (E : (j + P * o = sub2indF [P; d] [j; o])%nat) by (cbn; nia). rewrite E, ind2subF_sub2indF; auto. repeat (apply Forall2_cons; auto). Qed.

Section Solve.
  Variable L : lapack.
  Variable s : solver.
  Hypothesis LK : lapack_ok L.
  Lemma ols_nd_spec A (y : nd R) q P hs ex : shape A = [q; P] -> (ex = [] \/ exists d, ex = [d]) ->
    (shape y = q :: ex \/ ex = [] /\ shape y = [q; 1%nat]) -> prodn hs = P ->
    exists c C sol, ols_nd L s A y = Some c /\ np_reshapeF c (hs ++ ex) = Some C /\ shape C = hs ++ ex /\
      (forall ks e, valid hs ks -> valid ex e -> get C (ks ++ e) = sol e (sub2indF hs ks)) /\
      (forall e, valid ex e -> least_squares (to_mx A) (fun i => datum y i e) (seq 0 q) (sol e)) /\
      (all_zero c = true <-> forall js, valid (hs ++ ex) js -> get C js = 0) /\
      (forall e, valid ex e -> exists v, sol e = ols L s (to_mx A) v).
  Proof.
    intros SA Hex Hy HP. unfold ols_nd. unfold ndim. rewrite SA. cbn [length nth]. rewrite Nat.eqb_refl.
    assert (H0 : nth 0 (shape y) 0%nat = q) by (destruct Hy as [-> | [_ ->]]; auto). rewrite H0, Nat.eqb_refl. cbn [andb].
    assert (LS : forall v, least_squares (to_mx A) v (seq 0 q) (ols L s (to_mx A) v)).
    { intros v. pose proof (ols_correct L (to_mx A) v LK s) as Q. assert (E : all_rows (to_mx A) = seq 0 q) by (unfold all_rows, to_mx; cbn [mrows]; rewrite SA; auto). rewrite E in Q. exact Q. }
    destruct Hy as [Hy|[-> Hy]].
    - destruct Hex as [->|[d ->]]; rewrite Hy; cbn [app].
      + set (c := ND [P] _). assert (HH : prodn (hs ++ []) = prodn (shape c)) by (rewrite app_nil_r; unfold c; cbn [shape prodn]; lia). exists c. eexists. exists (fun _ => ols L s (to_mx A) (fun i => get y [i])).
        split; [reflexivity|]. split; [apply reshapeF_val; auto|]. split; [auto|]. split; [|split; [|split]].
        * intros ks e Hk He. inversion He; subst e. cbn [get c]. rewrite !app_nil_r. unfold c. cbn [shape]. pose proof (sub2indF_lt _ _ Hk). rewrite sub1 by lia. auto.
        * intros e He. inversion He; subst e. apply (ls_ext _ (fun i => get y [i])); auto. intros i _. unfold datum. rewrite Hy. auto.
        * apply (reshape_zero c); auto. apply reshapeF_val; auto.
        * intros e _. eexists. reflexivity.
      + set (c := ND [P; d] _). assert (HH : prodn (hs ++ [d]) = prodn (shape c)) by (unfold c; rewrite prodn_app; cbn [shape prodn]; lia). exists c. eexists. exists (fun e => ols L s (to_mx A) (fun i => get y [i; nth 0 e 0%nat])).
        split; [reflexivity|]. split; [apply reshapeF_val; auto|]. split; [auto|]. split; [|split; [|split]].
        * intros ks e Hk He. inversion He as [|o ? e' ? Ho He']; subst. inversion He'; subst. cbn [get]. unfold c. cbn [shape get]. pose proof (sub2indF_lt _ _ Hk). rewrite sub2indF_app by auto. cbn [sub2indF]. rewrite Nat.mul_0_r, Nat.add_0_r. rewrite sub2 by lia. auto.
        * intros e He. inversion He as [|o ? e' ? Ho He']; subst. inversion He'; subst. cbn [nth]. apply (ls_ext _ (fun i => get y [i; o])); auto.
        * apply (reshape_zero c); auto. apply reshapeF_val; auto.
        * intros e _. eexists. reflexivity.
    - rewrite Hy. set (c := ND [P; 1%nat] _). assert (HH : prodn (hs ++ []) = prodn (shape c)) by (rewrite app_nil_r; unfold c; cbn [shape prodn]; lia). exists c. eexists. exists (fun _ => ols L s (to_mx A) (fun i => get y [i; 0%nat])).
      split; [reflexivity|]. split; [apply reshapeF_val; auto|]. split; [auto|]. split; [|split; [|split]].
      + intros ks e Hk He. inversion He; subst e. cbn [get]. unfold c. cbn [shape get]. rewrite !app_nil_r. pose proof (sub2indF_lt _ _ Hk). replace (sub2indF hs ks) with (sub2indF hs ks + P * 0)%nat at 1 by lia. rewrite sub2 by lia. auto.
      + intros e He. inversion He; subst e. apply (ls_ext _ (fun i => get y [i; 0%nat])); auto. intros i _. unfold datum. rewrite Hy. auto.
      + apply (reshape_zero c); auto. apply reshapeF_val; auto.
      + intros e _. eexists. reflexivity.
  Qed.
  (** the zero matrix *)
  Hypothesis LZ : lstsq_zero L.
  Lemma solve_zero M b : (forall i j, (i < mrows M)%nat -> (j < mcols M)%nat -> ment M i j = 0) -> forall j, (j < mcols M)%nat -> try_solve L M b j = 0.
  Proof.
    intros HM j Hj. unfold try_solve. destruct (l_solve L M b) as [x|] eqn:E; [|apply LZ; auto]. exfalso.
    destruct LK as (_ & SO & _). specialize (SO M b). rewrite E in SO. destruct SO as [[_ I1] _]. specialize (I1 (fun k => if (k =? j)%nat then 1 else 0)).
    assert (Q : (if (j =? j)%nat then 1 else 0) = 0); [|rewrite Nat.eqb_refl in Q; lra]. apply I1; auto. intros i Hi. unfold mv. apply rsum_zero_R. intros k Hk. rewrite HM by auto. apply Rmult_0_l.
  Qed.
  Lemma ols_zero A v : (forall i j, (i < mrows A)%nat -> (j < mcols A)%nat -> ment A i j = 0) -> forall j, (j < mcols A)%nat -> ols L s A v j = 0.
  Proof.
    intros HA j Hj. unfold ols. destruct s.
    - apply solve_zero; auto. intros i k Hi Hk. cbn. apply rsum_zero_R. intros l Hl. cbn in *. rewrite HA by auto. apply Rmult_0_l.
    - destruct (l_qr L A) as [q r] eqn:E. destruct LK as (QR & _). specialize (QR A). rewrite E in QR. destruct QR as (Q1 & Q2 & Q3 & Q4 & Q5 & Q6).
      apply solve_zero; [|rewrite Q4; auto]. rewrite Q3, Q4. intros c k Hc Hk.
      transitivity (rsum (Nat.min (mrows A) (mcols A)) (fun d => (if (c =? d)%nat then 1 else 0) * ment r d k)).
      + symmetry. rewrite (rsum_single _ c); auto; [rewrite Nat.eqb_refl; rcbn; ring|]. intros d _ Hd. destruct (Nat.eqb_spec c d); [congruence|]. rcbn. ring.
      + transitivity (rsum (mrows A) (fun i => ment q i c * ment A i k)).
        * transitivity (rsum (Nat.min (mrows A) (mcols A)) (fun d => rsum (mrows A) (fun i => ment q i c * ment q i d * ment r d k))).
          -- apply rsum_ext_R. intros d Hd. rewrite rsum_scal_r_R. f_equal. rewrite Q5 by auto. auto.
          -- rewrite rsum_exchange_R. apply rsum_ext_R. intros i Hi. rewrite Q6 by auto. rewrite <- rsum_scal_l_R. apply rsum_ext_R. intros d _. ring.
        * apply rsum_zero_R. intros i Hi. rewrite HA by auto. ring.
  Qed.
End Solve.
