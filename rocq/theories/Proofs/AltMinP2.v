(** Alternating minimisation: the solution of the system minimises the risk as a function of the core. *)
From Coq Require Import List Arith Lia Bool Reals Lra.
From Verif.Base Require Import ListAux CRing Index RealAux LinAlg.
From Verif.Model Require Import Numpy FullTensor DimensionTree TreeBased Learning AltMin.
From Verif.Spec Require Import TensorSpec LearningSpec AltMinSpec.
From Verif.Proofs Require Import NumpyP LearningP PolyP5 HsvdP2 AltMinP1.
Import ListNotations.
Local Open Scope R_scope.

Lemma idiv q i j : (i < q)%nat -> ((i + q * j) mod q = i /\ (i + q * j) / q = j)%nat.
Proof. intros H. split; [rewrite (Nat.mul_comm q), Nat.mod_add by lia; apply Nat.mod_small; auto|rewrite (Nat.mul_comm q), Nat.div_add by lia; rewrite Nat.div_small; auto]. Qed.
Lemma sub_cons q hs i j : (i < q)%nat -> ind2subF (q :: hs) (i + q * j) = i :: ind2subF hs j.
Proof. intros H. cbn [ind2subF]. destruct (idiv q i j H) as [-> ->]. auto. Qed.
Lemma sub_app hs ex j o : (j < prodn hs)%nat -> ind2subF (hs ++ ex) (j + prodn hs * o) = ind2subF hs j ++ ind2subF ex o.
Proof.
  intros H. rewrite ind2subF_app. destruct (idiv (prodn hs) j o H) as [_ ->]. f_equal.
  assert (G : forall n k, ind2subF hs (k + prodn hs * n) = ind2subF hs k); [|apply G]. clear. induction hs as [|h hs IH]; intros n k; auto. cbn [ind2subF prodn].
  destruct (Nat.eq_dec h 0) as [->|Hh].
  - rewrite !Nat.mul_0_l, Nat.add_0_r. auto.
  - replace (k + h * prodn hs * n)%nat with (k + prodn hs * n * h)%nat by ring. rewrite Nat.mod_add, Nat.div_add by auto. f_equal. apply IH.
Qed.

Section Risk.
  Variable L : lapack.
  Variable s : solver.
  Hypothesis LK : lapack_ok L.
  Variables (q : nat) (hs ex : list nat) (y : nd R).
  Hypothesis Hq : (0 < q)%nat.
  Hypothesis Hex : ex = [] \/ exists d, ex = [d].
  Hypothesis Hhs : (0 < prodn hs)%nat.
  Hypothesis Hep : (0 < prodn ex)%nat.
  Hypothesis Hy : shape y = q :: ex \/ ex = [] /\ shape y = [q; 1%nat].
  Lemma pred_lin A (g : nat -> list nat -> R) i x : shape A = [nth 0 (shape A) 0%nat; prodn hs] ->
    (forall j, (j < prodn hs)%nat -> get A [i; j] = g i (ind2subF hs j)) -> prediction (to_mx A) x i = bsum hs (fun ks => g i ks * x (sub2indF hs ks)).
  Proof.
    intros SA H. unfold prediction, to_mx. cbn [mcols ment]. rewrite SA. cbn [nth]. symmetry. etransitivity; [exact (bsum_linear hs (fun ks => g i ks * x (sub2indF hs ks)))|].
    apply rsum_ext_R. intros j Hj. rewrite sub2indF_ind2subF by auto. rewrite H; auto.
  Qed.
  Lemma root_solve (G : nd R) : shape G = q :: hs ->
    exists A c C, np_reshapeF G [q; (prodn (shape G) / q)%nat] = Some A /\ ls_solve L s false A y = Some c /\ np_reshapeF c (hs ++ ex) = Some C /\ shape C = hs ++ ex /\
      (all_zero c = true -> forall js, valid (hs ++ ex) js -> get C js = 0) /\
      forall K : list nat -> R,
        rsum q (fun i => bsum ex (fun e => (datum y i e - bsum hs (fun ks => get G (i :: ks) * get C (ks ++ e))) ^ 2)) <=
        rsum q (fun i => bsum ex (fun e => (datum y i e - bsum hs (fun ks => get G (i :: ks) * K (ks ++ e))) ^ 2)).
  Proof.
    intros SG. assert (EP : (prodn (shape G) / q = prodn hs)%nat) by (rewrite SG; cbn [prodn]; rewrite Nat.mul_comm, Nat.div_mul; lia). rewrite EP.
    assert (HH : prodn [q; prodn hs] = prodn (shape G)) by (rewrite SG; cbn [prodn]; lia).
    set (A := ND [q; prodn hs] (fun is => get G (ind2subF (shape G) (sub2indF [q; prodn hs] is)))).
    destruct (ols_nd_spec L s LK A y q (prodn hs) hs ex eq_refl Hex Hy eq_refl) as (c & C & sol & E1 & E2 & E3 & E4 & E5 & E6 & _).
    exists A, c, C. split; [apply reshapeF_val; auto|]. split; [exact E1|]. split; auto. split; auto. split; [apply E6|]. intros K.
    assert (GA : forall i j, (i < q)%nat -> (j < prodn hs)%nat -> get A [i; j] = get G (i :: ind2subF hs j)).
    { intros i j Hi Hj. unfold A. cbn [get]. rewrite SG. replace (sub2indF [q; prodn hs] [i; j]) with (i + q * j)%nat by (cbn; nia). rewrite sub_cons by auto. auto. }
    assert (SW : forall f : nat -> list nat -> R, rsum q (fun i => bsum ex (fun e => f i e)) = bsum ex (fun e => rsum q (fun i => f i e))) by (intros f; symmetry; apply bsum_rsum_exchange_R).
    rewrite (SW (fun i e => (datum y i e - bsum hs (fun ks => get G (i :: ks) * get C (ks ++ e))) ^ 2)), (SW (fun i e => (datum y i e - bsum hs (fun ks => get G (i :: ks) * K (ks ++ e))) ^ 2)).
    apply bsum_le. intros e He. pose proof (E5 e He (fun j => K (ind2subF hs j ++ e))) as Q. unfold rss in Q. rewrite !lsum_seq_rsum in Q.
    eapply Rle_trans; [apply Req_le|eapply Rle_trans; [exact Q|apply Req_le]]; apply rsum_ext_R; intros i Hi; f_equal; f_equal;
    rewrite (pred_lin A (fun i ks => get G (i :: ks))); auto.
    - apply bsum_ext_R. intros ks Hk. rewrite E4; auto.
    - apply bsum_ext_R. intros ks Hk. rewrite ind2subF_sub2indF; auto.
  Qed.
  Lemma nonroot_solve (G : nd R) d : shape G = q :: hs ++ ex -> d = prodn ex ->
    exists A c C, np_reshapeF G [q; (prodn (shape G) / (q * d))%nat; d] = Some A /\ ls_solve L s true A y = Some c /\ np_reshapeF c hs = Some C /\ shape C = hs /\
      (all_zero c = true <-> forall js, valid hs js -> get C js = 0) /\
      (lstsq_zero L -> (forall is, valid (shape G) is -> get G is = 0) -> all_zero c = true) /\
      forall K : list nat -> R,
        rsum q (fun i => bsum ex (fun e => (datum y i e - bsum hs (fun ks => get G (i :: ks ++ e) * get C ks)) ^ 2)) <=
        rsum q (fun i => bsum ex (fun e => (datum y i e - bsum hs (fun ks => get G (i :: ks ++ e) * K ks)) ^ 2)).
  Proof.
    intros SG Ed. set (P := prodn hs). assert (EP : (prodn (shape G) / (q * d) = P)%nat).
    { rewrite SG, Ed. cbn [prodn]. rewrite prodn_app. replace (q * (prodn hs * prodn ex))%nat with (P * (q * prodn ex))%nat by (unfold P; ring). apply Nat.div_mul. nia. }
    rewrite EP. assert (HH : prodn [q; P; d] = prodn (shape G)) by (rewrite SG; cbn [prodn]; rewrite prodn_app; unfold P; subst d; ring).
    set (A := ND [q; P; d] (fun is => get G (ind2subF (shape G) (sub2indF [q; P; d] is)))).
    assert (GA : forall i j o, (i < q)%nat -> (j < P)%nat -> (o < d)%nat -> get A [i; j; o] = get G (i :: ind2subF hs j ++ ind2subF ex o)).
    { intros i j o Hi Hj Ho. unfold A. cbn [get]. rewrite SG. replace (sub2indF [q; P; d] [i; j; o]) with (i + q * (j + P * o))%nat by (cbn; nia). rewrite sub_cons by auto. unfold P. rewrite sub_app by auto. auto. }
    assert (Hd : (0 < d)%nat) by lia. assert (HP0 : (0 < P)%nat) by (unfold P; lia).
    assert (HyP : prodn (shape y) = (q * d)%nat) by (destruct Hy as [-> | [E ->]]; cbn [prodn]; [subst d; auto|rewrite E in Ed; cbn in Ed; subst d; lia]).
    set (A1 := ND [q; d; P] (fun is => get A (sel 0%nat is (inv_perm [0; 2; 1]%nat)))).
    assert (T1 : np_transpose A [0; 2; 1]%nat = Some A1) by reflexivity.
    set (A2 := ND [(q * d)%nat; P] (fun is => get A1 (ind2subF [q; d; P] (sub2indF [(q * d)%nat; P] is)))).
    assert (T2 : np_reshapeF A1 [(prodn (shape A1) / nth 2 (shape A1) 0)%nat; nth 2 (shape A1) 0%nat] = Some A2).
    { cbn [shape A1 nth]. replace (prodn [q; d; P] / P)%nat with (q * d)%nat by (cbn [prodn]; rewrite Nat.mul_1_r, Nat.mul_assoc, Nat.div_mul; lia). unfold A2. rewrite reshapeF_val; auto. cbn [prodn shape A1]. ring. }
    set (v2 := ND [(q * d)%nat; 1%nat] (fun is => get y (ind2subF (shape y) (sub2indF [(q * d)%nat; 1%nat] is)))).
    assert (T3 : np_reshapeF y [prodn (shape y); 1%nat] = Some v2) by (rewrite HyP; unfold v2; apply reshapeF_val; cbn [prodn]; lia).
    assert (EL : ls_solve L s true A y = ols_nd L s A2 v2).
    { unfold ls_solve. cbn [shape A ndim length andb Nat.eqb nth].
      assert (C1 : ((ndim y =? 1) && (d =? 1) || (ndim y =? 2) && (d =? nth 1 (shape y) 0))%nat = true).
      { unfold ndim. destruct Hy as [Ey|[E Ey]]; rewrite Ey.
        - destruct Hex as [->|[d' ->]]; cbn in *; rewrite ?Nat.mul_1_r in Ed; subst d; [auto|]. rewrite Nat.eqb_refl. auto.
        - rewrite E in Ed. cbn in Ed. subst d. auto. }
      rewrite C1, T1. cbn [bind]. rewrite T2. cbn [bind]. rewrite T3. cbn [bind]. auto. }
    destruct (ols_nd_spec L s LK A2 v2 (q * d) P hs [] eq_refl (or_introl eq_refl) (or_intror (conj eq_refl eq_refl)) eq_refl) as (c & C & sol & E1 & E2 & E3 & E4 & E5 & E6 & E7).
    rewrite app_nil_r in *. exists A, c, C. split; [apply reshapeF_val; auto|]. split; [rewrite EL; auto|]. split; auto. split; auto. split; auto.
    assert (GA2 : forall i o j, (i < q)%nat -> (o < d)%nat -> (j < P)%nat -> get A2 [(i + q * o)%nat; j] = get G (i :: ind2subF hs j ++ ind2subF ex o)).
    { intros i o j Hi Ho Hj. unfold A2. cbn [get]. replace (sub2indF [(q * d)%nat; P] [(i + q * o)%nat; j]) with (sub2indF [q; d; P] [i; o; j]) by (cbn; nia).
      rewrite ind2subF_sub2indF by (repeat (apply Forall2_cons; auto)). unfold A1. cbn [get]. rewrite <- GA by auto. reflexivity. }
    split.
    - intros LZ HG0. apply E6. intros js Hjs. rewrite <- (app_nil_r js). rewrite E4; auto; [|apply Forall2_nil]. destruct (E7 [] (Forall2_nil _)) as [v ->].
      apply (ols_zero L s LK LZ); [|apply sub2indF_lt; auto]. intros k j Hk Hj. cbn in Hk, Hj. cbn [to_mx ment].
      assert (Hkq : (k mod q < q)%nat) by (apply Nat.mod_upper_bound; lia). assert (Hko : (k / q < d)%nat) by (apply Nat.div_lt_upper_bound; nia).
      rewrite (Nat.div_mod_eq k q), Nat.add_comm, GA2 by auto. apply HG0. rewrite SG. apply Forall2_cons; auto. apply valid_app; apply ind2subF_valid; auto. lia.
    - intros K. pose proof (E5 [] (Forall2_nil _) (fun j => K (ind2subF hs j))) as Q. unfold rss in Q. rewrite !lsum_seq_rsum in Q.
      assert (RW : forall x g, (forall k, (k < P)%nat -> x k = g (ind2subF hs k)) -> rsum (q * d) (fun k => (datum v2 k [] - prediction (to_mx A2) x k) ^ 2) =
        rsum q (fun i => bsum ex (fun e => (datum y i e - bsum hs (fun ks => get G (i :: ks ++ e) * g ks)) ^ 2))).
      { intros x g Hg. transitivity (bsum [q; d] (fun io => (fun k => (datum v2 k [] - prediction (to_mx A2) x k) ^ 2) (sub2indF [q; d] io))).
        - symmetry. etransitivity; [exact (bsum_linear' [q; d] (fun k => (datum v2 k [] - prediction (to_mx A2) x k) ^ 2))|]. cbn [prodn]. rewrite Nat.mul_1_r. reflexivity.
        - cbn [bsum]. apply rsum_ext_R. intros i Hi. symmetry. etransitivity; [exact (bsum_linear ex _)|]. rewrite <- Ed. apply rsum_ext_R. intros o Ho.
          replace (sub2indF [q; d] [i; o]) with (i + q * o)%nat by (cbn; nia). f_equal. f_equal.
          + unfold datum at 2. unfold v2. cbn [shape get]. replace (sub2indF [(q * d)%nat; 1%nat] [(i + q * o)%nat; 0%nat]) with (i + q * o)%nat by (cbn; nia).
            destruct Hy as [Ey|[E Ey]]; rewrite Ey.
            * rewrite sub_cons by auto. unfold datum. rewrite Ey. destruct Hex as [-> | [d' ->]]; auto.
            * rewrite E in *. cbn in Ed. assert (o = 0)%nat by lia. subst o. rewrite sub_cons by auto. unfold datum. rewrite Ey. auto.
          + transitivity (bsum hs (fun ks => get G (i :: ks ++ ind2subF ex o) * x (sub2indF hs ks))).
            * apply bsum_ext_R. intros ks Hk. rewrite Hg by (apply sub2indF_lt; auto). rewrite ind2subF_sub2indF; auto.
            * symmetry. apply (pred_lin A2 (fun _ ks => get G (i :: ks ++ ind2subF ex o))); auto. }
      rewrite (RW (fun j => K (ind2subF hs j)) K) in Q by auto. rewrite (RW _ (get C)) in Q; [exact Q|]. intros k Hk. rewrite <- (app_nil_r (ind2subF hs k)). rewrite E4; [|apply ind2subF_valid; auto|apply Forall2_nil]. rewrite sub2indF_ind2subF; auto.
  Qed.
End Risk.
