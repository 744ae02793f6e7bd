(** orth_at_node: the matrices. *)
From Coq Require Import List Arith Lia Bool Reals Lra Permutation.
From Verif.Base Require Import ListAux CRing Index RealAux LinAlg.
From Verif.Model Require Import Sorting Numpy FullTensor Diagonal Canonical DimensionTree TreeBased Truncator HSVD HsvdTree OrthNode.
From Verif.Spec Require Import TensorSpec TreeSpec TreeTensorSpec TruncatorSpec GramSpec LearningSpec FunctionalSpec OrthNodeSpec.
From Verif.Proofs Require Import NumpyP FullTensorP FullTensorP4 PolyP5 SpectralP SpectralP2 LapackP EckartP FunctionalP4 TruncatorP TruncatorP3 HsvdTreeP4 HsvdTreeP10.
Import ListNotations.
Local Open Scope R_scope.

Section Factors.
  Variable svd : nd R -> nd R * list R * nd R.
  Hypothesis SVD : svd_contract svd.
  Variable mrank : nd R -> nat.
  Hypothesis RK : rank_contract mrank.
  Variable pinv : nd R -> nd R.
  Hypothesis PI : pinv_contract pinv.
  Variable inv : nd R -> option (nd R).
  Hypothesis IV : inv_contract inv.
  Hypothesis IC : inv_complete inv.
  Variables (G : nd R) (K : nat).
  Hypothesis HG : shape G = [K; K].
  Hypothesis HS : forall i j, (i < K)%nat -> (j < K)%nat -> get G [i; j] = get G [j; i].
  Hypothesis HP : forall v, 0 <= rsum K (fun i => rsum K (fun j => v i * v j * get G [i; j])).
  (** the rank [a] is 0 and G = 0, or G = L L^T and S L = I *)
  Lemma orth_factors_spec : exists a, (a <= K)%nat /\
    ((a = 0%nat /\ orth_factors svd mrank pinv inv G = Some None /\ forall i j, (i < K)%nat -> (j < K)%nat -> get G [i; j] = 0) \/
     ((0 < a)%nat /\ exists L Si, orth_factors svd mrank pinv inv G = Some (Some (L, Si)) /\ shape L = [K; a] /\ shape Si = [a; K] /\
        (forall i j, (i < K)%nat -> (j < K)%nat -> get G [i; j] = rsum a (fun c => get L [i; c] * get L [j; c])) /\
        (forall c d, (c < a)%nat -> (d < a)%nat -> rsum K (fun k => get Si [c; k] * get L [k; d]) = if (c =? d)%nat then 1 else 0))).
  Proof.
    destruct (SVD G _ _ HG) as (SU & Ls & SV & Sp & Sd & OU & OV & EM). rewrite Nat.min_id in *.
    set (U := fst (fst (svd G))) in *. set (s := snd (fst (svd G))) in *. set (V := snd (svd G)) in *.
    set (q := fun c => sqrt (nth c s 0)).
    assert (ES : svd G = (U, s, V)) by (unfold U, s, V; destruct (svd G) as [[? ?] ?]; auto).
    set (D := np_diag (map (fun x => sqrt (Rabs x)) s)).
    assert (SD : shape D = [K; K]) by (unfold D, np_diag; cbn [shape]; rewrite map_length, Ls; auto).
    destruct (matmul_ok U D K K K SU SD) as (L & EL & SL & VL0).
    assert (VL : forall i c, (c < K)%nat -> get L [i; c] = get U [i; c] * q c).
    { intros i c Hc. rewrite VL0. rewrite (rsum_ext_R _ _ (fun k => if (k =? c)%nat then get U [i; k] * q k else 0)); [apply rsum_delta_R; auto|].
      intros k Hk. unfold D, np_diag. cbn [get nth]. destruct (Nat.eqb_spec k c) as [->|NE]; [|rcbn; ring].
      rewrite (map_nth_in _ _ _ 0) by lia. rewrite Rabs_right by (apply Rle_ge; auto). reflexivity. }
    assert (QQ : forall c, (c < K)%nat -> q c * q c = nth c s 0) by (intros c Hc; unfold q; apply sqrt_sqrt; auto).
    assert (EG : forall i j, (i < K)%nat -> (j < K)%nat -> get G [i; j] = rsum K (fun c => get L [i; c] * get L [j; c])).
    { intros i j Hi Hj. rewrite EM by auto. apply rsum_ext_R. intros c Hc. rewrite !VL by auto.
      pose proof (psd_uw svd SVD G K HG HS HP c j Hc Hj) as Q. fold U s V in Q. transitivity (get U [i; c] * (nth c s 0 * get V [c; j])); [ring|]. rewrite <- Q, <- QQ by auto. ring. }
    destruct (pos_prefix K (fun c => nth c s 0)) as (a & La & Pa & Za); auto.
    assert (Qp : forall c, (c < a)%nat -> 0 < q c) by (intros c Hc; apply sqrt_lt_R0; auto).
    assert (Qz : forall c, (a <= c)%nat -> (c < K)%nat -> q c = 0) by (intros c H1 H2; unfold q; rewrite Za by auto; apply sqrt_0).
    (* L is injective on its first a columns *)
    assert (INJ : forall x : nat -> R, (forall i, (i < K)%nat -> rsum a (fun c => get L [i; c] * x c) = 0) -> forall c, (c < a)%nat -> x c = 0).
    { intros x Hx c Hc. assert (E : q c * x c = 0).
      { transitivity (rsum K (fun i => get U [i; c] * rsum a (fun d => get L [i; d] * x d))).
        - transitivity (rsum K (fun i => rsum a (fun d => (q d * x d) * (get U [i; d] * get U [i; c])))).
          + rewrite rsum_swap_R. rewrite (rsum_ext_R a _ (fun d => if (d =? c)%nat then q d * x d else 0)); [symmetry; apply rsum_delta_R; auto|].
            intros d Hd. rewrite rsum_scal_l_R, OU by lia. destruct (d =? c)%nat; ring.
          + apply rsum_ext_R. intros i Hi. rewrite <- rsum_scal_l_R. apply rsum_ext_R. intros d Hd. rewrite VL by lia. ring.
        - apply rsum_zero_R. intros i Hi. rewrite Hx by auto. ring. }
      pose proof (Qp c Hc). apply Rmult_integral in E. destruct E; [lra|auto]. }
    (* the rank *)
    assert (RA : mrank L = a).
    { assert (R1 : (mrank L <= a)%nat).
      { apply (RK L K K SL). exists (fun c is => get L [nth 0 is 0%nat; c]), (fun c is => if (nth 0 is 0 =? c)%nat then 1 else 0). intros is Hv.
        destruct is as [|i [|j [|? ?]]]; try (apply valid_length in Hv; discriminate). inversion Hv as [|? ? ? ? Hi Hv']; subst. inversion Hv' as [|? ? ? ? Hj _]; subst.
        cbn [length seq filter existsb Nat.eqb orb negb sel map nth].
        destruct (le_lt_dec a j) as [Hle|Hlt].
        - rewrite VL, Qz by auto. rewrite rsum_zero_R; [ring|]. intros c Hc. destruct (Nat.eqb_spec j c); [lia|ring].
        - rewrite (rsum_ext_R a _ (fun c => if (c =? j)%nat then get L [i; c] else 0)); [rewrite rsum_delta_R by auto; auto|]. intros c Hc. rewrite (Nat.eqb_sym j c). destruct (c =? j)%nat; ring. }
      destruct (le_lt_dec a (mrank L)) as [|Hlt]; [lia|]. exfalso.
      destruct (proj1 (RK L K K SL (mrank L)) (le_n _)) as (f & g & Hfg). set (m := mrank L) in *.
      destruct (dependent m (fun c i => g i [c])) as (x & (k & Hk & Hx) & HD). apply Hx.
      assert (Z : (fun c => if (c <=? m)%nat then x c else 0) k = 0).
      { apply (INJ (fun c => if (c <=? m)%nat then x c else 0)); [|lia]. intros i Hi. transitivity (rsum (Datatypes.S m) (fun c => get L [i; c] * x c)).
        - assert (Ea : (a = Datatypes.S m + (a - Datatypes.S m))%nat) by lia. rewrite Ea, rsum_app_R. rewrite (rsum_zero_R (a - Datatypes.S m)).
          + rewrite Rplus_0_r. apply rsum_ext_R. intros c Hc. destruct (Nat.leb_spec c m); [auto|lia].
          + intros c Hc. destruct (Nat.leb_spec (Datatypes.S m + c) m); [lia|ring].
        - rewrite (rsum_ext_R _ _ (fun c => rsum m (fun p => f p [i] * (x c * g p [c])))).
          + rewrite rsum_swap_R. apply rsum_zero_R. intros p Hp. rewrite rsum_scal_l_R, HD by auto. ring.
          + intros c Hc. rewrite (Hfg [i; c]) by (apply Forall2_cons; [auto|]; apply Forall2_cons; [lia|]; apply Forall2_nil).
            cbn [length seq filter existsb Nat.eqb orb negb sel map nth]. rewrite <- rsum_scal_r_R. apply rsum_ext_R. intros. rcbn. ring. }
      cbv beta in Z. destruct (Nat.leb_spec k m); [auto|lia]. }
    exists a. split; auto. unfold orth_factors. rewrite ES. fold D. rewrite EL. cbn [bind]. cbv zeta. rewrite RA.
    assert (EGa : forall i j, (i < K)%nat -> (j < K)%nat -> get G [i; j] = rsum a (fun c => get L [i; c] * get L [j; c])).
    { intros i j Hi Hj. rewrite EG by auto. assert (Ea : (K = a + (K - a))%nat) by lia. rewrite Ea at 1. rewrite rsum_app_R, (rsum_zero_R (K - a)); [ring|]. intros c Hc. rewrite VL, Qz by lia. ring. }
    destruct (Nat.eqb_spec a 0) as [A0|A0].
    - left. split; auto. split; auto. intros i j Hi Hj. rewrite EGa by auto. rewrite A0. reflexivity.
    - right. split; [lia|]. rewrite HG. cbn [nth].
      destruct (Nat.eqb_spec a K) as [AK|AK]; cbn [negb].
      + (* full rank *)
        assert (ID : forall i j, (i < K)%nat -> (j < K)%nat -> rsum K (fun k => (fun i k => get U [k; i] / q i) i k * get L [k; j]) = if (i =? j)%nat then 1 else 0).
        { intros i j Hi Hj. cbv beta. pose proof (Qp i ltac:(lia)). rewrite (rsum_ext_R _ _ (fun k => (q j / q i) * (get U [k; i] * get U [k; j]))) by (intros k Hk; rewrite VL by auto; field; lra).
          rewrite rsum_scal_l_R, OU by auto. destruct (Nat.eqb_spec i j) as [->|]; [field; lra|ring]. }
        destruct (IC L K _ SL ID) as (Si & ESi). rewrite ESi. cbn [bind]. destruct (IV L Si ESi) as (n & S1 & S2 & _ & I2). rewrite SL in S1. inversion S1; subst n. exists L, Si. split; auto.
        rewrite AK in *. auto.
      + destruct (PI (take_cols L a) K a) as (SPi & E1 & _).
        { unfold take_cols. rewrite SL. cbn [shape nth]. f_equal. f_equal. lia. }
        exists (take_cols L a), (pinv (take_cols L a)). split; auto. split; [unfold take_cols; rewrite SL; cbn [shape nth]; f_equal; f_equal; lia|]. split; auto. split; auto.
        intros c d Hc Hd. change (get (take_cols L a)) with (get L) in *.
        assert (Q : (fun c => rsum K (fun k => get (pinv (take_cols L a)) [c; k] * get L [k; d]) - (if (c =? d)%nat then 1 else 0)) c = 0).
        { apply (INJ (fun c => rsum K (fun k => get (pinv (take_cols L a)) [c; k] * get L [k; d]) - (if (c =? d)%nat then 1 else 0))); auto. intros i Hi.
          transitivity (rsum a (fun c0 => get L [i; c0] * rsum K (fun k => get (pinv (take_cols L a)) [c0; k] * get L [k; d]) - (if (c0 =? d)%nat then get L [i; c0] else 0))); [apply rsum_ext_R; intros c0 Hc0; destruct (c0 =? d)%nat; ring|].
          rewrite rsum_minus_R, rsum_delta_R by auto. rewrite <- (E1 i d Hi Hd) at 1. apply Rminus_diag_eq.
          transitivity (rsum a (fun c0 => rsum K (fun k => get L [i; c0] * get (pinv (take_cols L a)) [c0; k] * get L [k; d]))).
          - apply rsum_ext_R. intros c0 _. rewrite <- rsum_scal_l_R. apply rsum_ext_R. intros. rcbn. ring.
          - rewrite rsum_swap_R. apply rsum_ext_R. intros k _. rewrite <- rsum_scal_r_R. apply rsum_ext_R. intros. rcbn. ring. }
        cbv beta in Q. lra.
  Qed.
End Factors.
