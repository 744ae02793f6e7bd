(** Singular values from the svd of a Gramian. *)
From Coq Require Import List Arith Lia Bool Reals Lra.
From Verif.Base Require Import ListAux CRing Index RealAux LinAlg.
From Verif.Model Require Import Numpy.
From Verif.Spec Require Import TensorSpec TruncatorSpec GramSpec PolySpec.
From Verif.Proofs Require Import NumpyP ProjP HsvdTreeP3 HsvdP2 TruncatorP3 PolyP5 SpectralP.
Import ListNotations.
Local Open Scope R_scope.

(** a matrix G = W^T W: its left singular vectors are eigenvectors *)
Section Eig.
  Variables (K : nat) (G : nat -> nat -> R) (U V : nat -> nat -> R) (s : nat -> R).
  Hypothesis Gsym : forall i j, (i < K)%nat -> (j < K)%nat -> G i j = G j i.
  Hypothesis Gpsd : forall x, 0 <= rsum K (fun i => x i * rsum K (fun j => G i j * x j)).
  Hypothesis s0 : forall c, (c < K)%nat -> 0 <= s c.
  Hypothesis UU : forall a b, (a < K)%nat -> (b < K)%nat -> rsum K (fun i => U i a * U i b) = if (a =? b)%nat then 1 else 0.
  Hypothesis VV : forall a b, (a < K)%nat -> (b < K)%nat -> rsum K (fun j => V a j * V b j) = if (a =? b)%nat then 1 else 0.
  Hypothesis GE : forall i j, (i < K)%nat -> (j < K)%nat -> G i j = rsum K (fun c => U i c * s c * V c j).
  Lemma G_V i c : (i < K)%nat -> (c < K)%nat -> rsum K (fun j => G i j * V c j) = s c * U i c.
  Proof.
    intros Hi Hc. transitivity (rsum K (fun j => rsum K (fun b => U i b * s b * (V b j * V c j)))).
    - apply rsum_ext_R. intros j Hj. rewrite GE by auto. rewrite <- rsum_scal_r_R. apply rsum_ext_R. intros; ring.
    - rewrite rsum_swap_R. transitivity (rsum K (fun b => if (b =? c)%nat then s b * U i b else 0)); [|apply rsum_delta_R; auto].
      apply rsum_ext_R. intros b Hb. rewrite rsum_scal_l_R, VV by auto. destruct (b =? c)%nat; ring.
  Qed.
  Lemma G_U i c : (i < K)%nat -> (c < K)%nat -> rsum K (fun j => G i j * U j c) = s c * V c i.
  Proof.
    intros Hi Hc. transitivity (rsum K (fun j => rsum K (fun b => V b i * s b * (U j b * U j c)))).
    - apply rsum_ext_R. intros j Hj. rewrite Gsym, GE by auto. rewrite <- rsum_scal_r_R. apply rsum_ext_R. intros; ring.
    - rewrite rsum_swap_R. transitivity (rsum K (fun b => if (b =? c)%nat then s b * V b i else 0)); [|apply rsum_delta_R; auto].
      apply rsum_ext_R. intros b Hb. rewrite rsum_scal_l_R, UU by auto. destruct (b =? c)%nat; ring.
  Qed.
  (** y = s V - s U vanishes *)
  Lemma sU_sV i c : (i < K)%nat -> (c < K)%nat -> s c * U i c = s c * V c i.
  Proof.
    intros Hi Hc. destruct (Req_dec (s c) 0) as [Z|NZ]; [rewrite Z; ring|].
    assert (SP : 0 < s c) by (pose proof (s0 c Hc); lra).
    set (y := fun j => V c j - U j c).
    assert (Gy : forall k, (k < K)%nat -> rsum K (fun j => G k j * y j) = - s c * y k).
    { intros k Hk. transitivity (rsum K (fun j => G k j * V c j + (-1) * (G k j * U j c))).
      - apply rsum_ext_R. intros. unfold y. ring.
      - rewrite rsum_plus_R, rsum_scal_l_R, G_V, G_U by auto. unfold y. ring. }
    pose proof (Gpsd y) as P.
    assert (E : rsum K (fun k => y k * rsum K (fun j => G k j * y j)) = - s c * rsum K (fun k => y k * y k)).
    { rewrite <- rsum_scal_l_R. apply rsum_ext_R. intros k Hk. rewrite Gy by auto. ring. }
    rewrite E in P. assert (N : 0 <= rsum K (fun k => y k * y k)) by (apply rsum_nonneg; intros; nra).
    assert (Z0 : rsum K (fun k => y k * y k) = 0) by nra.
    assert (Y : y i = 0) by (apply (dotp_zero K y Z0 i Hi)). unfold y in Y. replace (V c i) with (U i c) by lra. reflexivity.
  Qed.
  Lemma G_eig i j : (i < K)%nat -> (j < K)%nat -> G i j = rsum K (fun c => U i c * s c * U j c).
  Proof. intros Hi Hj. rewrite GE by auto. apply rsum_ext_R. intros c Hc. pose proof (sU_sV j c Hj Hc) as E. rewrite !Rmult_assoc, E. reflexivity. Qed.
End Eig.

(** a Gramian G with  T T^T = V G V^T, V orthonormal: the left singular vectors of G give those of T *)
Section Box.
  Variable svd : nd R -> nd R * list R * nd R.
  Hypothesis SVD : svd_contract svd.
  Variables (s s2 : list nat) (T : list nat -> list nat -> R) (K : nat) (v : list nat -> nat -> R) (G : nd R).
  Hypothesis SG : shape G = [K; K].
  Hypothesis VO : forall k l, (k < K)%nat -> (l < K)%nat -> bsum s (fun x => v x k * v x l) = if (k =? l)%nat then 1 else 0.
  Hypothesis TG : forall x y, valid s x -> valid s y ->
    bsum s2 (fun z => T x z * T y z) = rsum K (fun k => rsum K (fun l => v x k * get G [k; l] * v y l)).
  Definition boxW (k : nat) (z : list nat) : R := bsum s (fun x => v x k * T x z).
  Lemma box_pick k (f : nat -> R) : (k < K)%nat -> bsum s (fun x => v x k * rsum K (fun l => v x l * f l)) = f k.
  Proof.
    intros Hk. rewrite (bsum_ext_R _ _ (fun x => rsum K (fun l => v x k * v x l * f l))).
    2:{ intros. rewrite <- rsum_scal_l_R. apply rsum_ext_R. intros; ring. }
    rewrite bsum_rsum_exchange. change (rsum K (fun l => bsum s (fun x => v x k * v x l * f l)) = f k).
    transitivity (rsum K (fun l => if (l =? k)%nat then f l else 0)); [|apply rsum_delta_R; auto].
    apply rsum_ext_R. intros l Hl. rewrite bsum_scal_r_R, VO by auto. rewrite Nat.eqb_sym. destruct (l =? k)%nat; ring.
  Qed.
  Lemma box_G k l : (k < K)%nat -> (l < K)%nat -> get G [k; l] = bsum s2 (fun z => boxW k z * boxW l z).
  Proof.
    intros Hk Hl. transitivity (bsum s (fun x => v x k * bsum s (fun y => v y l * bsum s2 (fun z => T x z * T y z)))).
    - rewrite (bsum_ext_R _ _ (fun x => v x k * rsum K (fun k' => v x k' * get G [k'; l]))).
      + symmetry. apply (box_pick k (fun k' => get G [k'; l]) Hk).
      + intros x Hx. f_equal. rewrite (bsum_ext_R _ _ (fun y => v y l * rsum K (fun l' => v y l' * rsum K (fun k' => v x k' * get G [k'; l'])))).
        * rewrite (box_pick l (fun l' => rsum K (fun k' => v x k' * get G [k'; l'])) Hl). reflexivity.
        * intros y Hy. f_equal. rewrite TG by auto. rewrite rsum_swap_R. apply rsum_ext_R. intros l' _. rewrite <- rsum_scal_l_R. apply rsum_ext_R. intros. ring.
    - unfold boxW.
      rewrite (bsum_ext_R s _ (fun x => bsum s2 (fun z => bsum s (fun y => v x k * T x z * (v y l * T y z))))).
      + rewrite bsum_exchange_R. apply bsum_ext_R. intros z _. rewrite <- bsum_scal_r_R. apply bsum_ext_R. intros x _. rewrite <- bsum_scal_l_R. reflexivity.
      + intros x _. rewrite <- bsum_scal_l_R. rewrite bsum_exchange_R. apply bsum_ext_R. intros y _. rewrite <- !bsum_scal_l_R. apply bsum_ext_R. intros; ring.
  Qed.
  Lemma box_G_sym i j : (i < K)%nat -> (j < K)%nat -> get G [i; j] = get G [j; i].
  Proof. intros Hi Hj. rewrite !box_G by auto. apply bsum_ext_R. intros; ring. Qed.
  Lemma box_G_psd x : 0 <= rsum K (fun i => x i * rsum K (fun j => get G [i; j] * x j)).
  Proof.
    replace (rsum K (fun i => x i * rsum K (fun j => get G [i; j] * x j))) with (bsum s2 (fun z => rsum K (fun i => x i * boxW i z) * rsum K (fun j => x j * boxW j z))).
    { apply bsum_nonneg. intros z _. nra. }
    rewrite (bsum_ext_R _ _ (fun z => rsum K (fun i => rsum K (fun j => x i * x j * (boxW i z * boxW j z))))).
    2:{ intros z _. rewrite <- rsum_scal_r_R. apply rsum_ext_R. intros i _. rewrite <- rsum_scal_l_R. apply rsum_ext_R. intros; ring. }
    rewrite bsum_rsum_exchange. apply rsum_ext_R. intros i Hi. rewrite bsum_rsum_exchange. rewrite <- rsum_scal_l_R. apply rsum_ext_R. intros j Hj.
    rewrite bsum_scal_l_R, <- box_G by auto. ring.
  Qed.
  Definition uvec (k : nat) (x : list nat) : R := rsum K (fun l => v x l * get (fst (fst (svd G))) [l; k]).
  Lemma box_basic : let sv := map sqrt (snd (fst (svd G))) in length sv = K /\
    Forall (fun s => 0 <= s) sv /\
    (forall i j, (i <= j)%nat -> (j < length sv)%nat -> nth j sv 0 <= nth i sv 0) /\
    (forall a b, (a < length sv)%nat -> (b < length sv)%nat -> bsum s (fun x => uvec a x * uvec b x) = if (a =? b)%nat then 1 else 0).
  Proof.
    cbv zeta. destruct (SVD G K K SG) as (_ & LS & _ & S0 & SM & UU & VV & GE). rewrite Nat.min_id in *. unfold uvec. set (sg := snd (fst (svd G))) in *. set (U := fst (fst (svd G))) in *. set (Vm := snd (svd G)) in *.
    assert (NS : forall k, (k < K)%nat -> nth k (map sqrt sg) 0 = sqrt (nth k sg 0)) by (intros k Hk; rewrite map_nth_in with (da := 0) by lia; reflexivity).
    rewrite map_length, LS. split; [auto|]. split.
    { apply Forall_forall. intros x Hx. apply in_map_iff in Hx. destruct Hx as (y & <- & _). apply sqrt_pos. }
    split.
    { intros i j Hij Hj. rewrite !NS by lia. apply sqrt_le_1_alt. apply SM; auto. }
    - intros a b Ha Hb. rewrite <- UU by auto.
      rewrite (bsum_ext_R _ _ (fun x => rsum K (fun l => v x l * rsum K (fun m => v x m * get U [m; b]) * get U [l; a]))).
      2:{ intros x _. rewrite <- rsum_scal_r_R. apply rsum_ext_R. intros; ring. }
      rewrite bsum_rsum_exchange. apply rsum_ext_R. intros l Hl. rewrite bsum_scal_r_R, (box_pick l (fun m => get U [m; b]) Hl). ring.
  Qed.
  Lemma box_main : let sv := map sqrt (snd (fst (svd G))) in
      forall x y, valid s x -> valid s y ->
        bsum s2 (fun z => T x z * T y z) = rsum (length sv) (fun k => uvec k x * (nth k sv 0 * nth k sv 0) * uvec k y).
  Proof.
    cbv zeta. destruct (SVD G K K SG) as (_ & LS & _ & S0 & SM & UU & VV & GE). rewrite Nat.min_id in *. unfold uvec. set (sg := snd (fst (svd G))) in *. set (U := fst (fst (svd G))) in *. set (Vm := snd (svd G)) in *.
    assert (NS : forall k, (k < K)%nat -> nth k (map sqrt sg) 0 = sqrt (nth k sg 0)) by (intros k Hk; rewrite map_nth_in with (da := 0) by lia; reflexivity).
    rewrite map_length, LS.
    - intros x y Hx Hy. rewrite TG by auto.
      assert (EG : forall i j, (i < K)%nat -> (j < K)%nat -> get G [i; j] = rsum K (fun c => get U [i; c] * nth c sg 0 * get U [j; c])).
      { apply (G_eig K (fun i j => get G [i; j]) (fun i c => get U [i; c]) (fun c j => get Vm [c; j]) (fun c => nth c sg 0)); auto using box_G_sym, box_G_psd. }
      transitivity (rsum K (fun k => rsum K (fun l => rsum K (fun c => v x k * get U [k; c] * nth c sg 0 * (v y l * get U [l; c]))))).
      { apply rsum_ext_R. intros k Hk. apply rsum_ext_R. intros l Hl. rewrite EG by auto. rewrite <- rsum_scal_l_R, <- rsum_scal_r_R. apply rsum_ext_R. intros; ring. }
      rewrite (rsum_ext_R K _ (fun k => rsum K (fun c => v x k * get U [k; c] * nth c sg 0 * rsum K (fun l => v y l * get U [l; c])))).
      2:{ intros k _. rewrite rsum_swap_R. apply rsum_ext_R. intros c _. rewrite <- rsum_scal_l_R. reflexivity. }
      rewrite rsum_swap_R. apply rsum_ext_R. intros c Hc. rewrite NS by auto. rewrite sqrt_sqrt by auto. rewrite <- !rsum_scal_r_R. apply rsum_ext_R. intros; ring.
  Qed.
End Box.
