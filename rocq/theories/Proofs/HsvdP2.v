(** Truncator.hsvd of a FullTensor: the error of one step, the value of one step, the order of the nodes. *)
From Coq Require Import List Arith Lia Bool Reals Lra.
From Verif.Base Require Import ListAux CRing Index RealAux.
From Verif.Model Require Import Sorting Numpy FullTensor Diagonal Canonical DimensionTree TreeBased Truncator HSVD.
From Verif.Spec Require Import TensorSpec TreeSpec TreeTensorSpec TruncatorSpec.
From Verif.Proofs Require Import NumpyP FullTensorP FullTensorP4 DimTreeP TreeTensorP TreeTensorP4 TreeTensorP14 TreeTensorP17 TruncatorP TruncatorP2 TruncatorP3 TruncatorP4 FunctionalP4 ProjP PolyP5 HsvdP.
Import ListNotations.
Local Open Scope R_scope.

Lemma bsum_ext_R s (f g : list nat -> R) : (forall is, valid s is -> f is = g is) -> bsum s f = bsum s g.
Proof. apply bsum_ext. Qed.
Lemma bsum_scal_l_R s (c : R) (f : list nat -> R) : bsum s (fun is => c * f is) = c * bsum s f.
Proof. exact (bsum_scal_l s c f). Qed.
Lemma bsum_scal_r_R s (c : R) (f : list nat -> R) : bsum s (fun is => f is * c) = bsum s f * c.
Proof. exact (bsum_scal_r s c f). Qed.
Lemma bsum_plus_R s : forall (f g : list nat -> R), bsum s (fun is => f is + g is) = bsum s f + bsum s g.
Proof. induction s as [|n s IH]; intros f g; cbn [bsum]; auto. rewrite <- rsum_plus_R. apply rsum_ext_R. intros. apply IH. Qed.
Lemma bsum_minus_R s : forall (f g : list nat -> R), bsum s (fun is => f is - g is) = bsum s f - bsum s g.
Proof. induction s as [|n s IH]; intros f g; cbn [bsum]; auto. rewrite <- rsum_minus_R. apply rsum_ext_R. intros. apply IH. Qed.
Lemma bsum_rsum_exchange_R s m (f : list nat -> nat -> R) : bsum s (fun a => rsum m (fun b => f a b)) = rsum m (fun b => bsum s (fun a => f a b)).
Proof. apply bsum_rsum_exchange. Qed.
Lemma bsum_exchange_R s s' (f : list nat -> list nat -> R) : bsum s (fun a => bsum s' (fun b => f a b)) = bsum s' (fun b => bsum s (fun a => f a b)).
Proof. apply bsum_exchange. Qed.
Lemma bsum_nonneg_R s : forall (f : list nat -> R), (forall is, valid s is -> 0 <= f is) -> 0 <= bsum s f.
Proof.
  induction s as [|n s IH]; intros f H; cbn [bsum]; [apply H; constructor|]. apply rsum_nonneg. intros i Hi. apply IH. intros is His. apply H. constructor; auto.
Qed.

(** approximating y by a combination of orthonormal columns *)
Lemma pyth_cols sr k (c : list nat -> nat -> R) (y : list nat -> R) (g : nat -> R) :
  (forall a b, (a < k)%nat -> (b < k)%nat -> bsum sr (fun ks => c ks a * c ks b) = if (a =? b)%nat then 1 else 0) ->
  let h := fun a => bsum sr (fun ks => c ks a * y ks) in
  bsum sr (fun ks => (y ks - rsum k (fun a => c ks a * g a)) * (y ks - rsum k (fun a => c ks a * g a)))
  = bsum sr (fun ks => y ks * y ks) - rsum k (fun a => h a * h a) + rsum k (fun a => (h a - g a) * (h a - g a)).
Proof.
  intros HO h.
  assert (E1 : bsum sr (fun ks => y ks * rsum k (fun a => c ks a * g a)) = rsum k (fun a => h a * g a)).
  { transitivity (bsum sr (fun ks => rsum k (fun a => (c ks a * y ks) * g a))).
    - apply bsum_ext_R. intros ks _. rewrite <- rsum_scal_l_R. apply rsum_ext_R. intros. ring.
    - rewrite bsum_rsum_exchange_R. apply rsum_ext_R. intros a _. apply bsum_scal_r_R. }
  assert (E2 : bsum sr (fun ks => rsum k (fun a => c ks a * g a) * rsum k (fun a => c ks a * g a)) = rsum k (fun a => g a * g a)).
  { transitivity (bsum sr (fun ks => rsum k (fun a => rsum k (fun b => (g a * g b) * (c ks a * c ks b))))).
    - apply bsum_ext_R. intros ks _. rewrite <- rsum_scal_r_R. apply rsum_ext_R. intros a _. rewrite <- rsum_scal_l_R. apply rsum_ext_R. intros. ring.
    - rewrite bsum_rsum_exchange_R. apply rsum_ext_R. intros a Ha. rewrite bsum_rsum_exchange_R.
      transitivity (rsum k (fun b => g a * g b * (if (a =? b)%nat then 1 else 0))).
      { apply rsum_ext_R. intros b Hb. rewrite bsum_scal_l_R, HO by auto. auto. }
      rewrite (rsum_single k a) by (auto; intros b Hb Hne; rewrite (proj2 (Nat.eqb_neq a b)) by auto; rcbn; ring). rewrite Nat.eqb_refl. rcbn. ring. }
  transitivity (bsum sr (fun ks => y ks * y ks) - 2 * rsum k (fun a => h a * g a) + rsum k (fun a => g a * g a)).
  - rewrite <- E1, <- E2, <- bsum_scal_l_R, <- bsum_minus_R, <- bsum_plus_R. apply bsum_ext_R. intros. ring.
  - rewrite <- rsum_scal_l_R. replace (rsum k (fun a => (h a - g a) * (h a - g a))) with (rsum k (fun a => h a * h a) - rsum k (fun a => 2 * (h a * g a)) + rsum k (fun a => g a * g a)); [ring|].
    rewrite <- rsum_minus_R, <- rsum_plus_R. apply rsum_ext_R. intros. ring.
Qed.

(** one step: the nodes nx, of sizes h, are the axes of Y; the nodes L are merged *)
Section Step.
  Variables (nx L : list nat) (h : nat -> nat) (es : list nat) (k : nat).
  Variables (Y Y' C : nd R) (G' : list nat -> R).
  Hypothesis NDx : NoDup nx.
  Hypothesis NDL : NoDup L.
  Hypothesis HI : incl L nx.
  Notation pos c := (index_of c nx).
  Notation rep := (map (fun c => index_of c nx) L).
  Notation rest := (filter (fun c => negb (inb c L)) nx).
  Hypothesis SY : shape Y = map h nx ++ es.
  Hypothesis SY' : shape Y' = map h rest ++ k :: es.
  Hypothesis HO : forall a b, (a < k)%nat -> (b < k)%nat -> bsum (map h L) (fun ks => get C (ks ++ [a]) * get C (ks ++ [b])) = if (a =? b)%nat then 1 else 0.
  Hypothesis HG : forall kc a e, valid (map h rest) kc -> (a < k)%nat -> valid es e ->
       get Y' (kc ++ a :: e) = bsum (map h L) (fun ks => get C (ks ++ [a]) * get Y (asm (length nx) rep ks kc ++ e)).

  Lemma rest_incl : incl rest nx.
  Proof. intros x Hx. apply filter_In in Hx. destruct Hx as [Hx _]. exact Hx. Qed.
  Lemma srep : sel 0%nat (map h nx) rep = map h L.
  Proof. rewrite <- (app_nil_r (map h nx)). apply sel_pos. auto. Qed.
  Lemma crep : compl (length nx) rep = map (fun c => index_of c nx) rest.
  Proof. apply (compl_pos nx NDx L HI). Qed.
  Lemma scomp : sel 0%nat (map h nx) (compl (length nx) rep) = map h rest.
  Proof. rewrite crep. rewrite <- (app_nil_r (map h nx)). apply sel_pos. apply rest_incl. Qed.
  Lemma bsum_nx (f : list nat -> R) : bsum (map h nx) f = bsum (map h rest) (fun kc => bsum (map h L) (fun ks => f (asm (length nx) rep ks kc))).
  Proof.
    rewrite (bsum_asm (map h nx) rep f); [|apply pos_inj; auto|rewrite map_length; apply pos_lt; auto].
    rewrite map_length, srep, scomp. apply bsum_exchange_R.
  Qed.
  Lemma sel_nx : sel 0%nat nx (compl (length nx) rep) = rest.
  Proof.
    rewrite crep. rewrite <- (map_id nx) at 1. rewrite <- (app_nil_r (map (fun c => c) nx)). rewrite sel_pos by apply rest_incl. apply map_id.
  Qed.

  (** what becomes of an approximation G' of Y' *)
  Definition lift (z : list nat) : R :=
    rsum k (fun a => get C (sel 0%nat z rep ++ [a]) * G' (sel 0%nat z (compl (length nx) rep) ++ a :: skipn (length nx) z)).
  Lemma lift_asm ks kc e : valid (map h L) ks -> valid (map h rest) kc ->
    lift (asm (length nx) rep ks kc ++ e) = rsum k (fun a => get C (ks ++ [a]) * G' (kc ++ a :: e)).
  Proof.
    intros Hk Hc. pose proof (valid_length _ _ Hk) as L1. pose proof (valid_length _ _ Hc) as L2. rewrite map_length in L1, L2. unfold lift.
    assert (HF : Forall (fun j => (j < length (asm (length nx) rep ks kc))%nat) rep) by (rewrite asm_length; apply pos_lt; auto).
    assert (HF2 : Forall (fun j => (j < length (asm (length nx) rep ks kc))%nat) (compl (length nx) rep)) by (rewrite asm_length; apply compl_lt).
    rewrite !sel_app_l by auto.
    rewrite sel_asm, sel_asm_compl; [|rewrite crep, map_length; auto|apply pos_inj; auto|apply pos_lt; auto|rewrite map_length; auto].
    rewrite skipn_app, asm_length, Nat.sub_diag, skipn_O, skipn_all2 by (rewrite asm_length; auto). auto.
  Qed.
  Lemma err_step : bsum (shape Y) (fun z => (get Y z - lift z) * (get Y z - lift z))
    = frob2 Y - frob2 Y' + bsum (shape Y') (fun z => (get Y' z - G' z) * (get Y' z - G' z)).
  Proof.
    assert (Q : forall f, bsum (shape Y) f = bsum (map h rest) (fun kc => bsum es (fun e => bsum (map h L) (fun ks => f (asm (length nx) rep ks kc ++ e))))).
    { intros f. rewrite SY, bsum_app, bsum_nx. apply bsum_ext_R. intros kc _. apply bsum_exchange_R. }
    assert (Q' : forall f, bsum (shape Y') f = bsum (map h rest) (fun kc => bsum es (fun e => rsum k (fun a => f (kc ++ a :: e))))).
    { intros f. rewrite SY', bsum_app. apply bsum_ext_R. intros kc _. cbn [bsum]. rewrite bsum_rsum_exchange_R. auto. }
    unfold frob2. rewrite !Q, !Q'. rewrite <- bsum_minus_R, <- bsum_plus_R. apply bsum_ext_R. intros kc Hc. rewrite <- bsum_minus_R, <- bsum_plus_R. apply bsum_ext_R. intros e He.
    transitivity (bsum (map h L) (fun ks => (get Y (asm (length nx) rep ks kc ++ e) - rsum k (fun a => get C (ks ++ [a]) * G' (kc ++ a :: e))) * (get Y (asm (length nx) rep ks kc ++ e) - rsum k (fun a => get C (ks ++ [a]) * G' (kc ++ a :: e))))).
    { apply bsum_ext_R. intros ks Hk. rewrite lift_asm by auto. auto. }
    rewrite (pyth_cols (map h L) k (fun ks a => get C (ks ++ [a])) (fun ks => get Y (asm (length nx) rep ks kc ++ e)) (fun a => G' (kc ++ a :: e)) HO).
    f_equal; [f_equal|]; apply rsum_ext_R; intros a Ha; rewrite HG by auto; auto.
  Qed.
  (** the value of the lifted tensor on a rank-one tensor *)
  Lemma val_step (w : nat -> nat -> R) n e :
    bsum (map h nx) (fun ks => lift (ks ++ e) * lprod (combine nx ks) (fun p => w (fst p) (snd p)))
    = bsum (map h rest ++ [k]) (fun ks => G' (ks ++ e) * lprod (combine (rest ++ [n]) ks)
        (fun p => if (fst p =? n)%nat then bsum (map h L) (fun ls => get C (ls ++ [snd p]) * lprod (combine L ls) (fun q => w (fst q) (snd q))) else w (fst p) (snd p)))
    \/ In n rest.
  Proof.
    destruct (in_dec Nat.eq_dec n rest) as [Hn|Hn]; [auto|left].
    rewrite bsum_nx, bsum_app. apply bsum_ext_R. intros kc Hc. pose proof (valid_length _ _ Hc) as L2. rewrite map_length in L2.
    transitivity (rsum k (fun a => bsum (map h L) (fun ks => (G' (kc ++ a :: e) * lprod (combine rest kc) (fun p => w (fst p) (snd p))) * (get C (ks ++ [a]) * lprod (combine L ks) (fun p => w (fst p) (snd p)))))).
    - rewrite <- bsum_rsum_exchange_R. apply bsum_ext_R. intros ks Hk. pose proof (valid_length _ _ Hk) as L1. rewrite map_length in L1.
      rewrite lift_asm by auto. rewrite (lprod_split nx h Y es NDx SY w L ks kc) by auto. cbv beta. rewrite <- rsum_scal_r_R. apply rsum_ext_R. intros a Ha. rcbn. ring.
    - cbn [bsum]. apply rsum_ext_R. intros a Ha. rewrite bsum_scal_l_R. rewrite <- app_assoc. cbn [app].
      rewrite (TreeTensorP2.combine_app rest [n] kc [a]) by auto. rewrite lprod_app. cbn [combine lprod fst snd]. rewrite Nat.eqb_refl.
      rewrite (lprod_ext (combine rest kc) (fun p => if (fst p =? n)%nat then bsum (map h L) (fun ls => get C (ls ++ [snd p]) * lprod (combine L ls) (fun q => w (fst q) (snd q))) else w (fst p) (snd p)) (fun p => w (fst p) (snd p))).
      + rcbn. ring.
      + intros [x y] Hp. cbn [fst snd]. apply in_combine_l in Hp. destruct (Nat.eqb_spec x n); [subst; contradiction|auto].
  Qed.
End Step.

(** the order of the loop *)
Section Order.
  Variables (tr : dtree) (r : nat).
  Hypothesis T : rooted_tree tr r.
  Lemma hsvd_bottom_up : bottom_up tr = hsvd_nodes tr ++ [r].
  Proof.
    unfold bottom_up, hsvd_nodes. cbn [seq]. cbn [rev]. rewrite flat_map_app. f_equal. cbn [flat_map]. rewrite app_nil_r.
    unfold nodes_with_level.
    assert (Hr : In r (nodes tr)) by (apply in_nodes, T).
    assert (HN : NoDup (filter (fun n => (level tr n =? 0)%nat) (nodes tr))) by (apply NoDup_filter', NoDup_nodes).
    assert (Hin : forall x, In x (filter (fun n => (level tr n =? 0)%nat) (nodes tr)) <-> x = r).
    { intros x. rewrite filter_In, Nat.eqb_eq, in_nodes. split; [intros [H1 H2]; apply (level_zero tr r T); auto|]. intros ->. split; [apply T|apply (level_root tr r T)]. }
    destruct (filter _ (nodes tr)) as [|a [|b l]].
    - exfalso. apply (Hin r). auto.
    - f_equal. apply Hin. simpl. auto.
    - exfalso. inversion HN as [|? ? Hn _]. apply Hn. rewrite (proj1 (Hin a)), <- (proj1 (Hin b)); simpl; auto.
  Qed.
  Lemma in_hsvd_nodes n : In n (hsvd_nodes tr) <-> node tr n /\ n <> r.
  Proof.
    pose proof (NoDup_bottom_up tr) as N. pose proof (in_bottom_up tr r T n) as B. rewrite hsvd_bottom_up in N, B. apply NoDup_remove in N. rewrite app_nil_r in N. destruct N as [_ N].
    rewrite in_app_iff in B. cbn [In] in B. split.
    - intros H. split; [tauto|]. intros ->. auto.
    - intros [H1 H2]. destruct (proj2 B H1) as [H|[H|[]]]; auto. congruence.
  Qed.
  Lemma NoDup_hsvd_nodes : NoDup (hsvd_nodes tr).
  Proof. pose proof (NoDup_bottom_up tr) as N. rewrite hsvd_bottom_up in N. apply NoDup_remove in N. rewrite app_nil_r in N. tauto. Qed.
  Lemma hsvd_topo l1 n l2 c : hsvd_nodes tr = l1 ++ n :: l2 -> edge tr n c -> In c l1.
  Proof. intros E He. apply (topo_bottom_up tr r T l1 n (l2 ++ [r])); auto. rewrite hsvd_bottom_up, E, <- app_assoc. auto. Qed.
  Lemma hsvd_topo' l1 n l2 : hsvd_nodes tr = l1 ++ n :: l2 -> In (parent tr n) l2 \/ parent tr n = r.
  Proof.
    intros E. assert (Hn : In n (hsvd_nodes tr)) by (rewrite E; apply in_or_app; simpl; auto). apply in_hsvd_nodes in Hn. destruct Hn as [Hn Hr].
    pose proof (parent_is_edge tr r T n Hn Hr) as He. destruct (Nat.eq_dec (parent tr n) r) as [|NE]; auto. left.
    assert (Hp : In (parent tr n) (hsvd_nodes tr)) by (apply in_hsvd_nodes; split; auto; apply He).
    pose proof NoDup_hsvd_nodes as N. rewrite E in N. rewrite E in Hp. apply in_app_or in Hp. destruct Hp as [Hp|[Hp|Hp]]; auto.
    - exfalso. apply in_split in Hp. destruct Hp as (a & b & ->). rewrite <- app_assoc in E. cbn [app] in E. pose proof (hsvd_topo a _ _ n E He) as K.
      apply NoDup_remove_2 in N. apply N. apply in_or_app. left. apply in_or_app. auto.
    - exfalso. rewrite <- Hp in He. pose proof (level_edge tr r T n n He). lia.
  Qed.
End Order.
