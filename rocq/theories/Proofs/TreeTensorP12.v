(** Tree-based tensors: scalar products. *)
From Coq Require Import List Arith Lia Bool ZArith Ring Permutation.
From Verif.Base Require Import ListAux CRing Index.
From Verif.Model Require Import Sorting Numpy FullTensor DimensionTree TreeBased.
From Verif.Spec Require Import TensorSpec TreeSpec TreeTensorSpec.
From Verif.Proofs Require Import NumpyP FullTensorP FullTensorP2 FullTensorP3 FullTensorP4 DimTreeP DimTreeP2 DimTreeP3 TreeTensorP TreeTensorP2 TreeTensorP3 TreeTensorP4 TreeTensorP5 TreeTensorP6 TreeTensorP7 TreeTensorP8 TreeTensorP9 TreeTensorP10 TreeTensorP11.
Import ListNotations.

Lemma filter_all' {A} (f : A -> bool) l : (forall x, In x l -> f x = true) -> filter f l = l.
Proof. induction l as [|a l IH]; simpl; intros H; auto. rewrite H by auto. f_equal. auto. Qed.

Section Front.
  Context {R : Type} {CR : CRing R}.
  Add Ring Rrfr : rth.
  Local Open Scope cr_scope.
  Lemma sel_front (s e : list nat) : sel 0%nat (s ++ e) (seq 0 (length s)) = s.
  Proof. rewrite sel_app_l; [apply sel_seq|]. apply Forall_forall. intros x Hx. apply in_seq in Hx. lia. Qed.
  Lemma put_front (a s e : list nat) : length a = length s -> put (seq 0 (length s)) a (s ++ e) = a ++ e.
  Proof.
    intros L. rewrite put_app_l; [|apply Forall_forall; intros x Hx; apply in_seq in Hx; lia]. rewrite put_all; auto.
  Qed.
  Lemma compl_front n m : (n <= m)%nat -> compl m (seq 0 n) = seq n (m - n).
  Proof.
    intros H. unfold compl. replace m with (n + (m - n))%nat at 1 by lia. rewrite seq_app, filter_app. cbn [plus].
    assert (E1 : filter (fun k => negb (inb k (seq 0 n))) (seq 0 n) = []).
    { apply filter_none. intros k Hk. apply negb_false_iff, inb_spec. auto. }
    rewrite E1. cbn [app]. apply filter_all'. intros k Hk. apply negb_true_iff. destruct (inb k (seq 0 n)) eqn:E; auto. apply inb_spec in E.
    apply in_seq in E. apply in_seq in Hk. lia.
  Qed.
  Lemma sel_back (s e : list nat) : sel 0%nat (s ++ e) (seq (length s) (length e)) = e.
  Proof.
    apply nth_ext' with (d := 0%nat); [rewrite sel_length, seq_length; auto|]. rewrite sel_length, seq_length. intros k Hk.
    unfold sel. rewrite map_nth_in with (da := 0%nat) by (rewrite seq_length; auto). rewrite seq_nth by auto. rewrite app_nth2 by lia. f_equal. lia.
  Qed.
  Lemma tmp_front (A : nd R) Ms s1 s2 : shape A = s1 ++ s2 -> length Ms = length s1 ->
    (forall k, (k < length s1)%nat -> exists m, shape (nth k Ms (scalar r0)) = [m; nth k s1 0%nat]) ->
    exists C, ft_tensor_matrix_product A Ms (Some (seq 0 (length s1))) = Some C /\ shape C = map mrows Ms ++ s2 /\
      forall a b, valid (map mrows Ms) a -> valid s2 b -> get C (a ++ b) = bsum s1 (fun js => get A (js ++ b) * factors Ms a js).
  Proof.
    intros Hs HL HM. assert (Hn : ndim A = (length s1 + length s2)%nat) by (unfold ndim; rewrite Hs, app_length; auto).
    destruct (ft_tensor_matrix_product_spec A Ms (seq 0 (length s1))) as (C & HC & HsC & HgC).
    - apply seq_NoDup.
    - apply Forall_forall. intros x Hx. apply in_seq in Hx. lia.
    - rewrite seq_length. auto.
    - rewrite seq_length. intros k Hk. rewrite seq_nth by auto. cbn [plus]. destruct (HM k Hk) as (m & Hm). exists m. rewrite Hs, app_nth1 by auto. auto.
    - change (map (fun M => nth 0 (shape M) 0%nat) Ms) with (map mrows Ms) in HsC, HgC.
      rewrite Hs, put_front in HsC, HgC by (rewrite map_length; auto). rewrite sel_front in HgC. exists C. split; auto. split; auto.
      intros a b Ha Hb. rewrite HgC by (apply valid_app; auto).
      assert (La : length a = length s1) by (rewrite (valid_length _ _ Ha), map_length; auto).
      rewrite <- La. rewrite sel_front. apply bsum_ext. intros js Hj. rewrite put_front; auto. rewrite (valid_length _ _ Hj). auto.
  Qed.
  Lemma td_front (A B : nd R) s sa sb : shape A = s ++ sa -> shape B = s ++ sb ->
    exists C, ft_tensordot A B (seq 0 (length s)) (seq 0 (length s)) = Some C /\ shape C = sa ++ sb /\
      forall a b, valid sa a -> valid sb b -> get C (a ++ b) = bsum s (fun ks => get A (ks ++ a) * get B (ks ++ b)).
  Proof.
    intros HA HB. assert (NA : ndim A = (length s + length sa)%nat) by (unfold ndim; rewrite HA, app_length; auto).
    assert (NB : ndim B = (length s + length sb)%nat) by (unfold ndim; rewrite HB, app_length; auto).
    destruct (ft_tensordot_spec A B (seq 0 (length s)) (seq 0 (length s))) as (C & HC & HsC & HgC); auto using seq_NoDup.
    - apply Forall_forall. intros x Hx. apply in_seq in Hx. lia.
    - apply Forall_forall. intros x Hx. apply in_seq in Hx. lia.
    - rewrite HA, HB, !sel_front. auto.
    - rewrite !compl_front in HsC, HgC by lia. replace (ndim A - length s)%nat with (length sa) in * by lia. replace (ndim B - length s)%nat with (length sb) in * by lia.
      rewrite HA, HB, !sel_back in HsC, HgC. exists C. split; auto. split; auto. intros a b Ha Hb. rewrite HgC by auto.
      rewrite sel_front. apply bsum_ext. intros ks Hk.
      assert (G : forall n u, n = (length s + length u)%nat -> asm n (seq 0 (length s)) ks u = ks ++ u).
      { intros n u En. assert (Lk : length ks = length s) by (apply (valid_length _ _ Hk)).
        rewrite <- (sel_back ks u) at 1. rewrite Lk. replace (seq (length s) (length u)) with (compl n (seq 0 (length s))) by (rewrite compl_front by lia; f_equal; lia).
        rewrite put_asm.
        - rewrite <- Lk. rewrite put_front; auto.
        - rewrite app_length. lia.
        - apply seq_NoDup.
        - apply Forall_forall. intros x Hx. apply in_seq in Hx. lia.
        - rewrite seq_length. auto. }
      rewrite !G; auto; rewrite ?(valid_length _ _ Ha), ?(valid_length _ _ Hb); auto.
  Qed.
End Front.

(** sums over the values of some of the dimensions of two multi-indices *)
Section Psum.
  Context {R : Type} {CR : CRing R}.
  Add Ring Rrps : rth.
  Local Open Scope cr_scope.
  Variables (sX sY : nat -> nat) (M : nat -> nat -> nat -> R) (N : nat).
  Fixpoint psum (ds : list nat) (f : list nat -> list nat -> R) (is js : list nat) : R :=
    match ds with
    | [] => f is js
    | d :: ds' => rsum (sX d) (fun i => rsum (sY d) (fun j => M d i j * psum ds' f (upd d i is) (upd d j js)))
    end.
  Definition agree (E : list nat) (is is' : list nat) : Prop := forall d, In d E -> nth d is 0%nat = nth d is' 0%nat.
  Definition local (E : list nat) (f : list nat -> list nat -> R) : Prop :=
    forall is is' js js', length is = N -> length is' = N -> length js = N -> length js' = N -> agree E is is' -> agree E js js' -> f is js = f is' js'.
  Lemma agree_upd E is is' d i : (d < length is)%nat -> length is = length is' -> agree E is is' -> agree (d :: E) (upd d i is) (upd d i is').
  Proof.
    intros Hd L H x Hx. destruct (Nat.eq_dec x d) as [->|Hne].
    - rewrite !nth_upd_eq by lia. auto.
    - rewrite !nth_upd_neq by auto. destruct Hx as [->|Hx]; [contradiction|]. auto.
  Qed.
  Lemma local_incl E F f : incl E F -> local E f -> local F f.
  Proof. intros Hi H is is' js js' L1 L2 L3 L4 H1 H2. apply H; auto; intros d Hd; auto. Qed.
  Lemma psum_local ds : Forall (fun d => (d < N)%nat) ds -> forall f E, local (ds ++ E) f -> local E (psum ds f).
  Proof.
    induction 1 as [|d ds Hd HF IH]; intros f E Hf; [exact Hf|]. intros is is' js js' L1 L2 L3 L4 H1 H2. cbn [psum].
    apply rsum_ext. intros i Hi. apply rsum_ext. intros j Hj. f_equal. apply (IH f (d :: E)); rewrite ?upd_length; auto.
    - apply (local_incl ((d :: ds) ++ E)); auto. intros x [<-|Hx]; [apply in_or_app; right; simpl; auto|].
      apply in_app_iff in Hx. apply in_or_app. simpl. tauto.
    - apply agree_upd; auto; lia.
    - apply agree_upd; auto; lia.
  Qed.
  Lemma psum_ext ds f g : (forall is js, length is = N -> length js = N -> f is js = g is js) -> forall is js, length is = N -> length js = N -> psum ds f is js = psum ds g is js.
  Proof.
    intros H. induction ds as [|d ds IH]; intros is js Li Lj; cbn; auto. apply rsum_ext. intros i Hi. apply rsum_ext. intros j Hj. rewrite IH; rewrite ?upd_length; auto.
  Qed.
  Lemma psum_scal ds c f : forall is js, psum ds (fun a b => c * f a b) is js = c * psum ds f is js.
  Proof.
    induction ds as [|d ds IH]; intros is js; cbn; auto. rewrite <- rsum_scal_l. apply rsum_ext. intros i Hi. rewrite <- rsum_scal_l. apply rsum_ext. intros j Hj. rewrite IH. ring.
  Qed.
  Lemma psum_bsum ds ns (F : list nat -> list nat -> list nat -> R) : forall is js, psum ds (fun a b => bsum ns (fun ks => F ks a b)) is js = bsum ns (fun ks => psum ds (F ks) is js).
  Proof.
    induction ds as [|d ds IH]; intros is js; cbn; auto.
    transitivity (rsum (sX d) (fun i => bsum ns (fun ks => rsum (sY d) (fun j => M d i j * psum ds (F ks) (upd d i is) (upd d j js))))).
    - apply rsum_ext. intros i Hi. rewrite bsum_rsum_exchange. apply rsum_ext. intros j Hj. rewrite IH, <- bsum_scal_l. auto.
    - symmetry. apply bsum_rsum_exchange.
  Qed.
  Lemma upd_agree E d i is : ~ In d E -> agree E (upd d i is) is.
  Proof. intros Hn x Hx. apply nth_upd_neq. intros ->. contradiction. Qed.
  Lemma psum_mul_const ds E f g : local E f -> (forall d, In d ds -> ~ In d E) -> forall is js, length is = N -> length js = N ->
    psum ds (fun a b => f a b * g a b) is js = f is js * psum ds g is js.
  Proof.
    intros Hf. induction ds as [|d ds IH]; intros Hd is js Li Lj; cbn; auto. rewrite <- rsum_scal_l. apply rsum_ext. intros i Hi.
    rewrite <- rsum_scal_l. apply rsum_ext. intros j Hj. rewrite IH; rewrite ?upd_length; auto; [|intros; apply Hd; simpl; auto].
    rewrite (Hf (upd d i is) is (upd d j js) js); rewrite ?upd_length; auto; [ring|apply upd_agree; apply Hd; simpl; auto|apply upd_agree; apply Hd; simpl; auto].
  Qed.
  Lemma psum_app_mul ds1 ds2 f g : Forall (fun d => (d < N)%nat) ds2 -> local ds1 f -> local ds2 g -> (forall d, In d ds1 -> ~ In d ds2) ->
    forall is js, length is = N -> length js = N ->
    psum (ds1 ++ ds2) (fun a b => f a b * g a b) is js = psum ds1 f is js * psum ds2 g is js.
  Proof.
    intros HF Hf Hg Hd. assert (H : forall l, incl l ds1 -> forall is js, length is = N -> length js = N ->
      psum (l ++ ds2) (fun a b => f a b * g a b) is js = psum l f is js * psum ds2 g is js).
    { induction l as [|d l IH]; intros Hi is js Li Lj; cbn [app psum].
      - apply (psum_mul_const ds2 ds1); auto. intros d H1 H2. apply (Hd d); auto.
      - rewrite <- rsum_scal_r. apply rsum_ext. intros i Hi'. rewrite <- rsum_scal_r. apply rsum_ext. intros j Hj. rewrite IH; rewrite ?upd_length; auto; [|intros x Hx; apply Hi; simpl; auto].
        assert (Hn : ~ In d ds2) by (apply Hd, Hi; simpl; auto).
        rewrite (psum_local ds2 HF g [] ltac:(rewrite app_nil_r; exact Hg) (upd d i is) is (upd d j js) js); rewrite ?upd_length; auto; [ring| |]; intros x []. }
    apply H. apply incl_refl.
  Qed.
  Lemma psum_perm ds ds' : Permutation ds ds' -> NoDup ds -> forall f is js, psum ds f is js = psum ds' f is js.
  Proof.
    induction 1 as [|x l l' HP IH|x y l|l1 l2 l3 H1 IH1 H2 IH2]; intros ND f is js; cbn.
    - auto.
    - inversion ND; subst. apply rsum_ext. intros i Hi. apply rsum_ext. intros j Hj. rewrite IH; auto.
    - inversion ND as [|? ? Hn ND']; subst. assert (Hxy : x <> y) by (intros ->; apply Hn; simpl; auto).
      transitivity (rsum (sX y) (fun i => rsum (sX x) (fun i' => rsum (sY y) (fun j => rsum (sY x) (fun j' => M y i j * (M x i' j' * psum l f (upd x i' (upd y i is)) (upd x j' (upd y j js)))))))).
      + apply rsum_ext. intros i Hi. etransitivity; [|apply rsum_exchange]. apply rsum_ext. intros j Hj. rewrite <- rsum_scal_l. apply rsum_ext. intros i' Hi'. rewrite <- rsum_scal_l. auto.
      + rewrite rsum_exchange. apply rsum_ext. intros i Hi. etransitivity; [apply rsum_ext; intros i' Hi'; apply rsum_exchange|].
        etransitivity; [apply rsum_exchange|]. apply rsum_ext. intros j Hj. rewrite <- rsum_scal_l. apply rsum_ext. intros i' Hi'. rewrite <- rsum_scal_l. apply rsum_ext. intros j' Hj'.
        rewrite (upd_comm x y i), (upd_comm x y j) by auto. ring.
    - rewrite IH1 by auto. apply IH2. apply (Permutation_NoDup H1 ND).
  Qed.
  Lemma psum_seq k : forall m f a ja b jb, length a = m -> length b = m -> length ja = k -> length jb = k ->
    psum (seq m k) f (a ++ ja) (b ++ jb) =
    bsum (map sX (seq m k)) (fun u => bsum (map sY (seq m k)) (fun v =>
      lprod (combine (seq m k) (combine u v)) (fun p => M (fst p) (fst (snd p)) (snd (snd p))) * f (a ++ u) (b ++ v))).
  Proof.
    induction k as [|k IH]; intros m f a ja b jb La Lb Lja Ljb.
    - destruct ja, jb; try discriminate. cbn. ring.
    - destruct ja as [|x ja], jb as [|y jb]; try discriminate. cbn [seq psum map bsum]. apply rsum_ext. intros i Hi.
      transitivity (rsum (sY m) (fun j => bsum (map sX (seq (S m) k)) (fun u => bsum (map sY (seq (S m) k)) (fun v =>
        M m i j * (lprod (combine (seq (S m) k) (combine u v)) (fun p => M (fst p) (fst (snd p)) (snd (snd p))) * f (a ++ i :: u) (b ++ j :: v)))))).
      + apply rsum_ext. intros j Hj.
        assert (E1 : upd m i (a ++ x :: ja) = (a ++ [i]) ++ ja) by (rewrite upd_app_r by lia; rewrite La, Nat.sub_diag; cbn; rewrite <- app_assoc; auto).
        assert (E2 : upd m j (b ++ y :: jb) = (b ++ [j]) ++ jb) by (rewrite upd_app_r by lia; rewrite Lb, Nat.sub_diag; cbn; rewrite <- app_assoc; auto).
        rewrite E1, E2. rewrite (IH (S m)) by (rewrite ?app_length; cbn in *; lia).
        rewrite <- bsum_scal_l. apply bsum_ext. intros u Hu. rewrite <- bsum_scal_l. apply bsum_ext. intros v Hv. rewrite <- !app_assoc. auto.
      + etransitivity; [symmetry; apply bsum_rsum_exchange|]. apply bsum_ext. intros u Hu. apply rsum_ext. intros j Hj. apply bsum_ext. intros v Hv. cbn. ring.
  Qed.
End Psum.
