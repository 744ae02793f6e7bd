(** Sums over labelled indices, transpositions given by labels. *)
From Coq Require Import List Arith Lia Bool Ring Permutation.
From Verif.Base Require Import ListAux CRing Index.
From Verif.Model Require Import Sorting Numpy FullTensor DimensionTree TreeRoot.
From Verif.Proofs Require Import NumpyP FullTensorP.
Import ListNotations.

Definition fset (f : nat -> nat) (a k : nat) : nat -> nat := fun b => if (b =? a)%nat then k else f b.

Section Labels.
  Context {R : Type} {CR : CRing R}.
  Add Ring Rrt1 : (@rth R CR).
  Local Open Scope cr_scope.

  (** sum over the values of the labels L, the other labels having the values f *)
  Fixpoint esum (L : list nat) (sz : nat -> nat) (F : (nat -> nat) -> R) (f : nat -> nat) : R :=
    match L with [] => F f | a :: L => rsum (sz a) (fun k => esum L sz F (fset f a k)) end.
  Definition resp (F : (nat -> nat) -> R) := forall f g, (forall a, f a = g a) -> F f = F g.

  Lemma esum_resp L sz F : resp F -> resp (esum L sz F).
  Proof.
    intros HF. induction L as [|a L IH]; [exact HF|]. intros f g H. cbn [esum]. apply rsum_ext. intros k Hk. apply IH.
    intros b. unfold fset. rewrite H. auto.
  Qed.
  Lemma esum_perm L M sz F : resp F -> NoDup L -> Permutation L M -> forall f, esum L sz F f = esum M sz F f.
  Proof.
    intros HF ND HP. induction HP; intros f; auto.
    - cbn [esum]. apply rsum_ext. intros k Hk. apply IHHP. inversion ND; auto.
    - cbn [esum]. rewrite rsum_exchange. apply rsum_ext. intros i Hi. apply rsum_ext. intros j Hj. apply esum_resp; auto.
      intros a. unfold fset. destruct (Nat.eqb_spec a x), (Nat.eqb_spec a y); auto. subst. inversion ND. subst. exfalso. apply H1. left; auto.
    - rewrite IHHP1, IHHP2; auto. apply (Permutation_NoDup HP1); auto.
  Qed.
  (** the values of the labels are in range and the other labels keep theirs *)
  Lemma esum_ext L sz F G : NoDup L -> forall f, (forall g, (forall a, In a L -> (g a < sz a)%nat) -> (forall a, ~ In a L -> g a = f a) -> F g = G g) ->
    esum L sz F f = esum L sz G f.
  Proof.
    induction L as [|a L IH]; intros ND f H; cbn [esum].
    - apply H; auto. intros a [].
    - inversion ND; subst. apply rsum_ext. intros k Hk. apply IH; auto. intros g H1 H2'. apply H.
      + intros b [<-|Hb]; auto. rewrite H2' by auto. unfold fset. rewrite Nat.eqb_refl. auto.
      + intros b Hb. cbn [In] in Hb. rewrite H2' by tauto. unfold fset. destruct (Nat.eqb_spec b a); auto. subst. tauto.
  Qed.
  Lemma esum_scal_l L sz F c f : esum L sz (fun g => c * F g) f = c * esum L sz F f.
  Proof.
    revert f. induction L as [|a L IH]; intros f; cbn [esum]; auto. rewrite <- rsum_scal_l. apply rsum_ext. intros k Hk. apply IH.
  Qed.
  (** the labels not in L do not matter to F: any start will do *)
  Lemma esum_start L sz F f g : NoDup L -> (forall h h', (forall a, In a L -> h a = h' a) -> (forall a, ~ In a L -> h a = f a /\ h' a = g a) -> F h = F h') ->
    esum L sz F f = esum L sz F g.
  Proof.
    revert f g. induction L as [|a L IH]; intros f g ND H; cbn [esum].
    - apply H; [intros a []|auto].
    - inversion ND; subst. apply rsum_ext. intros k Hk. apply IH; auto. intros h h' E1 E2. apply H.
      + intros b [<-|Hb]; auto. destruct (E2 a); auto. rewrite H0, H1. unfold fset. rewrite Nat.eqb_refl. auto.
      + intros b Hb. cbn [In] in Hb. destruct (E2 b); [tauto|]. rewrite H0, H1. unfold fset. destruct (Nat.eqb_spec b a); [subst; tauto|auto].
  Qed.
  (** as a sum over the multi-indices *)
  Fixpoint envset (f : nat -> nat) (L ks : list nat) : nat -> nat :=
    match L, ks with a :: L, k :: ks => envset (fset f a k) L ks | _, _ => f end.
  Lemma envset_out L : forall f ks b, ~ In b L -> envset f L ks b = f b.
  Proof.
    induction L as [|a L IH]; intros f ks b Hb; destruct ks as [|k ks]; auto. cbn [envset]. cbn [In] in Hb. rewrite IH by tauto.
    unfold fset. destruct (Nat.eqb_spec b a); auto. subst. tauto.
  Qed.
  Lemma envset_in L : forall f ks, NoDup L -> length ks = length L -> map (envset f L ks) L = ks.
  Proof.
    induction L as [|a L IH]; intros f ks ND HL; destruct ks as [|k ks]; try discriminate; auto. inversion ND; subst. cbn [envset map].
    injection HL as HL. f_equal; [|apply IH; auto]. rewrite envset_out by auto. unfold fset. rewrite Nat.eqb_refl. auto.
  Qed.
  Lemma esum_bsum L sz F f : esum L sz F f = bsum (map sz L) (fun ks => F (envset f L ks)).
  Proof.
    revert f. induction L as [|a L IH]; intros f; cbn [esum map bsum envset]; auto. apply rsum_ext. intros k Hk. apply IH.
  Qed.
  Lemma bsum_esum L sz (G : list nat -> R) f : NoDup L -> bsum (map sz L) G = esum L sz (fun g => G (map g L)) f.
  Proof.
    intros ND. rewrite esum_bsum. apply bsum_ext. intros ks Hk. rewrite envset_in; auto. pose proof (valid_length _ _ Hk) as HL. rewrite map_length in HL. auto.
  Qed.
  Lemma lprod_combine_map (L : list nat) (g : nat -> nat) (H : nat * nat -> R) : lprod (combine L (map g L)) H = lprod L (fun c => H (c, g c)).
  Proof. induction L as [|a L IH]; cbn [map combine lprod]; auto. rewrite IH. auto. Qed.
End Labels.

Lemma where_one a l0 : NoDup a -> In l0 a -> filter (fun i => nth i a 0 =? l0) (seq 0 (length a)) = [index_of l0 a].
Proof.
  intros ND Hi. destruct (index_of_nth a l0 Hi) as [Hl Hn].
  replace (length a) with (index_of l0 a + (1 + (length a - index_of l0 a - 1))) by lia.
  rewrite seq_app, seq_app, !filter_app. cbn [plus]. rewrite ?Nat.add_0_l.
  assert (G : forall s m, (forall i, In i (seq s m) -> i < length a /\ i <> index_of l0 a) -> filter (fun i => nth i a 0 =? l0) (seq s m) = []).
  { intros s m H. rewrite (filter_ext_in _ (fun _ => false)); [clear; induction (seq s m); cbn; auto|].
    intros i Hi'. destruct (H i Hi') as [H1 H2]. apply Nat.eqb_neq. intros E. apply H2. rewrite <- E. rewrite index_of_NoDup; auto. }
  rewrite (G 0 (index_of l0 a)), (G (index_of l0 a + 1)); [cbn [seq filter app]; rewrite Hn, Nat.eqb_refl; auto| |]; intros i Hi'; apply in_seq in Hi'; lia.
Qed.
Lemma where_cat_map a b : NoDup a -> incl b a -> where_cat a b = map (fun l0 => index_of l0 a) b.
Proof.
  intros ND Hi. unfold where_cat. induction b as [|x b IH]; auto. cbn [flat_map map]. rewrite where_one; auto; [|apply Hi; left; auto].
  cbn [app]. f_equal. apply IH. intros y Hy. apply Hi. right; auto.
Qed.
Lemma index_of_seq_self a : NoDup a -> map (fun l0 => index_of l0 a) a = seq 0 (length a).
Proof.
  intros ND. apply nth_ext' with (d := 0). { rewrite map_length, seq_length. auto. }
  intros i Hi. rewrite map_length in Hi. rewrite map_nth_in with (da := 0) by auto. rewrite seq_nth by auto. rewrite index_of_NoDup; auto.
Qed.
(** transposing by labels: a labels the axes of A, b those of the result *)
Lemma transpose_labels {K : Type} (A : nd K) a b : NoDup a -> Permutation a b -> length (shape A) = length a ->
  exists B, ft_transpose A (where_cat a b) = Some B /\ shape B = map (fun x => nth (index_of x a) (shape A) 0) b /\
    forall f, (forall x, In x a -> f x < nth (index_of x a) (shape A) 0) -> get B (map f b) = get A (map f a).
Proof.
  intros ND HP HL. assert (HI : incl b a) by (intros x Hx; apply (Permutation_in x (Permutation_sym HP)); auto).
  rewrite where_cat_map by auto.
  destruct (ft_transpose_spec A (map (fun l0 => index_of l0 a) b)) as (B & E & S & G & _).
  { unfold is_perm, ndim. rewrite HL, <- (index_of_seq_self a ND). apply Permutation_map, Permutation_sym, HP. }
  exists B. split; auto. split.
  - rewrite S. unfold sel. rewrite map_map. auto.
  - intros f Hf. rewrite <- (G (map f a)).
    + f_equal. unfold sel. rewrite map_map. apply map_ext_in. intros x Hx. destruct (index_of_nth a x (HI x Hx)) as [H1 H2].
      rewrite map_nth_in with (da := 0) by auto. rewrite H2. auto.
    + apply valid_intro; [rewrite map_length; auto|]. intros j Hj. rewrite HL in Hj. rewrite map_nth_in with (da := 0) by auto.
      specialize (Hf (nth j a 0) (nth_In _ _ Hj)). rewrite index_of_NoDup in Hf; auto.
Qed.
